(** What a transfer should do. *)
From Verif Require Import TransferModel.
Local Open Scope R_scope.

Definition rsum {A} (f : A -> R) (l : list A) : R := fold_right (fun x s => f x + s) 0 l.

(** Sizes of the local spaces depend on the geometry type only. *)
Definition uniform (F : fem) : Prop :=
  (forall c c', gtype F c = gtype F c' -> sizes F c = sizes F c') /\ (forall c, length (sizes F c) = leaves F).
(** First local index of leaf [k] of the tree on a cell, and the i-th coefficient of that leaf. *)
Definition first (F : fem) (c : cell) (k : nat) : nat := Common.sum_nat (firstn k (sizes F c)).
Definition size (F : fem) (c : cell) (k : nat) : nat := nth k (sizes F c) 0%nat.
Definition coefficient (F : fem) (l : list R) (c : cell) (k i : nat) : R := nth (first F c k + i) l 0.

(** Strict ancestors. *)
Inductive ancestor : cell -> cell -> Prop :=
| anc_father c f : father c = Some f -> ancestor f c
| anc_step c f a : father c = Some f -> ancestor a f -> ancestor a c.
(** Cells reached from a cell by going to the father while the cell might vanish. *)
Inductive climbs (vanish : cell -> bool) (c : cell) : cell -> Prop :=
| climbs_self : climbs vanish c c
| climbs_up a f : climbs vanish c a -> vanish a = true -> father a = Some f -> climbs vanish c f.
Definition saved (old : list cell) (vanish : cell -> bool) (a : cell) : Prop := exists c, In c old /\ climbs vanish c a.

(** The leaves of a grid: none is an ancestor of another one. *)
Definition leaf_set (old : list cell) : Prop := forall a c, In a old -> In c old -> ~ ancestor a c.
(** What a grid may do between preAdapt and postAdapt: a leaf cell of the new grid is a leaf of the old grid, descends from
    one, or replaces descendants that were announced as possibly vanishing. *)
Definition adapted (old new : list cell) (vanish : cell -> bool) : Prop :=
  forall e, In e new -> In e old \/ (exists c, In c old /\ ancestor c e) \/ saved old vanish e.

(** The cell with data that a new cell takes its data from: itself or its nearest ancestor with data. *)
Inductive source (m : tmap) : cell -> cell -> list R -> Prop :=
| src_self c v : m c = Some v -> source m c c v
| src_up c f a v : m c = None -> father c = Some f -> source m f a v -> source m c a v.

(** The i-th local value of a new cell: saved, or interpolated from its source. *)
Definition gets (F : fem) (e a : cell) (v : list R) (i : nat) (x : R) : Prop :=
  (e = a /\ x = nth i v 0) \/
  (e <> a /\ exists k j, (k < leaves F)%nat /\ (j < size F e k)%nat /\ i = (first F e k + j)%nat /\
     x = nth j (interp F e a k (slice (first F a k) (size F a k) v)) 0).

(** Sum and number of the values [w e i] of the new cells whose i-th local DOF is [d]. *)
Definition at_dof (dofs : cell -> list nat) (d : nat) (f : cell -> nat -> R) (new : list cell) : R :=
  rsum (fun e => rsum (fun i => if (nth i (dofs e) 0 =? d)%nat then f e i else 0) (seq 0 (length (dofs e)))) new.

(** A discrete function given by its coefficients on every cell that can hold data.
    - it is what the old vector holds on the leaves;
    - on the quadrature points of the leaves below a saved ancestor, its fine and coarse representation agree, and the
      inverse mass matrix inverts the mass matrix of the coarse shape functions under this quadrature;
    - interpolating the coarse representation gives the fine one. *)
Definition fine_mass (F : fem) (old : list cell) (a : cell) (k j m : nat) : R :=
  rsum (fun c => rsum (fun q => fst (fst q) * (nth j (snd q) 0 * nth m (snd q) 0)) (quad F c a k)) (filter (below a) old).
Record represents (F : fem) (old new : list cell) (odofs : cell -> list nat) (vanish : cell -> bool) (u : nat -> R) (coef : cell -> list R) : Prop := {
  rep_length : forall c, length (coef c) = Common.sum_nat (sizes F c);
  rep_old : forall c, In c old -> map u (odofs c) = coef c;
  rep_agree : forall a c k q, saved old vanish a -> ~ In a old -> In c old -> ancestor a c -> (k < leaves F)%nat -> In q (quad F c a k) ->
    length (snd (fst q)) = size F c k /\ length (snd q) = size F a k /\
    rsum (fun i => coefficient F (coef c) c k i * nth i (snd (fst q)) 0) (seq 0 (size F c k)) =
    rsum (fun m => coefficient F (coef a) a k m * nth m (snd q) 0) (seq 0 (size F a k));
  rep_inverse : forall a k, saved old vanish a -> ~ In a old -> (k < leaves F)%nat ->
    length (minv F (gtype F a) k) = size F a k /\
    forall i m, (i < size F a k)%nat -> (m < size F a k)%nat ->
      rsum (fun j => nth j (nth i (minv F (gtype F a) k) []) 0 * fine_mass F old a k j m) (seq 0 (size F a k)) = if (i =? m)%nat then 1 else 0;
  rep_interp : forall a e k, saved old vanish a -> In e new -> ancestor a e -> (k < leaves F)%nat ->
    interp F e a k (slice (first F a k) (size F a k) (coef a)) = slice (first F e k) (size F e k) (coef e) }.

(** Order of operations: positions in a trace. *)
Definition before (t : list event) (x y : event) : Prop := exists l1 l2 l3, t = l1 ++ x :: l2 ++ y :: l3.
(** Average of [c] values with sum [s]; 0 if there is none. *)
Definition average (s c : R) : R := if Rlt_dec 0 c then s / c else 0.
