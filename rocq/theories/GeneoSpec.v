(** Specification vocabulary for the two-level Schwarz preconditioner (C71-C74). *)
From Coq Require Import Reals.
From Verif Require Import Common ParModel ParSpec GeneoModel.

(** The ranks that store entity [e], each once. *)
Definition holders (W : world) (e : nat) (l : list nat) : Prop :=
  NoDup l /\ forall q, In q l <-> q < nranks W /\ In e (held W q).

(** YaspGrid's arrangement of the unit square, for the vertices: entity [e] is the vertex [grid e] of the lattice of
    cells, the subdomains are boxes of equally many cells numbered row by row, and a rank stores the vertices of its own
    box enlarged by the overlap and cut off at the boundary of the domain. *)
Definition in_range (c n ov N i : nat) : Prop := c * n <= i + ov /\ i <= (c + 1) * n + ov /\ i <= N.
Definition yasp (W : world) (L : layout) (grid : nat -> nat * nat) (nx ny : nat) : Prop :=
  0 < nx /\ 0 < ny /\ 0 < partition_x L /\ 0 < partition_y L /\
  cells_x L = partition_x L * nx /\ cells_y L = partition_y L * ny /\
  nranks W = partition_x L * partition_y L /\
  (forall e, ndofs W e = 1) /\
  (forall col row e, col < partition_x L -> row < partition_y L ->
     (In e (held W (row * partition_x L + col)) <->
        in_range col nx (overlap L) (cells_x L) (fst (grid e)) /\ in_range row ny (overlap L) (cells_y L) (snd (grid e)))).

(** The vertex is on the outer edge of the enlarged box, inside the domain. *)
Definition edge (p n ov c i : nat) : Prop := (c + 1 < p /\ i = (c + 1) * n + ov) \/ (0 < c /\ i + ov = c * n).

(** The vertex of entity [e] is on the outer edge of rank [q]'s subdomain. *)
Definition outer (L : layout) (grid : nat -> nat * nat) (nx ny q e : nat) : Prop :=
  edge (partition_x L) nx (overlap L) (q mod partition_x L) (fst (grid e)) \/
  edge (partition_y L) ny (overlap L) (q / partition_x L) (snd (grid e)).

Definition vertex_position (L : layout) (grid : nat -> nat * nat) (e : nat) : R * R :=
  (INR (fst (grid e)) / INR (cells_x L), INR (snd (grid e)) / INR (cells_y L))%R.

(** A vector of rank [q] as a function on all DOFs: zero where the rank stores nothing. *)
Definition stored (W : world) (q : nat) (x : dof) : bool :=
  (q <? nranks W) && existsb (Nat.eqb (fst x)) (held W q) && (snd x <? ndofs W (fst x)).
Definition extended (W : world) (q : nat) (v : nat -> list R) (x : dof) : R :=
  if stored W q x then at_dof 0%R v x else 0%R.

(** The neighbours of a rank: the other ranks that store one of its entities, each once. *)
Definition neighbours (W : world) (nb : nat -> list nat) : Prop :=
  forall q, q < nranks W ->
    NoDup (nb q) /\
    forall r, In r (nb q) <-> r < nranks W /\ r <> q /\ exists e, In e (held W q) /\ In e (held W r).

(** The local matrices and the global one agree in the rows where a basis vector does not vanish, and such a row couples
    only to DOFs of the rank. *)
Definition rows_complete (W : world) (size : nat -> nat) (phi : nat -> nat -> nat -> list R) (Aq : nat -> dof -> dof -> R)
  (A : dof -> dof -> R) : Prop :=
  forall q i x, q < nranks W -> i < size q -> has_dof W q x -> at_dof 0%R (phi q i) x <> 0%R ->
    forall y, (has_dof W q y -> Aq q x y = A x y) /\ (~ has_dof W q y -> (exists r, has_dof W r y) -> A x y = 0%R).

(** One value per DOF. *)
Definition basis_sized (W : world) (size : nat -> nat) (phi : nat -> nat -> nat -> list R) : Prop :=
  forall q i e, q < nranks W -> i < size q -> In e (held W q) -> length (phi q i e) = ndofs W e.

(** Number of the basis vector [i] of rank [q] among all: the ranks one after the other. *)
Definition coarse_index (size : nat -> nat) (q i : nat) : nat := sum_nat (map size (seq 0 q)) + i.

(** u^T A v over the DOFs [all]. *)
Definition form (all : list dof) (A : dof -> dof -> R) (u v : dof -> R) : R :=
  rsum (fun x => rsum (fun y => u x * A x y * v y)%R all) all.

Definition symmetric (all : list dof) (A : dof -> dof -> R) : Prop :=
  forall x y, In x all -> In y all -> A x y = A y x.
(** u^T A u >= 0, and > 0 unless u vanishes. *)
Definition semidefinite (all : list dof) (A : dof -> dof -> R) : Prop := forall u, (0 <= form all A u u)%R.
Definition definite (all : list dof) (A : dof -> dof -> R) : Prop :=
  forall u, (exists x, In x all /\ u x <> 0%R) -> (0 < form all A u u)%R.

(** The matrices of the subdomain problems: [cons q x] says that rank [q] constrains DOF [x].  The row of a constrained DOF
    is that of the identity. *)
Definition dirichlet_rows (W : world) (cons : nat -> dof -> bool) (Aq : nat -> dof -> dof -> R) : Prop :=
  forall q x y, has_dof W q x -> has_dof W q y -> cons q x = true -> Aq q x y = if (fst x =? fst y) && (snd x =? snd y) then 1%R else 0%R.

(** A defect as the overlapping solvers keep it: the same on all ranks, zero where a rank constrains the DOF. *)
Definition defect (W : world) (cons : nat -> dof -> bool) (D : dof -> R) (d : dvec R) : Prop :=
  forall q x, has_dof W q x -> at_dof 0%R (d q) x = if cons q x then 0%R else D x.

(** All ranks hold the global vector [V]. *)
Definition consistent (W : world) (v : dvec R) (V : dof -> R) : Prop :=
  forall q x, has_dof W q x -> at_dof 0%R (v q) x = V x.

(** [solve] solves the systems of the rank matrices. *)
Definition solves_locally (W : world) (Aq : nat -> dof -> dof -> R) (dofs : nat -> list dof)
  (solve : nat -> (nat -> list R) -> (nat -> list R)) : Prop :=
  forall q b, q < nranks W ->
    (forall e, In e (held W q) -> length (solve q b e) = ndofs W e) /\
    forall x, has_dof W q x -> rsum (fun y => Aq q x y * at_dof 0%R (solve q b) y)%R (dofs q) = at_dof 0%R b x.

(** [solve] solves systems with the [n] x [n] matrix [M]. *)
Definition solves_coarse (n : nat) (M : nat -> nat -> R) (solve : list R -> list R) : Prop :=
  forall b r, r < n -> rsum (fun c => M r c * nth c (solve b) 0)%R (seq 0 n) = nth r b 0%R.
