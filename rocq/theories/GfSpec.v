(** What composed grid functions mean: values are lists of components. *)
From Verif Require Import Common CdModel CdSpec GfModel.
From Coq Require Import Reals.
Open Scope R_scope.

(** The components of a vector with d components, and componentwise operations *)
Definition table (d : nat) (y : vec) : list R := map y (seq 0 d).
Fixpoint zip (op : R -> R -> R) (u v : list R) : list R := match u, v with a :: u, b :: v => op a b :: zip op u v | _, _ => [] end.
Definition total (u : list R) : R := fold_right Rplus 0 u.

(** [means clock e x g v]: in the point x of the element e, with the time variables at [clock], the function g has the components v. *)
Inductive means (clock : nat -> R) (e : nat) (x : vec) : gf -> list R -> Prop :=
| MStationary d f : means clock e x (GLeaf d (Stationary f)) (table d (f e x))
| MTimeless d f : means clock e x (GLeaf d (Timeless f)) (table d (f e x))
| MTimed d c f : means clock e x (GLeaf d (Timed c f)) (table d (f (clock c) e x))
| MProduct a b u v : means clock e x a u -> means clock e x b v -> length u = length v -> means clock e x (GProduct a b) [total (zip Rmult u v)]
| MProductL a b r v : means clock e x a [r] -> means clock e x b v -> length v <> 1%nat -> means clock e x (GProduct a b) (map (Rmult r) v)
| MProductR a b u r : means clock e x a u -> means clock e x b [r] -> length u <> 1%nat -> means clock e x (GProduct a b) (map (Rmult r) u)
| MMinus a b u v : means clock e x a u -> means clock e x b v -> length u = length v -> means clock e x (GMinus a b) (zip Rminus u v)
| MDivision a b u r : means clock e x a u -> means clock e x b [r] -> means clock e x (GDivision a b) (map (fun q => q / r) u)
| MSqr a u : means clock e x a u -> means clock e x (GSqr a) [total (map (fun r => r ^ 2) u)]
| MSqrt a r : means clock e x a [r] -> means clock e x (GSqrt a) [sqrt r]
| MInverse a r : means clock e x a [r] -> means clock e x (GInverse a) [/ r]
| MScaled q a u : means clock e x a u -> means clock e x (GScaled q a) (map (Rmult q) u)
| MSelect remap a u v : means clock e x a u -> map (nth_error u) remap = map Some v -> means clock e x (GSelect remap a) v
| MSum1 a u : means clock e x a u -> means clock e x (GPointSum a []) u
| MSum a l b u v : means clock e x (GPointSum a l) u -> means clock e x b v -> length u = length v -> means clock e x (GPointSum a (l ++ [b])) (zip Rplus u v)
| MPointScale q a u : means clock e x a u -> means clock e x (GPointScale q a) (map (Rmult q) u).

(** The functions of which a function is made *)
Inductive part_of (p : gf) : gf -> Prop :=
| Self : part_of p p
| InProductL a b : part_of p a -> part_of p (GProduct a b) | InProductR a b : part_of p b -> part_of p (GProduct a b)
| InMinusL a b : part_of p a -> part_of p (GMinus a b) | InMinusR a b : part_of p b -> part_of p (GMinus a b)
| InDivisionL a b : part_of p a -> part_of p (GDivision a b) | InDivisionR a b : part_of p b -> part_of p (GDivision a b)
| InSqr a : part_of p a -> part_of p (GSqr a) | InSqrt a : part_of p a -> part_of p (GSqrt a) | InInverse a : part_of p a -> part_of p (GInverse a)
| InScaled q a : part_of p a -> part_of p (GScaled q a) | InSelect r a : part_of p a -> part_of p (GSelect r a)
| InSum a l : part_of p a -> part_of p (GPointSum a l) | InSums a l b : In b l -> part_of p b -> part_of p (GPointSum a l)
| InPointScale q a : part_of p a -> part_of p (GPointScale q a).
(** The function depends on the time variable c. *)
Definition reads (g : gf) (c : nat) : Prop := exists d f, part_of (GLeaf d (Timed c f)) g.
(** A selection picks existing components. *)
Definition selections_fit (g : gf) : Prop := forall remap a n, part_of (GSelect remap a) g -> dim a = Some n -> Forall (fun c => (c < n)%nat) remap.

(** Histories of calls of setTime *)
Fixpoint calls (l : list (gf * R)) (s : store) : option store :=
  match l with [] => Some s | (g, t) :: l => match set_time g t s with Some s => calls l s | None => None end end.
(** t is the time in the last call on a function that depends on c. *)
Definition last_set (l : list (gf * R)) (c : nat) (t : R) : Prop :=
  exists l1 g l2, l = l1 ++ (g, t) :: l2 /\ reads g c /\ forall g' t', In (g', t') l2 -> ~ reads g' c.
Inductive leaf_of (g : gf) : ftree -> Prop :=
| LeafSelf : leaf_of g (FLeaf g)
| LeafIn l f : In f l -> leaf_of g f -> leaf_of g (FNode l).

(** Elements are where the grid says: the point found is in the element, and coordinates match. *)
Definition grid_ok (G : grid) : Prop := forall x e, find G x = Some e -> forall k, global G e (local G e x) k = x k.

(** The integral over a list of cells *)
Definition cell_integral (f : field) (k : nat) (c : gcell) : R := lsum (fun q => f (g_cell c) (fst (fst q)) k * (snd (fst q) * snd q)) (g_rule c).

(** nu is the outward unit normal of the edge from p to q of the triangle p, q, r. *)
Definition outward_normal (p q r nu : vec) : Prop :=
  nu 0%nat ^ 2 + nu 1%nat ^ 2 = 1 /\ nu 0%nat * (q 0%nat - p 0%nat) + nu 1%nat * (q 1%nat - p 1%nat) = 0 /\ nu 0%nat * (r 0%nat - p 0%nat) + nu 1%nat * (r 1%nat - p 1%nat) < 0.
(** Twice the signed area *)
Definition orientation (c : nat -> vec) : R :=
  (c 1%nat 0%nat - c 0%nat 0%nat) * (c 2%nat 1%nat - c 0%nat 1%nat) - (c 1%nat 1%nat - c 0%nat 1%nat) * (c 2%nat 0%nat - c 0%nat 0%nat).
(** The edge of a local point: 0 for x = 0, 1 for y = 0, 2 for x + y = 1, as the corners opposite to it *)
Definition edge_ends (i : nat) : nat * nat * nat := match i with 0%nat => (2, 0, 1) | 1%nat => (0, 1, 2) | _ => (1, 2, 0) end%nat.
Definition on_edge (i : nat) (x : vec) : Prop :=
  match i with
  | 0%nat => x 0%nat = 0 | 1%nat => x 1%nat = 0 /\ tolerance <= x 0%nat
  | _ => x 0%nat + x 1%nat = 1 /\ tolerance <= x 0%nat /\ tolerance <= x 1%nat end.
