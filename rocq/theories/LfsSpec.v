(** Leaves of a bound local function space. *)
From Verif Require Import LfsModel.

(** The leaves in depth-first order with their path from the root, offset, size and finite element map. *)
Record leaf := mkleaf { path : list nat; start : nat; len : nat; fe : nat -> element }.
Definition under (k : nat) (l : leaf) : leaf := mkleaf (k :: path l) (start l) (len l) (fe l).
Fixpoint leaves (t : lfs) : list leaf :=
  match t with
  | Leaf o n f => [mkleaf [] o n f]
  | Inner _ _ ch =>
      (fix go k ch := match ch with [] => [] | c :: r => map (under k) (leaves c) ++ go (S k) r end) 0 ch
  end.
(** The node at a path. *)
Fixpoint node_at (t : lfs) (p : list nat) : option lfs :=
  match p with
  | [] => Some t
  | k :: p' => match t with
               | Leaf _ _ _ => None
               | Inner _ _ ch => match nth_error ch k with Some c => node_at c p' | None => None end
               end
  end.
(** Consecutive ranges starting at [o]. *)
Fixpoint tiles (o : nat) (l : list leaf) : Prop :=
  match l with [] => True | x :: r => start x = o /\ tiles (o + len x) r end.
Definition total (l : list leaf) : nat := sum_nat (map len l).

(** Finite elements whose basis and coefficients agree in size. *)
Definition consistent (e : nat) (t : lfs) : Prop :=
  forall x, In x (leaves t) -> inside (fe x e) = true -> length (locals (fe x e)) = basis (fe x e).
(** The DOF index belonging to a local coefficient of a leaf. *)
Definition named (p : list nat) (c : nat * nat * nat) : dof := let '(g, i, k) := c in mkdof g i (k :: rev p).
