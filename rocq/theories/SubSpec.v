(** What a subspace should do. *)
From Verif Require Import Common OrderingModel OrderingSpec.
From Verif Require LfsModel LfsSpec.

(** Paths that start with [p], without it *)
Fixpoint drop_prefix (p q : list nat) : option (list nat) :=
  match p, q with
  | [], _ => Some q
  | a :: p, b :: q => if a =? b then drop_prefix p q else None
  | _, [] => None
  end.
Definition below (p : list nat) (l : list (list nat)) : list (list nat) := flat_map (fun q => match drop_prefix p q with Some r => [r] | None => [] end) l.

(** [groups] lists DOF indices of an element, leaf by leaf of the subspace at [p]; the tree indices are those of the whole space. *)
Definition subspace_dofs (o : ord) (p : list nat) (groups : list (list dof)) : Prop :=
  Forall2 (fun q g => forall d, In d g -> dof_of o (fst d) (snd d) /\ exists i, snd d = p ++ q ++ [i]) (below p (leaf_paths o)) groups.

(** All DOF indices of the element fill the storage (which has place for the largest element). *)
Definition fills (e : nat) (t : LfsModel.lfs) (a : list LfsModel.dof) : Prop :=
  sum_nat (map (fun x => if LfsModel.inside (LfsSpec.fe x e) then LfsModel.basis (LfsSpec.fe x e) else 0) (LfsSpec.leaves t)) = length a.
(** The tree index of every leaf fits, below [path]. *)
Definition fits (cap : nat) (path : list nat) (t : LfsModel.lfs) : Prop := forall x, In x (LfsSpec.leaves t) -> length path + length (LfsSpec.path x) + 1 <= cap.
(** [t] is the tree of the subspace at [p] of the space with the tree [w]. *)
Definition is_subspace (w : LfsModel.lfs) (p : list nat) (t : LfsModel.lfs) : Prop := exists s, LfsSpec.node_at w p = Some s /\
  map (fun x => (LfsSpec.path x, LfsSpec.fe x)) (LfsSpec.leaves t) = map (fun x => (LfsSpec.path x, LfsSpec.fe x)) (LfsSpec.leaves s).
(** A DOF index as the orderings see it: tree index outermost entry first *)
Definition outermost_first (d : LfsModel.dof) : dof := ((LfsModel.gt d, LfsModel.ei d), rev (LfsModel.ti d)).
(** Sizes of the leaves of an element *)
Definition leaf_sizes (e : nat) (t : LfsModel.lfs) : list nat :=
  map (fun x => if LfsModel.inside (LfsSpec.fe x e) then LfsModel.basis (LfsSpec.fe x e) else 0) (LfsSpec.leaves t).
