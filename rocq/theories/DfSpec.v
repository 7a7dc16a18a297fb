(** What a basis must satisfy, and what the space promises (no reference to the code). *)
From Verif Require Import Common DfModel.

(** A dof is named by the entity it belongs to (type and index) and its number there. *)
Definition names (l : ldof) (t e k : nat) : Prop := ld_type l = t /\ ld_ent l = e /\ ld_key l = k.
(** The subentities of the elements are entities of the grid. *)
Definition valid (m : mesh) : Prop := forall l, In l (all_dofs m) -> In (ld_type l) (all_types m) /\ ld_ent l < me_size m (ld_type l).
(** Elements that share a dof give it the same index, and different dofs have different indices. *)
Definition consistent (m : mesh) : Prop :=
  forall l l', In l (all_dofs m) -> In l' (all_dofs m) -> names l (ld_type l') (ld_ent l') (ld_key l') -> ld_glob l = ld_glob l'.
Definition injective (m : mesh) : Prop :=
  forall l l', In l (all_dofs m) -> In l' (all_dofs m) -> ld_glob l = ld_glob l' -> names l (ld_type l') (ld_ent l') (ld_key l').
(** The numbers on an entity have no gaps, and neither have the indices. *)
Definition gapless (m : mesh) : Prop :=
  forall l k, In l (all_dofs m) -> k <= ld_key l -> exists l', In l' (all_dofs m) /\ names l' (ld_type l) (ld_ent l) k.
Definition complete (m : mesh) : Prop :=
  (forall l, In l (all_dofs m) -> ld_glob l < me_basis m) /\
  (forall g, g < me_basis m -> exists l, In l (all_dofs m) /\ ld_glob l = g).
(** The types of the grid: each belongs to one codimension and has entities. *)
Definition inhabited_types (m : mesh) : Prop := forall t, In t (all_types m) -> 0 < me_size m t.
Definition separate_types (m : mesh) : Prop := NoDup (all_types m).
(** All entities. *)
Definition entities (m : mesh) : list (nat * nat) := flat_map (fun t => map (fun e => (t, e)) (seq 0 (me_size m t))) (all_types m).
(** The number of dofs on an entity: those with the numbers 0, 1, ..., n-1 exist and no other. *)
Definition has_dofs (m : mesh) (t e n : nat) : Prop :=
  forall k, k < n <-> exists l, In l (all_dofs m) /\ names l t e k.
(** The index which the last element of the grid gives to a dof. *)
Definition last_index (D : list ldof) (t e k : nat) : option nat :=
  fold_left (fun r l => if (ld_type l =? t) && (ld_ent l =? e) && (ld_key l =? k) then Some (ld_glob l) else r) D None.
