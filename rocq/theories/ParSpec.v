(** Specification vocabulary for the parallel exchange (C39, C40, C41, C43). *)
From Coq Require Import Reals.
From Verif Require Import Common ParModel.

(** A distributed grid: no entity is listed twice on a rank, every entity is interior or border on some rank, and if the
    entity set spans only the interior and border partitions then nothing else is stored. *)
Definition grid_ok (W : world) (only_interior_border : bool) : Prop :=
  (forall q, q < nranks W -> NoDup (held W q)) /\
  (forall q e, q < nranks W -> In e (held W q) ->
     exists r, r < nranks W /\ In e (held W r) /\ ib W r e = true) /\
  (only_interior_border = true -> forall q e, q < nranks W -> In e (held W q) -> ib W q e = true).

(** [r] is the smallest rank on which [e] is interior or border. *)
Definition smallest_ib (W : world) (e r : nat) : Prop :=
  (r < nranks W /\ In e (held W r) /\ ib W r e = true) /\
  forall r', r' < nranks W -> In e (held W r') -> ib W r' e = true -> r <= r'.

(** DOF [x] is stored on rank [q]. *)
Definition has_dof (W : world) (q : nat) (x : dof) : Prop :=
  q < nranks W /\ In (fst x) (held W q) /\ snd x < ndofs W (fst x).

(** A vector on rank [q] with block structure [shape]: every DOF of the rank occurs exactly once. *)
Definition arranges (W : world) (q : nat) (l : list dof) : Prop :=
  NoDup l /\ forall x, In x l <-> has_dof W q x.

(** All DOFs of the distributed problem, each once. *)
Definition all_dofs (W : world) (l : list dof) : Prop :=
  NoDup l /\ forall x, In x l <-> exists q, has_dof W q x.

(** Every stored entity carries its number of values. *)
Definition sized {A} (W : world) (st : dvec A) : Prop :=
  forall q e, q < nranks W -> In e (held W q) -> length (st q e) = ndofs W e.

(** Rank [s] contributes to the value of rank [q] on entity [e]: it is [q] itself or a sender. *)
Definition contributes (W : world) (snd : nat -> nat -> bool) (q e s : nat) : Prop :=
  s < nranks W /\ In e (held W s) /\ (s = q \/ snd s e = true).

(** The ranks that contribute, each once. *)
Definition contributors (W : world) (snd : nat -> nat -> bool) (q e : nat) (l : list nat) : Prop :=
  NoDup l /\ forall s, In s l <-> contributes W snd q e s.

(** A DOF stored on two different ranks. *)
Definition is_shared (W : world) (x : dof) : Prop :=
  exists q q', q <> q' /\ has_dof W q x /\ has_dof W q' x.

Definition rsum {A} (f : A -> R) (l : list A) : R := fold_right (fun x s => (f x + s)%R) 0%R l.
