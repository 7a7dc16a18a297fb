(** Specification vocabulary for the parallel operators and preconditioners (C92 - C95). *)
From Coq Require Import Reals.
From Verif Require Import Common ParModel ParSpec DdModel.

(** The containers of the ranks hold every DOF of the rank once. *)
Definition containers (W : world) (shape : nat -> blocks dof) : Prop :=
  forall q, q < nranks W -> arranges W q (flatten (shape q)).

(** Every copy of a DOF has the same value. *)
Definition consistent (W : world) (x : dvec R) (X : dof -> R) : Prop :=
  forall q d, has_dof W q d -> val (x q) d = X d.

(** The copies agree wherever the entity is interior or border. *)
Definition consistent_ib (W : world) (x : dvec R) (X : dof -> R) : Prop :=
  forall q d, has_dof W q d -> ib W q (fst d) = true -> val (x q) d = X d.

(** [q] stores [d] in the interior or on the border. *)
Definition active (W : world) (q : nat) (d : dof) : Prop := has_dof W q d /\ ib W q (fst d) = true.

(** The ranks with property [P], each once. *)
Definition ranks_with (P : nat -> Prop) (l : list nat) : Prop := NoDup l /\ forall s, In s l <-> P s.

(** The values of the interior and border copies add up to X. *)
Definition additive (W : world) (x : dvec R) (X : dof -> R) : Prop :=
  forall d l, ranks_with (fun s => active W s d) l -> l <> [] -> X d = rsum (fun s => val (x s) d) l.

(** The matrices of the ranks add up to the global matrix. *)
Definition matrix_additive (W : world) (A : dmat) (G : dof -> dof -> R) : Prop :=
  forall i j l, (exists q, active W q i) -> ranks_with (fun s => active W s i /\ has_dof W s j) l -> G i j = rsum (fun s => A s i j) l.

(** Product of the global matrix with the global vector. *)
Definition product (G : dof -> dof -> R) (all : list dof) (X : dof -> R) (i : dof) : R :=
  rsum (fun j => G i j * X j)%R all.

(** Row [i] of rank [q] is the whole row of the global matrix. *)
Definition full_row (W : world) (A : dmat) (G : dof -> dof -> R) (q : nat) (i : dof) : Prop :=
  (forall j, has_dof W q j -> A q i j = G i j) /\
  (forall j, (exists s, has_dof W s j) -> ~ has_dof W q j -> G i j = 0%R).

(** The ranks' matrices are diagonal with entries that are not zero. *)
Definition diagonal (W : world) (A : dmat) : Prop :=
  (forall q i, has_dof W q i -> A q i i <> 0%R) /\
  (forall q i j, has_dof W q i -> has_dof W q j -> i <> j -> A q i j = 0%R).
