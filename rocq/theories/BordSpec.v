(** Specification vocabulary for the border exchange (C96 - C98). *)
From Coq Require Import Reals.
From Verif Require Import Common ParModel ParSpec BordModel.

(** A nonoverlapping decomposition: indices are unique on a rank, border entities are stored, belong to the interior and
    border partition and are no cells; an entity that is interior or border on two ranks is a border entity of both. *)
Record decomposition (W : world) (cell : nat -> bool) (border : nat -> nat -> bool) (lindex : nat -> nat -> nat)
  (nindices : nat -> nat) : Prop := {
  dec_nodup : forall q, q < nranks W -> NoDup (held W q);
  dec_index : forall q e, q < nranks W -> In e (held W q) -> lindex q e < nindices q;
  dec_inj : forall q e e', q < nranks W -> In e (held W q) -> In e' (held W q) -> lindex q e = lindex q e' -> e = e';
  dec_border : forall q e, q < nranks W -> In e (held W q) -> border q e = true -> ib W q e = true /\ cell e = false;
  dec_shared : forall q s e, q < nranks W -> s < nranks W -> q <> s -> In e (held W q) -> In e (held W s) ->
    ib W q e = true -> ib W s e = true -> border q e = true
}.

(** The DOF is attached to a border entity of the rank. *)
Definition border_dof (W : world) (border : nat -> nat -> bool) (q : nat) (d : dof) : Prop :=
  has_dof W q d /\ border q (fst d) = true.

(** The local patterns of rank [q] couple row [i] and column [j], and both are unconstrained there. *)
Definition couples (lindex : nat -> nat -> nat) (consV consU : nat -> ldof -> bool) (links : nat -> list (ldof * ldof))
  (q : nat) (i j : dof) : Prop :=
  In (local lindex q i, local lindex q j) (links q) /\ consV q (local lindex q i) = false /\ consU q (local lindex q j) = false.

(** The local patterns couple DOFs of the rank that are not on cells or are. *)
Definition links_ok (W : world) (lindex : nat -> nat -> nat) (links : nat -> list (ldof * ldof)) : Prop :=
  forall q a b, q < nranks W -> In (a, b) (links q) ->
    exists i j, has_dof W q i /\ has_dof W q j /\ a = local lindex q i /\ b = local lindex q j.

(** An ordering gives different DOFs of a rank different container indices. *)
Definition injective_on (W : world) (lindex : nat -> nat -> nat) (m : nat -> ldof -> nat) : Prop :=
  forall q i j, has_dof W q i -> has_dof W q j -> m q (local lindex q i) = m q (local lindex q j) -> i = j.
