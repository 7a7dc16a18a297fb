(** Specification vocabulary for data handles with different layouts (C42). *)
From Coq Require Import Init.Byte.
From Verif Require Import Common WireModel.

(** Every value takes sizeof(T) > 0 bytes. *)
Definition codec_ok {A} (c : codec A) : Prop :=
  0 < width c /\ forall a, length (encode c a) = width c.

(** The bytes of the value [a] determine it ([a] is a value of the C++ type). *)
Definition representable {A} (c : codec A) (a : A) : Prop := decode c (encode c a) = a.

(** The values of one leaf on both sides: one side has none, or both have the same number. *)
Definition compatible {A} (remote local : list A) : Prop :=
  remote = [] \/ local = [] \/ length remote = length local.

Fixpoint combined {A} (op : A -> A -> A) (local remote : list A) : list A :=
  match local, remote with
  | l :: local, r :: remote => op l r :: combined op local remote
  | _, _ => []
  end.

(** The new values of one leaf: unchanged if nothing was sent for it, otherwise combined one by one with what was sent
    (a leaf without local values stays without values). *)
Definition received {A} (op : A -> A -> A) (remote local : list A) : list A :=
  match remote with
  | [] => local
  | _ => combined op local remote
  end.

(** Leaf by leaf. *)
Fixpoint received_all {A} (op : A -> A -> A) (remote local : list (list A)) : list (list A) :=
  match remote, local with
  | r :: remote, l :: local => received op r l :: received_all op remote local
  | _, _ => []
  end.

(** Some leaf has values on both sides. *)
Definition some_common {A} (remote local : list (list A)) : Prop :=
  exists i r l, nth_error remote i = Some r /\ nth_error local i = Some l /\ r <> [] /\ l <> [].
