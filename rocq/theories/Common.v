(** Shared vocabulary of the model: outcomes of a C++ call and small list utilities.
    No code of /repo is modelled here. *)
From Coq Require Export List Arith ZArith NArith Lia Bool Permutation.
From Coq Require Export ZifyBool ZifyNat ZifyN.
Export ListNotations.

(** Outcome of a call: a value, an exception (DUNE_THROW) or undefined behaviour
    (out-of-range access, violated assert under NDEBUG, null dereference, ...). *)
Inductive res (A : Type) : Type :=
| Ok (a : A)
| Throw
| UB.
Arguments Ok {A} a.
Arguments Throw {A}.
Arguments UB {A}.

Definition bind {A B} (x : res A) (f : A -> res B) : res B :=
  match x with Ok a => f a | Throw => Throw | UB => UB end.

Notation "'let*' x ':=' e 'in' k" := (bind e (fun x => k))
  (at level 200, x pattern, e at level 200, k at level 200, right associativity).

(** Fold over a list with an operation that may fail; stops at the first failure. *)
Fixpoint foldM {A S} (f : S -> A -> res S) (l : list A) (s : S) : res S :=
  match l with
  | [] => Ok s
  | a :: l' => let* s' := f s a in foldM f l' s'
  end.

(** Replace position [n] of a list (no effect when out of range). *)
Fixpoint upd {A} (n : nat) (x : A) (l : list A) : list A :=
  match l, n with
  | [], _ => []
  | _ :: t, O => x :: t
  | h :: t, S n' => h :: upd n' x t
  end.

Definition sum_nat (l : list nat) : nat := fold_right Nat.add 0 l.

(** [slice b n l]: the [n] elements of [l] starting at position [b]. *)
Definition slice {A} (b n : nat) (l : list A) : list A := firstn n (skipn b l).

(** Prefix sums of a list starting from [acc]: [acc; acc+x0; acc+x0+x1; ...]. *)
Fixpoint psums (acc : nat) (l : list nat) : list nat :=
  acc :: match l with [] => [] | x :: t => psums (acc + x) t end.

Global Arguments Nat.ltb : simpl never.
Global Arguments N.ltb : simpl never.
Global Arguments N.eqb : simpl never.
Global Arguments N.leb : simpl never.
