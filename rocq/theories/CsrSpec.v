(** What operations on a matrix with a fixed set of entries mean. *)
From Verif Require Import CsrModel.
Local Open Scope R_scope.

(** Entry (i,j) belongs to the pattern. *)
Definition present (p : pattern) (i j : nat) : bool := match nth_error p i with Some r => mem j r | None => false end.
(** Each row of a pattern is a set. *)
Definition sets (p : pattern) : Prop := Forall (@NoDup nat) p.
(** A matrix as a function; entries that are not present are 0. *)
Definition matrix := nat -> nat -> R.
Definition initial (P : nat -> nat -> bool) (e : R) : matrix := fun i j => if P i j then e else 0.
Definition meaning (P : nat -> nat -> bool) (A : matrix) (o : op) : matrix := fun i j =>
  match o with
  | Put k l v => if (i =? k)%nat && (j =? l)%nat then v else A i j
  | Accu k l v => if (i =? k)%nat && (j =? l)%nat then A i j + v else A i j
  | Assign v => if P i j then v else A i j
  | Scale v => v * A i j
  | Clear k v => if (i =? k)%nat then (if (j =? i)%nat then v else 0) else A i j
  end.
(** Operations that only address present entries. *)
Definition addresses (P : nat -> nat -> bool) (o : op) : Prop :=
  match o with Put i j _ | Accu i j _ => P i j = true | Clear i _ => P i i = true | _ => True end.
Definition after (P : nat -> nat -> bool) (e : R) (ops : list op) : matrix := fold_left (meaning P) ops (initial P e).
(** Row i of A times x. *)
Fixpoint dot (n : nat) (a x : nat -> R) : R := match n with O => 0 | S k => dot k a x + a k * x k end.
Definition at_ (x : list R) (k : nat) : R := nth k x 0.
