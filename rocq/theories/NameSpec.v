(** Specification vocabulary for names of output files (C164). *)
From Coq Require Import ZArith.
From Verif Require Import Common NameModel.
Local Open Scope Z_scope.

Definition int (i : Z) : Prop := - 2 ^ 31 <= i < 2 ^ 31.

(** The number written with decimal digits: value of a list of digit characters. *)
Definition value (s : cstring) : Z := fold_left (fun v ch => 10 * v + (ch - 48)) s 0.
Definition digits (s : cstring) : Prop := forall ch, In ch s -> 48 <= ch <= 57.

(** Order of a directory listing. *)
Inductive before : cstring -> cstring -> Prop :=
| BeforeEnd ch t : before [] (ch :: t)
| BeforeHere ch ch' s t : ch < ch' -> before (ch :: s) (ch' :: t)
| BeforeLater ch s t : before s t -> before (ch :: s) (ch :: t).

Definition increments (os : list call) : Z :=
  Z.of_nat (length (filter (fun o => match o with Increment => true | _ => false end) os)).
