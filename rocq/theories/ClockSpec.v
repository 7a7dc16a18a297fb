(** What times and printed times mean. *)
From Verif Require Import Common ClockModel.
Local Open Scope Z_scope.

Definition normalised (t : ts) : Prop := 0 <= tv_nsec t < 10 ^ 9.

(** The time in nanoseconds. *)
Definition nanos (t : ts) : Z := tv_sec t * 10 ^ 9 + tv_nsec t.

Definition op_arg (o : op) : ts := match o with OAdd y => y | OSub y => y end.
Definition op_value (o : op) : Z := match o with OAdd y => nanos y | OSub y => - nanos y end.

(** Reading a decimal numeral. *)
Definition value (ds : list N) : Z := fold_left (fun a d => 10 * a + Z.of_N d) ds 0.
Definition is_digits (ds : list N) : Prop := ds <> [] /\ Forall (fun d => (d < 10)%N) ds.

(** [reads text neg v k]: the text is a decimal numeral with [k] digits after the point (no point when k = 0), with a
    minus sign iff [neg], and the number it denotes is v / 10^k, the sign included. *)
Inductive reads : list char -> Z -> nat -> Prop :=
| reads_int : forall neg i, is_digits i ->
    reads ((if neg : bool then [Minus] else []) ++ map Dig i) ((if neg then -1 else 1) * value i) 0
| reads_frac : forall neg i f, is_digits i -> is_digits f ->
    reads ((if neg : bool then [Minus] else []) ++ map Dig i ++ Dot :: map Dig f)
          ((if neg then -1 else 1) * (value i * 10 ^ Z.of_nat (length f) + value f)) (length f).
