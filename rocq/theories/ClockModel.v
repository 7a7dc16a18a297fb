(** Model of TimeSpec (dune/pdelab/common/clock.hh 17-53) and its output operator (clock.cc 39-50).
    Integers are unbounded: overflow of time_t and long is not modelled. *)
From Verif Require Import Common.
Local Open Scope Z_scope.

(** struct TimeSpec: clock.hh 17-24. *)
Record ts := mkts { tv_sec : Z; tv_nsec : Z }.

(** operator+=: clock.hh 26-34; operator+: 35-39. *)
Definition add (x o : ts) : ts :=
  let s := tv_sec x + tv_sec o in
  let n := tv_nsec x + tv_nsec o in
  if 1000000000 <=? n then mkts (s + 1) (n - 1000000000) else mkts s n.

(** operator-=: clock.hh 40-48; operator-: 49-53. *)
Definition sub (x o : ts) : ts :=
  let s := tv_sec x - tv_sec o in
  let n := tv_nsec x - tv_nsec o in
  if n <? 0 then mkts (s - 1) (n + 1000000000) else mkts s n.

(** A client program on one TimeSpec. *)
Inductive op := OAdd (o : ts) | OSub (o : ts).
Definition step (x : ts) (o : op) : ts := match o with OAdd y => add x y | OSub y => sub x y end.

(** Characters of the printed text. *)
Inductive char := Minus | Dot | Dig (d : N).

(** ostream << long: optional minus sign and the decimal digits without leading zeros.  [fuel] bounds the number of
    digits; every number has at most as many decimal digits as binary ones. *)
Fixpoint digits (fuel : nat) (n : N) : list N :=
  match fuel with
  | O => [n]
  | S f => if (n <? 10)%N then [n] else digits f (n / 10)%N ++ [(n mod 10)%N]
  end.
Definition print_nat (n : N) : list char := map Dig (digits (N.to_nat (N.size n)) n).
Definition print_long (z : Z) : list char :=
  if z <? 0 then Minus :: print_nat (Z.to_N (- z)) else print_nat (Z.to_N z).

(** setfill('0') << setw(w) << l: padding goes to the left of the text (default adjustment). *)
Definition padded (w : nat) (t : list char) : list char := repeat (Dig 0) (w - length t) ++ t.

(** operator<<: clock.cc 39-50.  [prec] is s.precision(). *)
Definition print (prec : nat) (t : ts) : list char :=
  let tmp := print_long (tv_sec t) ++ Dot :: padded 9 (print_long (tv_nsec t)) in
  let tmp := if (prec <? 9)%nat then firstn (length tmp - (9 - prec)) tmp else tmp in
  if (prec =? 0)%nat then firstn (length tmp - 1) tmp else tmp.
