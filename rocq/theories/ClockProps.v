(** Properties C11 and C12: time values and their printed form. *)
From Verif Require Import Common CommonFacts ClockModel ClockSpec ClockProofs.
Local Open Scope Z_scope.

(** C11: any sequence of += and -= with normalised arguments keeps the value normalised and exact. *)
Theorem c11_arithmetic_exact : forall ops x, normalised x -> (forall o, In o ops -> normalised (op_arg o)) ->
  normalised (fold_left step ops x) /\
  nanos (fold_left step ops x) = nanos x + fold_right Z.add 0 (map op_value ops).
Proof. exact run_ok. Qed.
Print Assumptions c11_arithmetic_exact.

Example c11_run : fold_left step [OSub (mkts 3 999999999); OAdd (mkts 1 5); OAdd (mkts 0 999999999)] (mkts 2 1) = mkts 0 6.
Proof. reflexivity. Qed.
Example c11_hyps : normalised (mkts 2 1) /\ normalised (mkts 3 999999999).
Proof. unfold normalised; cbn; lia. Qed.

(** C11: x += y; x -= y restores x. *)
Theorem c11_add_then_subtract : forall x y, normalised x -> normalised y -> sub (add x y) y = x.
Proof. exact add_sub_id. Qed.
Print Assumptions c11_add_then_subtract.

(** C12, for times that are not negative: the printed text denotes the time, cut off after min(9, precision) digits.
    Missing: negative times, for which the claim is false (next theorems). *)
Theorem c12_printed_value_partial : forall prec t, normalised t -> 0 <= tv_sec t ->
  let k := Nat.min 9 prec in reads (print prec t) (nanos t / 10 ^ Z.of_nat (9 - k)) k.
Proof. exact print_nonneg. Qed.
Print Assumptions c12_printed_value_partial.

Example c12_text : print 9 (mkts 12 5000340) =
  [Dig 1; Dig 2; Dot; Dig 0; Dig 0; Dig 5; Dig 0; Dig 0; Dig 0; Dig 3; Dig 4; Dig 0].
Proof. reflexivity. Qed.

(** C12: a negative time prints as sec - nsec/10^9 instead of sec + nsec/10^9. *)
Theorem c12_negative_times_misprinted : forall t, normalised t -> tv_sec t < 0 ->
  reads (print 9 t) (tv_sec t * 10 ^ 9 - tv_nsec t) 9.
Proof. exact print_negative. Qed.
Print Assumptions c12_negative_times_misprinted.

(** C12 refuted: one second minus 2.5 seconds, i.e. -1.5 s, prints as -2.5. *)
Theorem c12_negative_difference_refuted : exists x y, normalised x /\ normalised y /\ nanos (sub x y) = - 1500000000 /\
  reads (print 9 (sub x y)) (- 2500000000) 9.
Proof.
  exists (mkts 1 0), (mkts 2 500000000). unfold normalised; cbn [tv_sec tv_nsec].
  repeat split; try lia. apply (print_negative (mkts (-2) 500000000)); [unfold normalised; cbn; lia|cbn; lia].
Qed.
Print Assumptions c12_negative_difference_refuted.
