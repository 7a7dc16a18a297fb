(** Properties C13 and C14: the time stepping schemes. *)
From Verif Require Import RKModel RKSpec RKProofs RKProofs2 RKProofs3.
Local Open Scope R_scope.

(** C13: every shipped table describes, for every system of equations, start time and step size, a Runge-Kutta method
    whose coefficients satisfy all order conditions of the advertised order. *)
Theorem c13_runge_kutta_order :
  (forall th, scheme_order 0 1 (one_step_theta th)) /\ scheme_order 0 2 (one_step_theta (1/2)) /\
  scheme_order 0 1 explicit_euler /\ scheme_order 0 1 implicit_euler /\
  scheme_order 0 2 heun /\ scheme_order 0 3 shu3 /\ scheme_order 0 4 rk4 /\
  scheme_order 0 2 alexander2 /\ scheme_order 0 2 fractional_step /\ scheme_order tiny 3 alexander3.
Proof. exact all_orders. Qed.
Print Assumptions c13_runge_kutta_order.

(** C13: one-step-theta has order two for no other theta. *)
Theorem c13_theta_order_two_only_for_half : forall th al, th <> 1/2 -> equivalent_to (one_step_theta th) al ->
  ~ has_order 1 al (d (one_step_theta th)) 0 2.
Proof. exact theta_not_order2. Qed.
Print Assumptions c13_theta_order_two_only_for_half.

(** C13: polynomial solutions up to the order are reproduced exactly, for every start time and step size. *)
Theorem c13_exact_on_polynomials :
  (forall th, exact_on_polynomials 1 (one_step_theta th)) /\ exact_on_polynomials 2 (one_step_theta (1/2)) /\
  exact_on_polynomials 2 heun /\ exact_on_polynomials 3 shu3 /\ exact_on_polynomials 4 rk4 /\
  exact_on_polynomials 2 alexander2 /\ exact_on_polynomials 2 fractional_step /\
  forall x, x * x * x - 3 * x * x + 3/2 * x - 1/6 = 0 -> 0.43 <= x <= 0.44 -> exact_on_polynomials 3 (alexander3_of x).
Proof. exact all_exact. Qed.
Print Assumptions c13_exact_on_polynomials.

(** C13: on the linear test equation the amplification factor agrees with the exponential up to the order. *)
Theorem c13_linear_test_equation :
  (forall th, linear_order 1 (one_step_theta th)) /\ linear_order 2 (one_step_theta (1/2)) /\
  linear_order 2 heun /\ linear_order 3 shu3 /\ linear_order 4 rk4 /\
  linear_order 2 alexander2 /\ linear_order 2 fractional_step /\
  forall x, x * x * x - 3 * x * x + 3/2 * x - 1/6 = 0 -> linear_order 3 (alexander3_of x).
Proof. exact all_linear. Qed.
Print Assumptions c13_linear_test_equation.

(** C13: the Newton loop of the Alexander 3 table ends within 10^-9216 of the exact coefficient. *)
Theorem c13_alexander3_newton_loop : exists r, r * r * r - 3 * r * r + 3/2 * r - 1/6 = 0 /\ 0.43 <= r <= 0.44 /\
  Rabs (alexander3_alpha - r) <= tiny.
Proof. exact alexander3_alpha_root. Qed.
Print Assumptions c13_alexander3_newton_loop.

(** The premises are satisfiable: stage values of Heun's method for u' = 2 t, u(1) = 5, step 3. *)
Example c13_stage_values : let u := fun (r : nat) (_ : unit) => match r with O => 5 | 1%nat => 11 | _ => 20 end in
  stage_values heun (fun tau _ _ => poly (dpoly [4; 0; 1]) tau) 1 3 u /\ u O tt = poly [4; 0; 1] 1 /\
  u 2%nat tt = poly [4; 0; 1] (1 + 3).
Proof.
  cbn zeta. split; [|split; cbn; lra].
  intros r Hr k. cbn in Hr. stage r; unfold a, b, d; cbn; lra.
Qed.

(** C14: for every shipped scheme the tables have the right shape, stage r uses stages up to r only, a(r,r) = 1, the
    rows of a sum to zero, the stage times are consistent with b, run from 0 to 1 and stay inside the step, and
    implicit() tells whether some stage needs a solve.  For one-step-theta this needs theta >= 0. *)
Theorem c14_table_structure_partial :
  (forall th, 0 <= th -> good_structure (one_step_theta th)) /\ good_structure explicit_euler /\
  good_structure implicit_euler /\ good_structure heun /\ good_structure shu3 /\ good_structure rk4 /\
  good_structure alexander2 /\ good_structure fractional_step /\ good_structure alexander3.
Proof. exact all_structured. Qed.
Print Assumptions c14_table_structure_partial.

(** C14 refuted for negative theta: the scheme calls itself explicit although b(1,1) is not zero. *)
Theorem c14_negative_theta_refuted : exists th, ~ implicit_iff (one_step_theta th) /\ implicit (one_step_theta th) = false /\
  b (one_step_theta th) 1 1 <> 0.
Proof.
  exists (-1). split; [apply theta_implicit_negative; lra|]. split; [|unfold b; cbn; lra].
  cbn. destruct (Rlt_dec 0 (-1)); auto; lra.
Qed.
Print Assumptions c14_negative_theta_refuted.
