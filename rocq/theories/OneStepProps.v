(** C15, C16, C17: what the one-step grid operator assembles. *)
From Verif Require Import DriverProofs EngineProofs3 OneStepSpec OneStepProofs OneStepProofs2 OneStepProofs3 OneStepProofs4.
Local Open Scope R_scope.

(** C15: after preStage, the residual of stage r is the stage equation of the scheme; constraints act once.  Missing:
    coefficients between 0 and 1e-6, temporal operators with post-skeleton terms, and operators of which one asks for
    both sides of a face and the other has face terms and does not (see the refutations below). *)
Theorem c15_stage_residual_partial : forall G L0 L1 C e cells m T t h r us p q r0,
  constrains_once C -> coefficients_ok T r -> no_post L1 -> same_view L0 L1 ->
  let o := pre_step m T t h r in
  stage_residual G L0 L1 C e cells o (pre_stage G L0 L1 C e cells o us p) q (us r) r0 =
  C (vadd r0 (stage_formula G L0 L1 e cells o us)).
Proof. intros G L0 L1 C e cells m T t h r us p q r0 H1 H2 H3 H4 o. unfold o. destruct m; apply stage_residual_formula; assumption. Qed.
Print Assumptions c15_stage_residual_partial.

(** C15: the factors of the three modes. *)
Theorem c15_modes : forall T t h r,
  (f0 (pre_step MultiplyOperator0ByDT T t h r), f1 (pre_step MultiplyOperator0ByDT T t h r)) = (h, 1) /\
  (f0 (pre_step DivideOperator1ByDT T t h r), f1 (pre_step DivideOperator1ByDT T t h r)) = (1, 1 / h) /\
  (f0 (pre_step DoNotAssembleDT T t h r), f1 (pre_step DoNotAssembleDT T t h r)) = (1, 1).
Proof. intros. split; [|split]; reflexivity. Qed.
Print Assumptions c15_modes.

(** C15: the condition on the coefficients holds for the shipped schemes, and constraining entries to zero counts as
    constraining once. *)
Theorem c15_shipped_schemes : scheme_ok explicit_euler /\ scheme_ok implicit_euler /\ scheme_ok heun /\ scheme_ok shu3 /\
  scheme_ok rk4 /\ scheme_ok alexander2 /\ scheme_ok fractional_step /\ scheme_ok alexander3 /\
  (forall th, zero_or_big th -> zero_or_big (1 - th) -> scheme_ok (one_step_theta th)) /\
  forall D, constrains_once (fun v i => if (D : nat -> bool) i then 0 else v i).
Proof.
  split; [apply theta_ok; [now left|right; rewrite Rabs_right; lra]|].
  split; [apply theta_ok; [right; rewrite Rabs_right; lra|left; lra]|].
  exact (conj heun_ok (conj shu3_ok (conj rk4_ok (conj alexander2_ok (conj fractional_step_ok (conj alexander3_ok (conj theta_ok zero_on_once))))))).
Qed.
Print Assumptions c15_shipped_schemes.

(** C15 is false of the code for coefficients below 1e-6: they are dropped. *)
Theorem c15_tiny_coefficient_refuted : exists T us p q, a T 1 1 = 1 /\
  let o := pre_step MultiplyOperator0ByDT T 0 1 1 in
  stage_residual one_dof reaction_jump mass (fun v => v) plain one_cell o
    (pre_stage one_dof reaction_jump mass (fun v => v) plain one_cell o us p) q (us 1%nat) vzero O
  <> stage_formula one_dof reaction_jump mass plain one_cell o us O.
Proof.
  exists (one_step_theta (/ 10000000)), (fun _ _ => 1), ((mkla 0 0, blank), (mkla 0 0, blank)), (blank, blank).
  split; [reflexivity|exact tiny_dropped].
Qed.
Print Assumptions c15_tiny_coefficient_refuted.

(** C15 is false for post-skeleton terms of the temporal operator. *)
Theorem c15_temporal_post_skeleton_refuted : exists us p q,
  let o := pre_step MultiplyOperator0ByDT implicit_euler 0 1 1 in
  stage_residual one_dof no_terms mass_post (fun v => v) plain one_cell o
    (pre_stage one_dof no_terms mass_post (fun v => v) plain one_cell o us p) q (us 1%nat) vzero O
  <> stage_formula one_dof no_terms mass_post plain one_cell o us O.
Proof.
  exists (fun i _ => INR i), ((mkla 0 0, blank), (mkla 0 0, blank)), (blank, blank). cbv zeta.
  pose proof post_dropped as [-> ->]. lra.
Qed.
Print Assumptions c15_temporal_post_skeleton_refuted.

(** C15 is false if the temporal operator asks for both sides and the spatial one does not. *)
Theorem c15_mixed_sides_refuted : exists us p q,
  let o := pre_step MultiplyOperator0ByDT implicit_euler 0 1 1 in
  stage_residual one_dof reaction_jump mass_two (fun v => v) plain strip o
    (pre_stage one_dof reaction_jump mass_two (fun v => v) plain strip o us p) q (us 1%nat) vzero O
  <> stage_formula one_dof reaction_jump mass_two plain strip o us O.
Proof.
  exists (fun i g => if (i =? 1)%nat && (g =? 1)%nat then 1 else 0), ((mkla 0 0, blank), (mkla 0 0, blank)), (blank, blank). cbv zeta.
  pose proof seen_twice as [-> ->]. lra.
Qed.
Print Assumptions c15_mixed_sides_refuted.

(** The hypotheses of C15 hold for a nonlinear operator with face terms, the identity as mass operator, a Dirichlet
    constraint and the last stage of Alexander's third order scheme. *)
Example c15_meets : constrains_once (zero_on (Nat.eqb 2)) /\ coefficients_ok alexander3 3 /\ no_post mass /\ same_view reaction_jump mass.
Proof.
  split; [apply zero_on_once|]. split; [apply alexander3_ok; cbn; lia|]. split; [split; reflexivity|left; reflexivity].
Qed.

(** C16: for all operators whose local derivative terms are derivatives (affine ones in particular), all schemes,
    stages and modes, the stage Jacobian is the derivative of the stage residual in every direction. *)
Theorem c16_jacobian_is_derivative : forall N G L0 L1 J0 J1 e cells m T t h r const p q x z r0 g,
  dofs_below N G -> local_derivatives G L0 J0 -> local_derivatives G L1 J1 ->
  let o := pre_step m T t h r in
  derivable_pt_lim (fun s => stage_residual G L0 L1 (fun v => v) e cells o const p (along x z s) r0 g) 0
                   (mv N (stage_jacobian G L0 L1 J0 J1 e cells o q x mzero) z g).
Proof. intros. now apply stage_derivative. Qed.
Print Assumptions c16_jacobian_is_derivative.

(** C16: for operators that are not both linear, jacobian_apply after any history of calls adds the product of the
    stage Jacobian with the update. *)
Theorem c16_apply_is_product : forall N G L0 L1 J0 J1 LA0 LA1 e cells m T t h r p q l x z r0,
  dofs_below N G -> local_apply G L0 J0 LA0 -> local_apply G L1 J1 LA1 ->
  let o := pre_step m T t h r in
  exists y, snd (one_apply false G LA0 LA1 e cells o p r0 (applies false G LA0 LA1 e cells o p r0 l) (ApplyAt x z)) = Ok y /\
    forall g, y g = r0 g + mv N (stage_jacobian G L0 L1 J0 J1 e cells o q x mzero) z g.
Proof. intros. eexists. split; [apply apply_at_ok|]. intros g. now apply stage_apply_product. Qed.
Print Assumptions c16_apply_is_product.

(** C16 fails for linear operators: the variant with a solution is refused, and after no history of calls does the
    variant without one have a defined result, since it dereferences a solution pointer that is still null. *)
Theorem c16_linear_apply_refuted : forall linear G LA0 LA1 e cells o p r0 l z v,
  snd (one_apply linear G LA0 LA1 e cells o p r0 (applies linear G LA0 LA1 e cells o p r0 l) (ApplyLinear z)) <> Ok v.
Proof. exact linear_apply_never. Qed.
Print Assumptions c16_linear_apply_refuted.

Example c16_meets : dofs_below 3 one_dof /\ local_derivatives one_dof reaction_jump reaction_jump_j /\
  local_apply one_dof reaction_jump reaction_jump_j reaction_jump_apply.
Proof. destruct engine_meets as (A & B & C & _). auto. Qed.

(** C16 with Dirichlet constraints, for every set [K] of constrained DOFs: in the rows of all other DOFs the matrix is the derivative of the constrained
    stage residual in every direction; in constrained rows the residual is zero and the matrix is the identity. *)
Theorem c16_dirichlet : forall N K G L0 L1 J0 J1 e cells m T t h r const p q x z r0 g,
  dofs_below N G -> local_derivatives G L0 J0 -> local_derivatives G L1 J1 ->
  let o := pre_step m T t h r in
  let F := stage_residual G L0 L1 (zero_on K) e cells o const p in
  let A := dirichlet_jacobian K G L0 L1 J0 J1 e cells o q x mzero in
  (K g = false -> derivable_pt_lim (fun s => F (along x z s) r0 g) 0 (mv N A z g)) /\
  (K g = true -> (forall y, F y r0 g = 0) /\ ((g < N)%nat -> mv N A z g = z g)).
Proof. exact dirichlet_derivative. Qed.
Print Assumptions c16_dirichlet.

(** C16: with Dirichlet constraints, jacobian_apply agrees with the matrix in all other rows and gives zero in the constrained ones; so it is the
    product for every update that is zero in the constrained DOFs. *)
Theorem c16_dirichlet_apply : forall N K G L0 L1 J0 J1 LA0 LA1 e cells m T t h r p q x z r0,
  dofs_below N G -> local_apply G L0 J0 LA0 -> local_apply G L1 J1 LA1 ->
  let o := pre_step m T t h r in
  let y := dirichlet_apply K G LA0 LA1 e cells o p x z r0 in
  let A := dirichlet_jacobian K G L0 L1 J0 J1 e cells o q x mzero in
  (forall g, (K g = false -> y g = r0 g + mv N A z g) /\ (K g = true -> y g = 0)) /\
  ((forall g, K g = true -> z g = 0 /\ r0 g = 0) -> forall g, (g < N)%nat -> y g = r0 g + mv N A z g).
Proof.
  intros N K G L0 L1 J0 J1 LA0 LA1 e cells m T t h r p q x z r0 DB A0 A1 o y A.
  pose proof (fun g => dirichlet_product N K G L0 L1 J0 J1 LA0 LA1 e cells m T t h r p q x z r0 g DB A0 A1) as P. cbv zeta in P. fold o in P. fold y in P. fold A in P.
  split; [exact P|]. intros Z g Hg. destruct (P g) as (P1 & P2). destruct (K g) eqn:Hk; [|auto].
  rewrite P2 by reflexivity. destruct (Z g Hk) as (Z1 & ->). unfold A, dirichlet_jacobian. rewrite mv_unit by auto. rewrite Z1. lra.
Qed.
Print Assumptions c16_dirichlet_apply.

(** C17: without constraints, if the step size is the one announced at the start of the step and the mass operator is
    linear with volume terms only, a solution of the explicit stage system D x = alpha + dt beta has zero implicit stage
    residual (C15), whatever was in the vector before.  Missing: step size reduced by a time controller, mass
    operators with face terms.  With constraints: c17_boundary_stage_partial. *)
Theorem c17_explicit_stage_partial : forall N G L0 L1 J1 e cells T t h r us p j,
  dofs_below N G -> linear_mass G L1 J1 -> coefficients_ok T r -> b T r r = 0 ->
  (exists guess, let '(D, rhs) := explicit_system G L0 L1 J1 (fun v => v) e cells (pre_step DoNotAssembleDT T t h r)
                                    (fun i => if (i =? r)%nat then guess else us i) p j h in
     forall g, mv N D (us r) g = rhs g) ->
  forall g, stage_formula G L0 L1 e cells (pre_step MultiplyOperator0ByDT T t h r) us g = 0.
Proof. intros N G L0 L1 J1 e cells T t h r us p j H1 H2 H3 H4 H5. exact (explicit_stage_solves N G L0 L1 J1 e cells T t h r us p j (us r) H1 H2 H3 H4 eq_refl H5). Qed.
Print Assumptions c17_explicit_stage_partial.

(** C17 with Dirichlet constraints: the variant that is given boundary values, with an exact linear solver.  The stage vector has the boundary values in
    the constrained DOFs and zero implicit stage residual in all others.  Missing: as in c17_explicit_stage_partial. *)
Theorem c17_boundary_stage_partial : forall N K G L0 L1 J1 e cells T t h r us p j values guess solve,
  dofs_below N G -> linear_mass G L1 J1 -> coefficients_ok T r -> b T r r = 0 ->
  let o := pre_step DoNotAssembleDT T t h r in
  (let '(D, _) := dirichlet_system K G L0 L1 J1 e cells o (fun i => if (i =? r)%nat then (fun g => if K g then values g else guess g) else us i) p j h in
     forall v g, (g < N)%nat -> mv N D (solve D v) g = v g) ->
  us r = explicit_boundary_stage N K G L0 L1 J1 e cells o us p j h values guess solve ->
  forall g, (g < N)%nat -> (K g = true -> us r g = values g) /\
    (K g = false -> stage_formula G L0 L1 e cells (pre_step MultiplyOperator0ByDT T t h r) us g = 0).
Proof. exact boundary_stage. Qed.
Print Assumptions c17_boundary_stage_partial.

(** C17 for linear mass operators with terms of every kind, on faces too, as long as those on faces do not depend on time and the operators look at
    interior faces equally often: a solution of the explicit stage system has zero implicit stage residual.  Missing: step size reduced by a time
    controller. *)
Theorem c17_general_stage_partial : forall N G L0 L1 J1 e cells T t h r us p j,
  dofs_below N G -> linear_operator G L1 J1 -> steady_faces L1 J1 -> same_view L0 L1 -> coefficients_ok T r -> b T r r = 0 -> r <> O ->
  (exists guess, let '(D, rhs) := explicit_system G L0 L1 J1 (fun v => v) e cells (pre_step DoNotAssembleDT T t h r)
                                    (fun i => if (i =? r)%nat then guess else us i) p j h in
     forall g, mv N D (us r) g = rhs g) ->
  forall g, stage_formula G L0 L1 e cells (pre_step MultiplyOperator0ByDT T t h r) us g = 0.
Proof.
  intros N G L0 L1 J1 e cells T t h r us p j DB M SF SV HK B0 Hr [guess S] g.
  apply (general_stage_row N G L0 L1 J1 (fun v : vec => v) e cells T t h r us p j guess g DB M SF SV HK B0 Hr (fun v => eq_refl)).
  cbv zeta. change (fun v : nat -> R => v) with (fun v : vec => v) in *.
  destruct (explicit_system G L0 L1 J1 (fun v : vec => v) e cells (pre_step DoNotAssembleDT T t h r) (fun i => if (i =? r)%nat then guess else us i) p j h) as [D rhs]. exact (S g).
Qed.
Print Assumptions c17_general_stage_partial.

(** The same with Dirichlet constraints, for the variant that is given boundary values. *)
Theorem c17_general_boundary_partial : forall N K G L0 L1 J1 e cells T t h r us p j values guess solve,
  dofs_below N G -> linear_operator G L1 J1 -> steady_faces L1 J1 -> same_view L0 L1 -> coefficients_ok T r -> b T r r = 0 -> r <> O ->
  let o := pre_step DoNotAssembleDT T t h r in
  (let '(D, _) := dirichlet_system K G L0 L1 J1 e cells o (fun i => if (i =? r)%nat then (fun g => if K g then values g else guess g) else us i) p j h in
     forall v g, (g < N)%nat -> mv N D (solve D v) g = v g) ->
  us r = explicit_boundary_stage N K G L0 L1 J1 e cells o us p j h values guess solve ->
  forall g, (g < N)%nat -> (K g = true -> us r g = values g) /\
    (K g = false -> stage_formula G L0 L1 e cells (pre_step MultiplyOperator0ByDT T t h r) us g = 0).
Proof. exact general_boundary_stage. Qed.
Print Assumptions c17_general_boundary_partial.

(** C17: the system of an explicit stage for every mass operator with cell terms, linear or not.  The matrix has the cell terms at the time of the
    stage, but the terms on faces at the time of the stage before. *)
Theorem c17_general_parts : forall G L0 L1 J1 C e cells o xs p j m,
  do_alpha_volume L1 = true -> stage o <> O ->
  let two := do_two_sided L0 || do_two_sided L1 in
  let '(D, alpha, beta) := explicit_jacobian_residual G L0 L1 J1 C e cells o xs p j m in
  (forall g h, D g h = m g h - jacobian_value G e (viewed two L1) (at_times (time_at o (stage o)) (time_at o (pred (stage o))) J1)
                                 (time_at o (stage o)) (xs (stage o)) cells g h) /\
  alpha = C (fun g => lsum (fun s => (if big (a (T o) (stage o) s) then a (T o) (stage o) s * f1 o else 0) *
                         operator_value 0 G e (viewed two L1) (time_at o s) (xs s) cells g) (seq 0 (stage o))) /\
  beta = (fun g => lsum (fun s => (if big (b (T o) (stage o) s) then b (T o) (stage o) s * f0 o else 0) *
                         operator_value 0 G e (viewed two L0) (time_at o s) (xs s) cells g) (seq 0 (stage o))).
Proof. exact general_parts. Qed.
Print Assumptions c17_general_parts.

(** C17 is false for a linear mass operator whose boundary term depends on time: the stage system has the boundary term of the stage before, and its
    solution does not solve the stage equation. *)
Theorem c17_face_time_refuted : exists G L0 L1 J1 e cells us p j,
  dofs_below 3 G /\ linear_operator G L1 J1 /\ same_view L0 L1 /\ coefficients_ok explicit_euler 1 /\ b explicit_euler 1 1 = 0 /\
  (let '(D, rhs) := explicit_system G L0 L1 J1 (fun v => v) e cells (pre_step DoNotAssembleDT explicit_euler 0 1 1) us p j 1 in
     forall g, mv 3 D (us 1%nat) g = rhs g) /\
  stage_formula G L0 L1 e cells (pre_step MultiplyOperator0ByDT explicit_euler 0 1 1) us O <> 0.
Proof.
  exists one_dof, no_terms, (rim_mass (fun t => t)), (rim_mass_j (fun t => t)), plain, rim_cell, (fun _ _ => 1), ((mkla 0 0, blank), (mkla 0 0, blank)), jblank.
  split; [apply engine_meets|]. split; [apply rim_linear|]. split; [now left|].
  split; [apply theta_ok; [now left|right; rewrite Rabs_right; lra|cbn; lia]|]. split; [reflexivity|]. exact rim_late.
Qed.
Print Assumptions c17_face_time_refuted.

Example c17_general_meets : let us := fun (i g : nat) => 1 : R in
  linear_operator one_dof (rim_mass (fun _ => 2)) (rim_mass_j (fun _ => 2)) /\ steady_faces (rim_mass (fun _ => 2)) (rim_mass_j (fun _ => 2)) /\
  same_view no_terms (rim_mass (fun _ => 2)) /\
  let '(D, rhs) := explicit_system one_dof no_terms (rim_mass (fun _ => 2)) (rim_mass_j (fun _ => 2)) (fun v => v) plain rim_cell (pre_step DoNotAssembleDT explicit_euler 0 1 1)
      (fun i => if (i =? 1)%nat then vzero else us i) ((mkla 0 0, blank), (mkla 0 0, blank)) jblank 1 in
  (forall g, mv 3 D (us 1%nat) g = rhs g) /\ D O O = -3.
Proof. cbv zeta. split; [apply rim_linear|]. split; [apply rim_steady|]. split; [now left|]. exact rim_meets. Qed.

Example c17_boundary_meets : let o := pre_step DoNotAssembleDT explicit_euler 0 1 1 in let K := fun g => (1 <=? g)%nat in
  let values := fun _ : nat => 7 in let guess := fun _ : nat => 5 in let solve := fun (_ : mat) (v : vec) g => if (g =? 0)%nat then - v g else v g in
  let us := fun i => if (i =? 1)%nat then (fun g => if (g =? 0)%nat then 2 else 7) else (fun _ => 3) : vec in
  dofs_below 3 one_dof /\ linear_mass one_dof mass mass_j /\ coefficients_ok explicit_euler 1 /\ b explicit_euler 1 1 = 0 /\
  let '(D, rhs) := dirichlet_system K one_dof unit_source mass mass_j plain one_cell o (fun i => if (i =? 1)%nat then (fun g => if K g then values g else guess g) else us i)
     ((mkla 0 0, blank), (mkla 0 0, blank)) jblank 1 in
  (forall v g, (g < 3)%nat -> mv 3 D (solve D v) g = v g) /\
  forall g, (g < 3)%nat -> us 1%nat g = explicit_boundary_stage 3 K one_dof unit_source mass mass_j plain one_cell o us ((mkla 0 0, blank), (mkla 0 0, blank)) jblank 1 values guess solve g.
Proof. exact boundary_meets. Qed.

(** C17: the variant without boundary values does not keep the values of constrained DOFs: the spatial part of the right hand side is not constrained, and
    the identity rows of the matrix copy it into the solution.  Here one DOF with value zero is constrained and a constant source is present. *)
Theorem c17_plain_stage_refuted : exists G L0 L1 J1 e cells us p j solve,
  let o := pre_step DoNotAssembleDT explicit_euler 0 1 1 in
  linear_mass G L1 J1 /\ (forall i g, us i g = 0) /\
  (let '(D, rhs) := dirichlet_system (fun _ => true) G L0 L1 J1 e cells o us p j 1 in forall v g, (g < 3)%nat -> mv 3 D (solve D v) g = v g) /\
  explicit_plain_stage (fun _ => true) G L0 L1 J1 e cells o us p j 1 solve O <> 0.
Proof.
  exists one_dof, unit_source, mass, mass_j, plain, one_cell, (fun _ => vzero), ((mkla 0 0, blank), (mkla 0 0, blank)), jblank, (fun _ v => v). cbv zeta.
  pose proof plain_moves as [A B]. split; [exact mass_linear|]. split; [reflexivity|]. split; [exact B|exact A].
Qed.
Print Assumptions c17_plain_stage_refuted.

(** C17: the matrix and vectors of an explicit stage for every constraint treatment. *)
Theorem c17_explicit_parts : forall G L0 L1 J1 C e cells o xs p j m,
  linear_mass G L1 J1 ->
  let '(D, alpha, beta) := explicit_jacobian_residual G L0 L1 J1 C e cells o xs p j m in
  (forall g h, D g h = m g h - jacobian_value G e L1 J1 (time_at o (stage o)) (xs (stage o)) cells g h) /\
  alpha = C (fun g => lsum (fun s => (if big (a (T o) (stage o) s) then a (T o) (stage o) s * f1 o else 0) *
                         operator_value 0 G e L1 (time_at o s) (xs s) cells g) (seq 0 (stage o))) /\
  beta = (fun g => lsum (fun s => (if big (b (T o) (stage o) s) then b (T o) (stage o) s * f0 o else 0) *
                         operator_value 0 G e L0 (time_at o s) (xs s) cells g) (seq 0 (stage o))).
Proof. exact explicit_parts. Qed.
Print Assumptions c17_explicit_parts.

(** C17 is false if the time controller reduces the step size after the first stage: later stages are evaluated at
    the times of the old step size. *)
Theorem c17_reduced_step_refuted : exists us p j,
  (let '(D, rhs) := explicit_system one_dof clock_source mass mass_j (fun v => v) plain one_cell (pre_step DoNotAssembleDT heun 0 2 2) us p j 1 in
   forall g, mv 3 D (us 2%nat) g = rhs g) /\
  stage_formula one_dof clock_source mass plain one_cell (pre_step MultiplyOperator0ByDT heun 0 1 2) us O <> 0.
Proof. exists late, ((mkla 0 0, blank), (mkla 0 0, blank)), jblank. exact reduced_step. Qed.
Print Assumptions c17_reduced_step_refuted.

Example c17_meets : exists us p j,
  (let '(D, rhs) := explicit_system one_dof clock_source mass mass_j (fun v => v) plain one_cell (pre_step DoNotAssembleDT heun 0 1 2)
      (fun i => if (i =? 2)%nat then vzero else us i) p j 1 in
   forall g, mv 3 D (fun _ => -0.5) g = rhs g) /\
  dofs_below 3 one_dof /\ linear_mass one_dof mass mass_j /\ coefficients_ok heun 2 /\ b heun 2 2 = 0.
Proof. exists late, ((mkla 0 0, blank), (mkla 0 0, blank)), jblank. exact unchanged_step. Qed.
