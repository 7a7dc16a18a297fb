(** C58 for the stages of time steps: constraints, operators, time stepping and linear solver together. *)
From Coq Require Import Lra Lia.
From Verif Require Import LinStepModel LinStepSpec HangStepSpec EngineSpec EngineProofs3 OneStepSpec DriverProofs ConsProofs ConsProofs2 ConsProps HangStepProofs HangStepProps LinStepProofs.
From Verif Require LinModel LinSpec LinProps.
Local Open Scope R_scope.

(** C58: a stage of a one-step method with linear operators is a linear problem, for every constraint history without
    chains: with the hanging node modification always, without it if there are only Dirichlet constraints. *)
Theorem c58_stage_problem : forall N os hm sym G L0 L1 J0 J1 e cells m T t h r const p q norm mf solve,
  let tr := after_history os in
  dofs_below N G -> local_derivatives G L0 J0 -> local_derivatives G L1 J1 -> linear_terms J0 -> linear_terms J1 ->
  left_over N (fst q) -> left_over N (snd q) -> flat (entries tr) -> below N (entries tr) ->
  (hm = false -> only_dirichlet (entries tr)) ->
  let o := pre_step m T t h r in
  forall x0, LinSpec.linear_problem N hm (stage_problem tr sym G L0 L1 J0 J1 e cells o const p q norm mf solve)
    (hanging_jacobian tr tr sym G L0 L1 J0 J1 e cells o q x0 mzero).
Proof. exact stage_linear. Qed.
Print Assumptions c58_stage_problem.

(** C58: so a converged call of the linear problem solver for a stage, after any history of calls, leaves coefficients whose
    stage residual has been reduced as requested. *)
Theorem c58_stage_solves : forall N os sym G L0 L1 J0 J1 e cells m T t h r const pe q nrm mf slv st v red0 md0 l s c s' i,
  let tr := after_history os in
  dofs_below N G -> local_derivatives G L0 J0 -> local_derivatives G L1 J1 -> linear_terms J0 -> linear_terms J1 ->
  left_over N (fst q) -> left_over N (snd q) -> flat (entries tr) -> below N (entries tr) ->
  (LinModel.hanging s = false -> only_dirichlet (entries tr)) ->
  let o := pre_step m T t h r in
  let A := hanging_jacobian tr tr sym G L0 L1 J0 J1 e cells o q vzero mzero in
  let p := stage_problem tr sym G L0 L1 J0 J1 e cells o const pe q nrm mf slv in
  let F := fun x => hanging_residual tr G L0 L1 e cells o const pe x vzero in
  LinSpec.keeps_promise N p A -> (forall u, 0 <= nrm u) -> 0 <= LinModel.reduction s ->
  LinModel.run p (LinModel.construct st v red0 md0) l = Some s -> LinModel.step p s c = (s', LinModel.Fine) ->
  LinSpec.works_on s c = Some i -> LinModel.res_converged s' = true ->
  let d := nrm (F (LinSpec.start p (LinModel.hanging s) (LinModel.store s i))) in d <> 0 ->
  nrm (F (LinModel.store s' i)) <= Rmax (LinModel.reduction s * d) (LinModel.min_defect s).
Proof.
  cbn zeta. intros * DB D0 D1 H0 H1 Q0 Q1 FL B OD K NN RN RU ST W CV DN.
  pose proof (stage_linear N os (LinModel.hanging s) sym G L0 L1 J0 J1 e cells m T t h r const pe q nrm mf slv DB D0 D1 H0 H1 Q0 Q1 FL B OD vzero) as LP.
  apply (LinProps.c58_solves N _ _ st v red0 md0 l s c s' i LP K); try assumption.
  intros _. split; [apply c23_proper|exact FL].
Qed.
Print Assumptions c58_stage_solves.

(** A linear operator: decay in each cell and the jump across interior faces. *)
Definition decay_jump : terms R :=
  mkterms R true false true false false false false false false
    (fun _ _ x i => 3 * x i) (fun _ _ => vzero)
    (fun _ _ _ _ x y => (fun i => x i - y i, fun i => y i - x i)) (fun _ _ _ _ => (vzero, vzero))
    (fun _ _ _ _ _ => vzero) (fun _ _ _ _ => vzero) (fun _ _ _ => vzero) (fun _ _ => vzero).
Definition decay_jump_j : jterms :=
  let id := fun w i j => if (i =? j)%nat then w else 0 in
  mkjterms (fun _ _ x => id 3) (fun _ _ _ _ _ _ => ((id 1, id (-1)), (id (-1), id 1)))
    (fun _ _ _ _ _ => mzero) (fun _ _ _ => mzero).
Example c58_stage_meets : let t := after_history hangs in
  dofs_below 3 one_dof /\ local_derivatives one_dof decay_jump decay_jump_j /\ linear_terms decay_jump_j /\ left_over 3 nowhere /\
  flat (entries t) /\ below 3 (entries t) /\ constrained (entries t) 1.
Proof.
  cbn zeta. split; [exact (proj1 c16_data)|]. split; [|split; [repeat split; reflexivity|split; [apply nowhere_left|]]].
  - intros c t x z. cbn [length lfsu lfsv one_dof]. split; [|split; [|split]].
    + intros i I. assert (i = O) by lia. subst i. unfold mv. cbn. rewrite Rplus_0_l.
      apply (derivable_pt_lim_scal (fun s => along x z s O)). apply line_derivative.
    + intros i I. match goal with |- derivable_pt_lim _ _ ?v => replace v with 0 by (unfold mv; cbn; unfold mzero; lra) end. apply derivable_pt_lim_const.
    + intros f k i I. match goal with |- derivable_pt_lim _ _ ?v => replace v with 0 by (unfold mv; cbn; unfold mzero; lra) end. apply derivable_pt_lim_const.
    + intros f k y v i. cbn. unfold mv. cbn. split; intros I; assert (i = O) by lia; subst i; cbn.
      * replace (0 + 1 * z O + (0 + -1 * v O)) with (z O - v O) by lra.
        apply (derivable_pt_lim_minus (fun s => along x z s O) (fun s => along y v s O)); apply line_derivative.
      * replace (0 + -1 * z O + (0 + 1 * v O)) with (v O - z O) by lra.
        apply (derivable_pt_lim_minus (fun s => along y v s O) (fun s => along x z s O)); apply line_derivative.
  - destruct hangs_flat as (A & B). split; [exact A|]. split; [exact B|]. unfold constrained. cbn. auto.
Qed.
