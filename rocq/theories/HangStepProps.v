(** C16 with hanging nodes: the stage Jacobian when constraints have contributors. *)
From Coq Require Import Lra Lia.
From Verif Require Import HangStepModel HangStepSpec DriverProofs EngineSpec EngineProofs3 OneStepSpec ConsProofs2 ConsProps HangStepProofs.
Local Open Scope R_scope.

(** C16, for all histories of constraints on trial and test space without chains: in the rows of free DOFs the matrix is the derivative
    of the constrained stage residual along the update with its hanging DOFs interpolated ([full]); in constrained rows the
    residual is zero and the matrix is the identity.  When the symmetric scatter is used, updates must vanish in Dirichlet DOFs. *)
Theorem c16_hanging : forall N osu osv sym G L0 L1 J0 J1 e cells m T t h r const p q x z r0 g,
  let tu := after_history osu in let tv := after_history osv in
  dofs_below N G -> local_derivatives G L0 J0 -> local_derivatives G L1 J1 ->
  left_over N (fst q) -> left_over N (snd q) -> flat (entries tv) -> below N (entries tu) ->
  (sym = true -> forall k, dirichlet (entries tu) k -> z k = 0) ->
  let o := pre_step m T t h r in
  let F := hanging_residual tv G L0 L1 e cells o const p in
  let A := hanging_jacobian tu tv sym G L0 L1 J0 J1 e cells o q x mzero in
  (~ constrained (entries tv) g -> derivable_pt_lim (fun s => F (along x (full (entries tu) z) s) r0 g) 0 (mv N A z g)) /\
  (constrained (entries tv) g -> (forall y, F y r0 g = 0) /\ ((g < N)%nat -> mv N A z g = z g)).
Proof. exact hanging_derivative. Qed.
Print Assumptions c16_hanging.

(** C16: jacobian_apply is the product with the matrix in the rows of free DOFs if the update satisfies the constraints
    (its hanging DOFs are interpolated), and zero in the others. *)
Theorem c16_hanging_apply : forall N osu osv sym G L0 L1 J0 J1 LA0 LA1 e cells m T t h r p q x z r0 g,
  let tu := after_history osu in let tv := after_history osv in
  dofs_below N G -> local_apply G L0 J0 LA0 -> local_apply G L1 J1 LA1 ->
  left_over N (fst q) -> left_over N (snd q) -> flat (entries tv) -> below N (entries tu) ->
  (sym = true -> forall k, dirichlet (entries tu) k -> z k = 0) -> (forall k, (k < N)%nat -> full (entries tu) z k = z k) ->
  let o := pre_step m T t h r in
  let y := hanging_apply tv G LA0 LA1 e cells o p x z r0 in
  let A := hanging_jacobian tu tv sym G L0 L1 J0 J1 e cells o q x mzero in
  (~ constrained (entries tv) g -> y g = r0 g + received (entries tv) r0 g + mv N A z g) /\
  (constrained (entries tv) g -> y g = 0).
Proof.
  cbn zeta. intros * DB A0 A1 Q0 Q1 FL B Z U. split; intros C; [|exact (proj1 (c25_formula _ _ g) C)].
  rewrite (hanging_apply_value N (after_history osv) G L0 L1 J0 J1 LA0 LA1 e cells m T t h r p q x z r0 g DB A0 A1).
  rewrite (constrain_free _ r0 g FL C), hanging_product by assumption. f_equal. apply f_equal2; [|reflexivity].
  apply FunctionalExtensionality.functional_extensionality. intros k. unfold mv. apply nsum_ext. intros h0 L. now rewrite U.
Qed.
Print Assumptions c16_hanging_apply.

(** An update that violates the constraints: jacobian_apply and the assembled matrix differ in the row of a free DOF.
    DOF 1 hangs on DOF 0; the operator is the reaction term on the cell of DOF 1. *)
Definition hangs : list op := [Import (fun i => i) [(1%nat, [(0%nat, 1)])]].
Definition one_cell : list cell := [mkcell 3 []].
Definition explicit_euler : tab := mktab 1 [0; 1] [[-1; 1]] [[1; 0]] false.
Definition nowhere : jest := mkjest mzero mzero mzero mzero vzero vzero ([], []) ([], []) ([], []) ([], []) [] [] vzero.
Definition blank2 : rest (R * R) := mkrest vzero vzero (fun _ => (0, 0)) (fun _ => (0, 0)) [] [] [] [] (fun _ => (0, 0)).
Lemma c16_data : dofs_below 3 one_dof /\ local_derivatives one_dof reaction_jump reaction_jump_j /\
  local_apply one_dof reaction_jump reaction_jump_j reaction_jump_apply.
Proof. destruct engine_meets as (A & B & C & _). auto. Qed.
Lemma hangs_flat : flat (entries (after_history hangs)) /\ below 3 (entries (after_history hangs)).
Proof.
  unfold flat, below. cbn. split.
  - intros g r c w r' [[= <- <-]|[]] [[= <- <-]|[]] [[=]|[]].
  - intros g r [[= <- <-]|[]]. split; [lia|]. intros c w [[= <- <-]|[]]. lia.
Qed.
Lemma nowhere_left N : left_over N nowhere.
Proof. intros h. cbn. tauto. Qed.
Lemma explicit_stage : implicit_stage (pre_step DoNotAssembleDT explicit_euler 0 1 1) = false.
Proof.
  unfold implicit_stage, big. cbn. destruct (Rlt_dec _ _) as [H|]; [|reflexivity]. rewrite Rabs_R0 in H. lra.
Qed.
Theorem c16_hanging_apply_refuted : exists N G L J LA e cells T x z,
  let t := after_history hangs in let o := pre_step DoNotAssembleDT T 0 1 1 in
  dofs_below N G /\ local_derivatives G L J /\ local_apply G L J LA /\ flat (entries t) /\ below N (entries t) /\ ~ constrained (entries t) 0 /\
  hanging_apply t G LA LA e cells o (blank2, blank2) x z vzero 0%nat <>
  mv N (hanging_jacobian t t false G L L J J e cells o (nowhere, nowhere) x mzero) z 0%nat.
Proof.
  destruct c16_data as (A & B & C). destruct hangs_flat as (F & Bl).
  assert (NC : ~ constrained (entries (after_history hangs)) 0) by (unfold constrained; cbn; intuition discriminate).
  exists 3%nat, one_dof, reaction_jump, reaction_jump_j, reaction_jump_apply, (fst (no_skip false)), one_cell, explicit_euler,
    (fun _ => 1), (fun h => if (h =? 1)%nat then 1 else 0).
  cbn zeta. repeat (split; [assumption|]).
  rewrite (hanging_product 3) by (auto using nowhere_left; discriminate).
  replace (constrain_residual _ (mv _ _ _) _) with 0.
  2:{ rewrite constrain_free by assumption. unfold received, mv, full. cbn [entries after_history hangs fold_left exec import].
      unfold import_entry. cbn -[stage_jacobian Rmult Rplus]. lra. }
  unfold hanging_apply. rewrite constrain_free by assumption. unfold received, stage_apply. rewrite explicit_stage.
  cbn. unfold ConsSpec.weight, scatter, vacc, vadd, vscal, vzero, gather. cbn. unfold vacc, vadd, vscal, vzero. cbn. lra.
Qed.
Print Assumptions c16_hanging_apply_refuted.

(** The hypotheses are met by the reaction and jump operator with a hanging and a Dirichlet DOF; the update satisfies the constraints. *)
Example c16_hanging_meets :
  let t := after_history (hangs ++ [Import (fun i => i) [(2%nat, [])]]) in
  let z : vec := fun h => if (h =? 2)%nat then 0 else 1 in
  dofs_below 3 one_dof /\ local_derivatives one_dof reaction_jump reaction_jump_j /\
  local_apply one_dof reaction_jump reaction_jump_j reaction_jump_apply /\ left_over 3 nowhere /\
  flat (entries t) /\ below 3 (entries t) /\ constrained (entries t) 1 /\ dirichlet (entries t) 2 /\ ~ constrained (entries t) 0 /\
  (forall k, dirichlet (entries t) k -> z k = 0) /\ (forall k, (k < 3)%nat -> full (entries t) z k = z k).
Proof.
  destruct c16_data as (A & B & C). cbn zeta. repeat (split; [first [assumption|apply nowhere_left]|]).
  unfold flat, below, constrained, dirichlet. cbn. split; [|split; [|split; [|split; [|split; [|split]]]]].
  - intros g r c w r' [[= <- <-]|[[= <- <-]|[]]] I; cbn in I; [|contradiction]. destruct I as [[= <- <-]|[]]. intros [[=]|[[=]|[]]].
  - intros g r [[= <- <-]|[[= <- <-]|[]]]; (split; [lia|]); intros c w I; cbn in I; [|contradiction]. destruct I as [[= <- <-]|[]]. lia.
  - auto.
  - auto.
  - intuition discriminate.
  - intros k [[=]|[[= <-]|[]]]. reflexivity.
  - intros [|[|[|k]]] L; [..|lia]; unfold full; cbn; lra.
Qed.
