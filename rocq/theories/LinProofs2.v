(** Defined and undefined calls, exceptions, and problems assembled from elements. *)
From Coq Require Import FunctionalExtensionality Lra.
From Verif Require Import CommonFacts LinModel EngineSpec EngineProofs EngineProofs3 ConsSpec ConsProofs ConsProofs2 ConsProofs3 ConsProofs4 LinSpec LinProofs.
Local Open Scope R_scope.

Ltac open_apply :=
  unfold apply;
  match goal with |- context [matrix_free ?p] => destruct (matrix_free p) eqn:? end; cbn [negb andb];
  match goal with |- context [matrix ?s] => destruct (matrix s) eqn:? end.

Lemma undefined_iff p reuse f s : snd (apply p reuse f s) = Undefined <->
  target s = None \/ (matrix_free p = false /\ reuse = true /\ f = NoFault /\ forall m, matrix s <> Assembled m).
Proof.
  unfold apply. set (s1 := if matrix_free p then s else _).
  assert (E1 : target s1 = target s /\ ((exists m, matrix s1 = Assembled m) <-> exists m, matrix s = Assembled m)).
  { unfold s1. destruct (matrix_free p); [tauto|]. destruct (matrix s) eqn:M; cbn; rewrite ?M; split; try reflexivity; split; intros (m & Q); try discriminate; eauto. }
  clearbody s1. destruct E1 as (Et & Em). rewrite Et. destruct (target s) as [i|]; [|cbn; intuition].
  set (s2 := if hanging s1 then _ else s1). assert (E2 : matrix s2 = matrix s1) by (unfold s2; destruct (hanging s1); reflexivity). clearbody s2.
  destruct f.
  - destruct (matrix_free p) eqn:MF; cbn [negb andb].
    + destruct (solve p None _ _); cbn; split; intros K; try discriminate; destruct K as [K|(K & _)]; discriminate.
    + destruct reuse; cbn [negb].
      * rewrite E2. destruct (matrix s1) as [| |B] eqn:M1.
        -- cbn. split; [intros _; right|reflexivity]. repeat split. intros m Q. destruct (proj2 Em (ex_intro _ m Q)). discriminate.
        -- cbn. split; [intros _; right|reflexivity]. repeat split. intros m Q. destruct (proj2 Em (ex_intro _ m Q)). discriminate.
        -- destruct (proj1 Em (ex_intro _ B eq_refl)) as (m & Q).
           destruct (solve p (Some B) _ _); cbn; [|destruct (negb (keep s2))]; cbn; split; intros K; try discriminate;
             destruct K as [K|(_ & _ & _ & K)]; try discriminate; exfalso; exact (K m Q).
      * cbn [set_matrix matrix]. destruct (solve p (Some _) _ _); cbn; [|destruct (negb (keep s2))]; cbn; split; intros K; try discriminate;
          destruct K as [K|(_ & K & _)]; discriminate.
  - destruct (_ && _); cbn; split; intros K; try discriminate; destruct K as [K|(_ & _ & K & _)]; discriminate.
  - cbn. split; intros K; try discriminate; destruct K as [K|(_ & _ & K & _)]; discriminate.
Qed.

Lemma apply_target p reuse f s : target (fst (apply p reuse f s)) = target s.
Proof.
  unfold apply. set (s1 := if matrix_free p then s else _).
  assert (E1 : target s1 = target s) by (unfold s1; destruct (matrix_free p); [reflexivity|destruct (matrix s); reflexivity]). clearbody s1. rewrite <- E1.
  destruct (target s1) as [i|] eqn:T; [|exact T].
  set (s2 := if hanging s1 then _ else s1). assert (E2 : target s2 = Some i) by (unfold s2; destruct (hanging s1); exact T). clearbody s2.
  destruct f.
  - set (s3 := if _ && _ then _ else s2). assert (E3 : target s3 = Some i) by (unfold s3; destruct (_ && _); exact E2). clearbody s3.
    destruct (if matrix_free p then _ else _) as [[|z c it rr]|]; try exact E3. cbn. destruct (_ && _); exact E3.
  - destruct (_ && _); exact E2.
  - cbn. destruct (_ && _); exact E2.
Qed.
Lemma step_target p s c i : target s = Some i -> exists j, target (fst (step p s c)) = Some j.
Proof.
  intros T. destruct c as [reuse f|j reuse f| | | | |]; cbn [step]; try (exists i; exact T); rewrite apply_target; cbn; eauto.
Qed.
Lemma run_target p l : forall s s' i, target s = Some i -> run p s l = Some s' -> exists j, target s' = Some j.
Proof.
  induction l as [|c l IH]; intros s s' i T H; cbn [run] in H; [injection H as <-; eauto|].
  destruct (step_target p s c i T) as (j & Tj). destruct (step p s c) as (s1, o). apply (IH s1 s' j Tj). destruct o; auto; discriminate.
Qed.

Lemma apply_keeps p reuse f s : keep s = true -> (reuse = true \/ f <> InJacobian) -> (exists m, matrix s = Assembled m) ->
  keep (fst (apply p reuse f s)) = true /\ exists m, matrix (fst (apply p reuse f s)) = Assembled m.
Proof.
  intros K F (m & M). unfold apply. rewrite M. replace (if matrix_free p then s else s) with s by (destruct (matrix_free p); reflexivity).
  destruct (target s) as [i|]; [|cbn; eauto].
  set (s2 := if hanging s then _ else s). assert (E2 : matrix s2 = Assembled m /\ keep s2 = true) by (unfold s2; destruct (hanging s); auto). clearbody s2.
  destruct E2 as (M2 & K2). destruct f.
  - set (s3 := if _ && _ then _ else s2). assert (E3 : (exists m, matrix s3 = Assembled m) /\ keep s3 = true) by (unfold s3; destruct (_ && _); cbn; eauto). clearbody s3.
    destruct E3 as (M3 & K3). destruct (if matrix_free p then _ else _) as [[|z c it rr]|]; cbn; auto. rewrite K3. cbn [negb]. rewrite andb_false_r. cbn. auto.
  - destruct F as [-> | F]; [|congruence]. cbn [negb]. rewrite andb_false_r. cbn. eauto.
  - cbn. destruct (_ && _); cbn; eauto.
Qed.
Lemma run_keeps p l : (forall c, In c l -> keeps_matrix c) -> forall s s', run p s l = Some s' ->
  keep s = true -> (exists m, matrix s = Assembled m) -> exists m, matrix s' = Assembled m.
Proof.
  induction l as [|c l IH]; intros KM s s' H K M; cbn [run] in H; [injection H as <-; exact M|].
  assert (Q : keep (fst (step p s c)) = true /\ exists m, matrix (fst (step p s c)) = Assembled m).
  { specialize (KM c (or_introl eq_refl)). destruct c as [reuse f|j reuse f| |[] | | |]; cbn [step keeps_matrix] in *; try (destruct KM; fail); try (split; assumption).
    - now apply apply_keeps.
    - now apply apply_keeps.
    - split; [reflexivity|exact M]. }
  destruct (step p s c) as (s1, o). apply (IH (fun c' I => KM c' (or_intror I)) s1 s'); try apply Q. destruct o; auto; discriminate.
Qed.

Lemma raised_state p reuse f s s' : apply p reuse f s = (s', Raised) -> hanging s = false ->
  store s' = store s /\ res_converged s' = res_converged s /\ res_iterations s' = res_iterations s /\ res_reduction s' = res_reduction s /\
  first_defect s' = first_defect s /\ defect s' = defect s /\ reduction s' = reduction s /\ min_defect s' = min_defect s /\
  hanging s' = false /\ keep s' = keep s.
Proof.
  unfold apply. intros H Hh.
  set (s1 := if matrix_free p then s else _) in H.
  set (same := fun s' : solver => store s' = store s /\ res_converged s' = res_converged s /\ res_iterations s' = res_iterations s /\ res_reduction s' = res_reduction s /\
  first_defect s' = first_defect s /\ defect s' = defect s /\ reduction s' = reduction s /\ min_defect s' = min_defect s /\
  hanging s' = false /\ keep s' = keep s). change (same s').
  assert (E1 : same s1) by (unfold same, s1; destruct (matrix_free p); [|destruct (matrix s)]; cbn; auto 12). clearbody s1.
  assert (E1h : hanging s1 = false) by apply E1.
  destruct (target s1) as [i|]; [|discriminate]. rewrite E1h in H. 
  destruct f.
  - set (s3 := if _ && _ then _ else s1) in H. assert (E3 : same s3) by (unfold s3; destruct (_ && _); exact E1). clearbody s3.
    destruct (if matrix_free p then _ else _) as [[|z c it rr]|]; try discriminate. injection H as <-. exact E3.
  - destruct (_ && _); injection H as <-; exact E1.
  - set (s3 := if _ && _ then _ else s1) in H. assert (E3 : same s3) by (unfold s3; destruct (_ && _); exact E1). clearbody s3.
    injection H as <-. exact E3.
Qed.

(** ** Problems assembled from element matrices *)
Lemma apply_elements_sub els x z g : apply_elements els (vsub x z) g = apply_elements els x g - apply_elements els z g.
Proof.
  unfold apply_elements. rewrite <- (Rmult_1_l (lsum (fun e => scatter _ (mv _ _ (gather 0 z _)) g) els)).
  unfold Rminus. rewrite <- Ropp_mult_distr_l_reverse, <- lsum_scal, <- lsum_plus. apply lsum_ext. intros e _.
  replace (-1) with (- (1)) by lra.
  transitivity (scatter (vs e) (vadd (mv (length (us e)) (em e) (gather 0 x (us e))) (vscal (-1) (mv (length (us e)) (em e) (gather 0 z (us e))))) g).
  - apply scatter_ext. intros i. unfold vadd, vscal, mv. rewrite <- nsum_scal, <- nsum_plus. apply nsum_ext. intros h _.
    unfold gather, vsub. destruct (nth_error (us e) h); lra.
  - rewrite scatter_add, scatter_scal. unfold vadd, vscal. lra.
Qed.
Lemma full_correction cg z : correction true cg z = full cg z.
Proof. extensionality g. cbn [correction]. unfold full. destruct (find g cg) as [[|]|]; reflexivity. Qed.

Lemma residual_difference cg els b x z g :
  residual_of cg els b (vsub x z) g = residual_of cg els b x g - constrain_residual cg (apply_elements els z) g.
Proof.
  unfold residual_of.
  replace (vsub (apply_elements els (vsub x z)) b) with (combine2 1 (-1) (vsub (apply_elements els x) b) (apply_elements els z)).
  - rewrite constrain_linear. lra.
  - extensionality k. unfold combine2. change (vsub (apply_elements els (vsub x z)) b k) with (apply_elements els (vsub x z) k - b k).
    rewrite apply_elements_sub. unfold vsub. lra.
Qed.
