(** Stage Jacobian, residual and jacobian_apply with hanging nodes. *)
From Coq Require Import Lra FunctionalExtensionality.
From Verif Require Import HangStepModel HangStepSpec EngineSpec EngineProofs EngineProofs3 OneStepSpec OneStepProofs OneStepProofs2 CommonFacts
  ConsProofs ConsProofs2 ConsProofs3 ConsProofs4 ConsProps.
Local Open Scope R_scope.

Lemma left_over_step N G L J a y s : dofs_below N G -> left_over N s -> left_over N (fst (jac_step G L J a y s)).
Proof.
  intros DB H. unfold left_over in *. destruct y; cbn; try exact H;
    try (unfold jacc; repeat match goal with |- context[if ?b then _ else _] => destruct b end; cbn; exact H);
    try (intros h [I|[I|[I|I]]]; first [exact (DB _ _ I)|apply H; tauto]).
  destruct (do_alpha_skeleton L); [|exact H].
  destruct (j_skeleton J c f i (time a) (jxl s) (jxn s)) as ((?, ?), (?, ?)). cbn. exact H.
Qed.
Lemma blocks_below N y s e h : left_over N s -> In e (jac_blocks y s) -> In h (us e) -> (h < N)%nat.
Proof.
  intros H I J. destruct y; cbn in I; try contradiction;
    repeat (destruct I as [<-|I]; [cbn in J; apply H; tauto|]); contradiction.
Qed.
Lemma blocks_value G L J a y s g h : snd (jac_step G L J a y s) g h = lsum (fun e => mscatter (vs e) (us e) (em e) g h) (jac_blocks y s).
Proof.
  destruct y; try reflexivity; try (unfold lsum; cbn [jac_step jac_blocks snd fold_right map vs us em]; unfold madd; ring).
  cbn. destruct (do_alpha_skeleton L); [|reflexivity]. destruct (j_skeleton J c f i (time a) (jxl s) (jxn s)) as ((?, ?), (?, ?)). reflexivity.
Qed.
Section Run.
  Variables (N : nat) (G : space) (L0 L1 : terms R) (J0 J1 : jterms) (a0 a1 : la) (imp : bool).
  Hypothesis DB : dofs_below N G.
  Notation blocks := (twoj_blocks G L0 L1 J0 J1 a0 a1 imp).
  Notation step := (twoj_step G L0 L1 J0 J1 a0 a1 imp).
  Lemma step_left y p : left_over N (fst p) -> left_over N (snd p) -> left_over N (fst (fst (step y p))) /\ left_over N (snd (fst (step y p))).
  Proof.
    destruct p as [s0 s1]. cbn [fst snd]. intros H0 H1. unfold twoj_step.
    pose proof (left_over_step N G L0 J0 a0 y s0 DB H0) as A0. pose proof (left_over_step N G L1 J1 a1 y s1 DB H1) as A1.
    destruct (negb (is_asm y) || imp), (is_post y);
      repeat match goal with |- context[let (_, _) := jac_step ?G ?L ?J ?a ?y ?s in _] => destruct (jac_step G L J a y s) end; cbn in *; auto.
  Qed.
  Lemma twoj_blocks_below l : forall p, left_over N (fst p) -> left_over N (snd p) ->
    forall e h, In e (blocks l p) -> In h (us e) -> (h < N)%nat.
  Proof.
    induction l as [|y l IH]; intros p H0 H1 e h I J; [contradiction|]. cbn [twoj_blocks] in I.
    apply in_app_or in I as [I|I]; [|apply in_app_or in I as [I|I]].
    - destruct (negb (is_asm y) || imp); [|contradiction]. exact (blocks_below N y (fst p) e h H0 I J).
    - destruct (is_post y); [contradiction|]. exact (blocks_below N y (snd p) e h H1 I J).
    - destruct (step_left y p H0 H1) as (A & B). exact (IH _ A B e h I J).
  Qed.
  Lemma twoj_blocks_value l : forall p m g h,
    snd (twoj_run G L0 L1 J0 J1 a0 a1 imp l p m) g h = m g h + lsum (fun e => mscatter (vs e) (us e) (em e) g h) (blocks l p).
  Proof.
    induction l as [|y l IH]; intros p m g h; cbn [twoj_run twoj_blocks]; [cbn; lra|].
    destruct (step y p) as [p' v] eqn:E. rewrite IH. cbn [fst]. rewrite !lsum_app.
    assert (V : v g h = lsum (fun e => mscatter (vs e) (us e) (em e) g h) (if negb (is_asm y) || imp then jac_blocks y (fst p) else []) +
                        lsum (fun e => mscatter (vs e) (us e) (em e) g h) (if is_post y then [] else jac_blocks y (snd p))).
    { destruct p as [s0 s1]. unfold twoj_step in E. cbn [fst snd].
      pose proof (blocks_value G L0 J0 a0 y s0 g h) as B0. pose proof (blocks_value G L1 J1 a1 y s1 g h) as B1.
      destruct (negb (is_asm y) || imp), (is_post y);
        repeat match type of E with context[let (_, _) := jac_step ?G ?L ?J ?a ?y ?s in _] => destruct (jac_step G L J a y s) end; cbn [snd] in *;
        injection E as _ <-; unfold madd, mzero; rewrite ?B0, ?B1, ?lsum_nil; lra. }
    unfold madd at 1. rewrite V. lra.
  Qed.
End Run.

Lemma apply_blocks N G L0 L1 J0 J1 e cells o q x z g : dofs_below N G -> left_over N (fst q) -> left_over N (snd q) ->
  apply_elements (stage_blocks G L0 L1 J0 J1 e cells o q x) z g = mv N (stage_jacobian G L0 L1 J0 J1 e cells o q x mzero) z g.
Proof.
  intros DB H0 H1. unfold apply_elements, stage_blocks, stage_jacobian, mv at 2.
  set (l := sweep _ _ _). set (p := (jset_solution x (fst q), jset_solution x (snd q))).
  assert (A0 : left_over N (fst p)) by exact H0. assert (A1 : left_over N (snd p)) by exact H1.
  rewrite (nsum_ext N _ (fun h => lsum (fun b => mscatter (vs b) (us b) (em b) g h * z h)
    (twoj_blocks G L0 L1 J0 J1 (la_spatial o) (la_temporal o) (implicit_stage o) l p))).
  2:{ intros h _. rewrite (twoj_blocks_value G). unfold mzero. rewrite Rplus_0_l.
      rewrite (Rmult_comm (lsum _ _)), <- lsum_scal. apply lsum_ext. intros; lra. }
  rewrite nsum_lsum. apply lsum_ext. intros b I. symmetry. apply mv_mscatter.
  intros h J. exact (twoj_blocks_below N G L0 L1 J0 J1 _ _ _ DB l p A0 A1 b h I J).
Qed.
Lemma stage_blocks_below N G L0 L1 J0 J1 e cells o q x : dofs_below N G -> left_over N (fst q) -> left_over N (snd q) ->
  forall b k, In b (stage_blocks G L0 L1 J0 J1 e cells o q x) -> In k (us b) -> (k < N)%nat.
Proof. intros DB Q0 Q1 b k I J. unfold stage_blocks in I. eapply twoj_blocks_below; [exact DB| | |exact I|exact J]; assumption. Qed.
Lemma caches_map tu tv els : caches_of (entries tu) (entries tv) (needs_caching tu tv) els (map (with_caches tu tv) els).
Proof.
  unfold caches_of. induction els as [|e els IH]; cbn; constructor; auto. cbn. split; [now exists []|split; [now exists []|reflexivity]].
Qed.
(** For updates without part in Dirichlet DOFs the symmetric scatter gives the same product. *)
Lemma symmetric_product N osu osv sym els cs z g :
  let tu := after_history osu in let tv := after_history osv in
  caches_of (entries tu) (entries tv) (needs_caching tu tv) els cs -> (sym = true -> forall h, dirichlet (entries tu) h -> z h = 0) ->
  ~ constrained (entries tv) g ->
  mv N (assemble_constrained (entries tu) (entries tv) sym cs mzero) z g = mv N (assemble_constrained (entries tu) (entries tv) false cs mzero) z g.
Proof.
  cbn zeta. intros C Z NC. destruct sym; [|reflexivity]. specialize (Z eq_refl). unfold mv. apply nsum_ext. intros h _.
  rewrite !(c26_assembled osu osv _ els cs mzero g h C). destruct (in_dec Nat.eq_dec g (keys (entries (after_history osv)))) as [I|_]; [contradiction|].
  unfold mzero. rewrite !Rplus_0_l, !(Rmult_comm (lsum _ _)), <- !lsum_scal. apply lsum_ext. intros e _. unfold galerkin. rewrite <- !nsum_scal.
  apply nsum_ext. intros i _. rewrite <- !nsum_scal. apply nsum_ext. intros j _.
  unfold trial_basis. destruct (ConsModel.find (nth j (us e) O) (entries (after_history osu))) as [[|c r]|] eqn:F; try reflexivity.
  unfold delta. destruct (Nat.eqb_spec (nth j (us e) O) h) as [<-|]; [|reflexivity]. rewrite (Z (nth j (us e) O)); [ring|].
  unfold dirichlet. now apply ConsProofs.find_in.
Qed.
Lemma constrain_derivable cg (F : R -> vec) (v : vec) g : flat cg -> ~ constrained cg g ->
  (forall k, derivable_pt_lim (fun s => F s k) 0 (v k)) -> derivable_pt_lim (fun s => constrain_residual cg (F s) g) 0 (constrain_residual cg v g).
Proof.
  intros FL NC D. rewrite (proj2 (c25_formula cg v g) FL NC).
  eapply derivable_pt_lim_ext. { intros s. symmetry. exact (proj2 (c25_formula cg (F s) g) FL NC). }
  apply derivable_pt_lim_plus'; [apply D|]. unfold received. apply (lsum_derivable (fun s col => ConsSpec.weight (snd col) g * F s (fst col))).
  intros col _. apply (derivable_pt_lim_scal (fun s => F s (fst col))). apply D.
Qed.
Lemma hanging_derivative N osu osv sym G L0 L1 J0 J1 e cells m T t h r const p q x z r0 g :
  let tu := after_history osu in let tv := after_history osv in
  dofs_below N G -> local_derivatives G L0 J0 -> local_derivatives G L1 J1 ->
  left_over N (fst q) -> left_over N (snd q) -> flat (entries tv) -> below N (entries tu) ->
  (sym = true -> forall k, dirichlet (entries tu) k -> z k = 0) ->
  let o := pre_step m T t h r in
  let F := hanging_residual tv G L0 L1 e cells o const p in
  let A := hanging_jacobian tu tv sym G L0 L1 J0 J1 e cells o q x mzero in
  (~ constrained (entries tv) g -> derivable_pt_lim (fun s => F (along x (full (entries tu) z) s) r0 g) 0 (mv N A z g)) /\
  (constrained (entries tv) g -> (forall y, F y r0 g = 0) /\ ((g < N)%nat -> mv N A z g = z g)).
Proof.
  cbn zeta. intros DB D0 D1 Q0 Q1 FL B Z. set (o := pre_step m T t h r). split; intros C.
  - unfold hanging_jacobian. rewrite (symmetric_product N osu osv sym _ _ z g (caches_map _ _ _) Z C).
    rewrite (c49_product osu osv N _ _ z g (caches_map _ _ _) FL B).
    2:{ intros b k I J. exact (stage_blocks_below N G L0 L1 J0 J1 e cells _ q x DB Q0 Q1 b k I J). }
    2: exact C.
    unfold hanging_residual. cbv beta delta [stage_residual] zeta.
    apply (constrain_derivable (entries (after_history osv))
      (fun s => stage_residual G L0 L1 (fun v => v) e cells o const p (along x (full (entries (after_history osu)) z) s) r0)); auto.
    intros k. rewrite (apply_blocks N) by auto. now apply stage_derivative.
  - split; [intros y; exact (proj1 (c25_formula _ _ g) C)|]. intros L. now apply c49_constrained_rows.
Qed.
Lemma constrain_plus cg u v g : constrain_residual cg (fun k => u k + v k) g = constrain_residual cg u g + constrain_residual cg v g.
Proof.
  pose proof (c25_linear cg 1 1 u v g) as H. rewrite !Rmult_1_l in H. rewrite <- H. f_equal. apply functional_extensionality. intros k. lra.
Qed.
Lemma hanging_apply_value N tv G L0 L1 J0 J1 LA0 LA1 e cells m T t h r p q x z r0 g :
  dofs_below N G -> local_apply G L0 J0 LA0 -> local_apply G L1 J1 LA1 ->
  let o := pre_step m T t h r in
  hanging_apply tv G LA0 LA1 e cells o p x z r0 g =
  constrain_residual (entries tv) r0 g + constrain_residual (entries tv) (mv N (stage_jacobian G L0 L1 J0 J1 e cells o q x mzero) z) g.
Proof.
  cbn zeta. intros DB A0 A1. unfold hanging_apply. rewrite <- constrain_plus. f_equal. apply functional_extensionality. intros k.
  now apply stage_apply_product.
Qed.
Lemma hanging_product N osu osv sym G L0 L1 J0 J1 e cells o q x z g :
  let tu := after_history osu in let tv := after_history osv in
  dofs_below N G -> left_over N (fst q) -> left_over N (snd q) -> flat (entries tv) -> below N (entries tu) ->
  (sym = true -> forall k, dirichlet (entries tu) k -> z k = 0) -> ~ constrained (entries tv) g ->
  mv N (hanging_jacobian tu tv sym G L0 L1 J0 J1 e cells o q x mzero) z g =
  constrain_residual (entries tv) (mv N (stage_jacobian G L0 L1 J0 J1 e cells o q x mzero) (full (entries tu) z)) g.
Proof.
  cbn zeta. intros DB Q0 Q1 FL B Z C. unfold hanging_jacobian. rewrite (symmetric_product N osu osv sym _ _ z g (caches_map _ _ _) Z C).
  rewrite (c49_product osu osv N _ _ z g (caches_map _ _ _) FL B); auto.
  - f_equal. apply functional_extensionality. intros k. now apply apply_blocks.
  - intros b k I J. exact (stage_blocks_below N G L0 L1 J0 J1 e cells _ q x DB Q0 Q1 b k I J).
Qed.
