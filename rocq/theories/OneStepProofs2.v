From Coq Require Import FunctionalExtensionality.
From Verif Require Import DriverProofs EngineProofs EngineProofs2 EngineProofs3 OneStepSpec OneStepProofs.
Local Open Scope R_scope.

(** ** Two Jacobian engines side by side *)
Section TwoJ.
  Variables (G : space) (L0 L1 : terms R) (J0 J1 : jterms) (a0 a1 : la) (imp two : bool).
  Let M0 := seen two imp imp L0.
  Let M1 := seen two true false L1.

  Lemma jrun_acc L J a l : forall s m g h, snd (jac_run G L J a l s m) g h = m g h + snd (jac_run G L J a l s mzero) g h.
  Proof.
    induction l as [|y l IH]; intros s m g h; cbn [jac_run snd]. { unfold mzero. lra. }
    destruct (jac_step G L J a y s) as [s' v]. rewrite IH, (IH s' (madd mzero v)). unfold madd, mzero. lra.
  Qed.
  Lemma twoj_step_0 y s : (if negb (is_asm y) || imp then jac_step G L0 J0 a0 y s else (s, mzero)) = jac_step G M0 J0 a0 y s.
  Proof. unfold M0. destruct imp, y; reflexivity. Qed.
  Lemma twoj_step_1 y s : (if is_post y then (s, mzero) else jac_step G L1 J1 a1 y s) = jac_step G M1 J1 a1 y s.
  Proof. unfold M1. destruct y; reflexivity. Qed.

  Lemma twoj_run_split l : forall s0 s1 m g h,
    snd (twoj_run G L0 L1 J0 J1 a0 a1 imp l (s0, s1) m) g h =
    m g h + snd (jac_run G M0 J0 a0 l s0 mzero) g h + snd (jac_run G M1 J1 a1 l s1 mzero) g h.
  Proof.
    induction l as [|y l IH]; intros s0 s1 m g h. { cbn. unfold mzero. lra. }
    cbn [twoj_run]. unfold twoj_step. rewrite twoj_step_0, twoj_step_1. cbn [jac_run].
    destruct (jac_step G M0 J0 a0 y s0) as [s0' v0], (jac_step G M1 J1 a1 y s1) as [s1' v1]. rewrite IH.
    rewrite (jrun_acc M0 J0 a0 l s0' (madd mzero v0)), (jrun_acc M1 J1 a1 l s1' (madd mzero v1)). unfold madd, mzero. lra.
  Qed.
End TwoJ.

Ltac jask := unfold jasks; cbn;
  repeat (split; [let E := fresh in intros E; try discriminate E; try (apply andb_true_iff in E; destruct E as [_ E]); rewrite E; rewrite ?orb_true_r; reflexivity|]);
  left; reflexivity.

Lemma stage_jacobian_value G L0 L1 J0 J1 e cells o q x m g h :
  let two := do_two_sided L0 || do_two_sided L1 in
  stage_jacobian G L0 L1 J0 J1 e cells o q x m g h =
  m g h + b (T o) (stage o) (stage o) * f0 o * jacobian_value G e (seen two (implicit_stage o) (implicit_stage o) L0) J0 (time_at o (stage o)) x cells g h
  + f1 o * jacobian_value G e (seen two true false L1) J1 (time_at o (stage o)) x cells g h.
Proof.
  cbn zeta. unfold stage_jacobian. rewrite (twoj_run_split _ _ _ _ _ _ _ _ (do_two_sided L0 || do_two_sided L1)).
  rewrite (jac_sweep G e _ _ J0 (la_spatial o) x) by (reflexivity || jask).
  rewrite (jac_sweep G e _ _ J1 (la_temporal o) x) by (reflexivity || jask).
  unfold mzero. cbn [weight time la_spatial la_temporal]. lra.
Qed.

Lemma mv_lin N m m' w w' z g : mv N (fun i j => w * m i j + w' * m' i j) z g = w * mv N m z g + w' * mv N m' z g.
Proof.
  unfold mv. rewrite <- !nsum_scal, <- nsum_plus. apply nsum_ext. intros. lra.
Qed.

Lemma stage_mv N G L0 L1 J0 J1 e cells o q x z g :
  let two := do_two_sided L0 || do_two_sided L1 in
  mv N (stage_jacobian G L0 L1 J0 J1 e cells o q x mzero) z g =
  b (T o) (stage o) (stage o) * f0 o * mv N (jacobian_value G e (seen two (implicit_stage o) (implicit_stage o) L0) J0 (time_at o (stage o)) x cells) z g +
  f1 o * mv N (jacobian_value G e (seen two true false L1) J1 (time_at o (stage o)) x cells) z g.
Proof.
  cbn zeta. rewrite <- mv_lin. apply mv_ext. intros h. rewrite stage_jacobian_value. unfold mzero. lra.
Qed.

(** C16 *)
Theorem stage_derivative N G L0 L1 J0 J1 e cells o const p q x z r g :
  dofs_below N G -> local_derivatives G L0 J0 -> local_derivatives G L1 J1 ->
  derivable_pt_lim (fun s => stage_residual G L0 L1 (fun v => v) e cells o const p (along x z s) r g) 0
                   (mv N (stage_jacobian G L0 L1 J0 J1 e cells o q x mzero) z g).
Proof.
  intros DB D0 D1. rewrite stage_mv. set (two := do_two_sided L0 || do_two_sided L1).
  eapply derivable_pt_lim_ext.
  { intros s. symmetry. rewrite stage_residual_value. fold two. reflexivity. }
  match goal with |- derivable_pt_lim _ _ (?u + ?v) => replace (u + v) with (0 + u + v + 0) by lra end.
  apply derivable_pt_lim_plus'; [|apply derivable_pt_lim_const].
  apply derivable_pt_lim_plus'; [apply derivable_pt_lim_plus'; [apply derivable_pt_lim_const|]|].
  - apply (derivable_pt_lim_scal (fun s => operator_value 0 G e (seen two (implicit_stage o) (implicit_stage o) L0) (time_at o (stage o)) (along x z s) cells g)).
    apply value_derivative; [exact DB|exact D0].
  - apply (derivable_pt_lim_scal (fun s => operator_value 0 G e (seen two true false L1) (time_at o (stage o)) (along x z s) cells g)).
    apply value_derivative; [exact DB|exact D1].
Qed.

Lemma seen_apply G L J LA two asm post : local_apply G L J LA -> local_apply G (seen two asm post L) J (seen two asm post LA).
Proof.
  intros (E1 & E2 & E3 & E4 & E5 & E6 & E7 & E8 & E9 & H). unfold local_apply. cbn.
  rewrite E1, E2, E3, E4, E6, E7, E8, E9, !andb_false_r. repeat (split; [reflexivity|]). exact H.
Qed.

Theorem stage_apply_product N G L0 L1 J0 J1 LA0 LA1 e cells o p q x z r g :
  dofs_below N G -> local_apply G L0 J0 LA0 -> local_apply G L1 J1 LA1 ->
  stage_apply G LA0 LA1 e cells o p x z r g = r g + mv N (stage_jacobian G L0 L1 J0 J1 e cells o q x mzero) z g.
Proof.
  intros DB A0 A1. rewrite stage_mv. unfold stage_apply.
  assert (E : do_two_sided LA0 || do_two_sided LA1 = do_two_sided L0 || do_two_sided L1).
  { destruct A0 as (_ & _ & _ & _ & -> & _), A1 as (_ & _ & _ & _ & -> & _). reflexivity. }
  rewrite (two_value (0, 0) G LA0 LA1 (la_spatial o) (la_temporal o) (implicit_stage o) (do_two_sided LA0 || do_two_sided LA1) e
             (either (apply_flags LA0) (apply_flags LA1)) cells (set_solution _ (fst p)) (set_solution _ (snd p)) (fun g => (x g, z g)) r g eq_refl eq_refl).
  - rewrite E. set (two := do_two_sided L0 || do_two_sided L1).
    rewrite (value_apply G e _ J0 (time (la_spatial o)) N DB _ x z cells g (seen_apply G L0 J0 LA0 two (implicit_stage o) (implicit_stage o) A0)).
    rewrite (value_apply G e _ J1 (time (la_temporal o)) N DB _ x z cells g (seen_apply G L1 J1 LA1 two true false A1)).
    cbn [weight time la_spatial la_temporal]. lra.
  - destruct A0 as (_ & _ & _ & _ & _ & E6 & E7 & E8 & E9 & _). unfold asks_for. cbn. rewrite E7, E8, E9, !andb_false_r.
    repeat (split; [try discriminate; intros F; apply andb_true_iff in F; destruct F as [_ F]; rewrite F; rewrite ?orb_true_r; reflexivity|]).
    left; reflexivity.
  - destruct A1 as (_ & _ & _ & _ & _ & E6 & E7 & E8 & E9 & _). unfold asks_for. cbn. rewrite ?E7, ?E8, ?E9, ?andb_false_r.
    repeat (split; [try discriminate; intros F; rewrite ?F; rewrite ?orb_true_r; reflexivity|]).
    left; reflexivity.
Qed.

(** ** Explicit stages *)
Section Ex.
  Variables (G : space) (L0 L1 : terms R) (J1 : jterms) (o : os) (xs : nat -> vec).
  Hypothesis M : linear_mass G L1 J1.
  Let K0 := K_of G o xs L0 (f0 o) (fun s => b (T o) (stage o) s).
  Let K1 := K_of G o xs L1 (f1 o) (fun s => a (T o) (stage o) s).

  (** the call is forwarded to the prestage engine unless it has nothing to do *)
  Definition fits (y : call) : Prop :=
    match y with
    | OnBindVOutside _ _ _ | OnUnbindVOutside _ _ _ => to_pre L0 L1 y = true
    | _ => True
    end.

  Lemma ksum_zero l K y : (forall s, K s y = (vzero, vzero)) -> ksum l K y = (vzero, vzero).
  Proof.
    intros H. unfold ksum. f_equal; apply functional_extensionality; intros i; unfold vzero at 1; apply lsum_zero; intros s _; rewrite H; reflexivity.
  Qed.
  Lemma kop_zero L f w s y : own 0 G L (w s * f) (time_at o s) (xs s) y = (vzero, vzero) -> kop G o xs L f w s y = (vzero, vzero).
  Proof. intros H. unfold kop. destruct (big (w s)); auto. Qed.

  Lemma not_forwarded y : to_pre L0 L1 y = false -> fits y -> forall m,
    (match y with OnBindV _ | OnUnbindV _ => False | _ => True end) ->
    ideal_step G K0 y m = (m, vzero) /\ ideal_step G K1 y m = (m, vzero).
  Proof.
    intros H F m B.
    assert (Z : is_asm y = true -> K0 y = (vzero, vzero) /\ K1 y = (vzero, vzero)).
    { intros I. split; apply ksum_zero; intros s; apply kop_zero;
      destruct y; try discriminate; cbn in H |- *; try reflexivity; apply orb_false_elim in H; destruct H as [H H'];
      unfold kin, kboth; rewrite ?H, ?H'; reflexivity. }
    destruct (is_asm y) eqn:I.
    - destruct (Z eq_refl) as [Z0 Z1].
      destruct y; try discriminate; cbn [ideal_step]; unfold add_in, add_both; rewrite ?Z0, ?Z1; cbn [fst snd]; rewrite ?vadd_zero_r, ?ms_eta; split; reflexivity.
    - destruct y; try discriminate; try contradiction; cbn [ideal_step]; split; try reflexivity; cbn [fits] in F; congruence.
  Qed.

  Lemma reset_proj y p : proj (snd (fst (reset o y p))) = proj (snd (fst p)) /\ proj (snd (snd (reset o y p))) = proj (snd (snd p)).
  Proof. destruct p as [[a0 s0] [a1 s1]]. destruct y; split; reflexivity. Qed.

  Lemma ex_run_ideal l : Forall fits l -> forall p j r m,
    fst (snd (ex_run G L0 L1 J1 o xs l (p, j) (r, m))) =
    (snd (ideal_run G K0 l (proj (snd (fst p))) (fst r)), snd (ideal_run G K1 l (proj (snd (snd p))) (snd r))).
  Proof.
    induction 1 as [|y l F _ IH]; intros p j [r0 r1] m; cbn [ex_run ideal_run]; [reflexivity|].
    unfold ex_step.
    assert (P : let '((p0', p1'), (v0, v1)) := (if to_pre L0 L1 y then pre_call G L0 L1 o xs y p else (p, (vzero, vzero))) in
      ideal_step G K0 y (proj (snd (fst p))) = (proj (snd p0'), v0) /\
      ideal_step G K1 y (proj (snd (snd p))) = (proj (snd p1'), v1)).
    { destruct (to_pre L0 L1 y) eqn:E; [apply (pre_call_ideal G L0 L1 o xs y p)|].
      destruct p as [[a0 s0] [a1 s1]]. cbn [fst snd].
      assert (B : match y with OnBindV _ | OnUnbindV _ => False | _ => True end).
      { destruct y; try exact I; cbn in E; destruct M as (M1 & _); rewrite M1, ?orb_true_r in E; discriminate. }
      split; [apply (proj1 (not_forwarded y E F _ B))|apply (proj2 (not_forwarded y E F _ B))]. }
    destruct (if to_pre L0 L1 y then pre_call G L0 L1 o xs y p else (p, (vzero, vzero))) as [[p0' p1'] [v0 v1]].
    destruct P as [-> ->]. destruct (reset_proj y (p0', p1')) as [R0 R1].
    destruct (if to_jac L1 y then _ else _) as [j' mm]. cbn [fst snd] in *. rewrite IH, R0, R1. reflexivity.
  Qed.

  (** the Jacobian engine *)
  Definition inert (y : call) : bool :=
    match y with OnBindUV _ | LoadInside _ | AsmUVVolume _ | OnUnbindUV _ => false | _ => true end.

  Lemma ex_run_app l l' q r : ex_run G L0 L1 J1 o xs (l ++ l') q r =
    let (q', r') := ex_run G L0 L1 J1 o xs l q r in ex_run G L0 L1 J1 o xs l' q' r'.
  Proof.
    revert q r. induction l as [|y l IH]; intros q r; cbn [ex_run app]; [reflexivity|].
    destruct (ex_step G L0 L1 J1 o xs y q). apply IH.
  Qed.

  Lemma inert_step y q : inert y = true ->
    snd (fst (ex_step G L0 L1 J1 o xs y q)) = snd q /\ snd (snd (ex_step G L0 L1 J1 o xs y q)) = mzero.
  Proof.
    intros H. destruct q as [p j]. unfold ex_step.
    destruct (if to_pre L0 L1 y then pre_call G L0 L1 o xs y p else (p, (vzero, vzero))) as [p1 v].
    destruct M as (M1 & M2 & M3 & M4 & _).
    destruct y; try discriminate; cbn [to_jac]; rewrite ?M1, ?M2, ?M3, ?M4; cbn; split; reflexivity.
  Qed.
  Lemma inert_run l : Forall (fun y => inert y = true) l -> forall q r,
    snd (fst (ex_run G L0 L1 J1 o xs l q r)) = snd q /\ snd (snd (ex_run G L0 L1 J1 o xs l q r)) = snd r.
  Proof.
    induction 1 as [|y l Hy _ IH]; intros q r; cbn [ex_run]; [split; reflexivity|].
    pose proof (inert_step y q Hy) as [E1 E2]. destruct (ex_step G L0 L1 J1 o xs y q) as [q' v]. cbn [fst snd] in *.
    destruct (IH q' (vadd (fst (fst r)) (fst (fst v)), vadd (snd (fst r)) (snd (fst v)), madd (snd r) (snd v))) as [-> ->].
    cbn [snd]. rewrite E1, E2, madd_zero_r. split; reflexivity.
  Qed.

  Lemma face_inert e fl c i f : Forall (fun y => inert y = true) (face_calls e fl c i f).
  Proof.
    unfold face_calls. destruct (classify e f), (uv_skeleton fl), (v_skeleton fl), (uv_boundary fl), (v_boundary fl), ((outside f <? cid c)%nat || two_sided fl);
      cbn; repeat constructor.
  Qed.
  Lemma faces_inert e fl c : forall fs i, Forall (fun y => inert y = true) (faces_calls e fl c i fs).
  Proof.
    induction fs as [|f fs IH]; intros i; cbn [faces_calls]; [constructor|]. destruct (skip_intersection e c f); [apply IH|].
    apply Forall_app. split; [apply face_inert|apply IH].
  Qed.

  Lemma ex_uv_volume c q : exists p1 v,
    ex_step G L0 L1 J1 o xs (AsmUVVolume c) q =
    ((p1, jacc true (-1) (j_volume J1 c (time_at o (stage o)) (jxl (snd q))) (snd q)), (v, mzero)).
  Proof.
    destruct q as [p j]. unfold ex_step.
    destruct (if to_pre L0 L1 (AsmUVVolume c) then pre_call G L0 L1 o xs (AsmUVVolume c) p else (p, (vzero, vzero))) as [[[a0 s0] [a1 s1]] v].
    cbn [reset to_jac]. destruct M as (E & _). rewrite E. cbn [fst snd jac_step weight time]. rewrite E.
    eexists. eexists. reflexivity.
  Qed.
  Lemma ex_other y q : inert y = false -> is_asm y = false -> exists p1 v,
    ex_step G L0 L1 J1 o xs y q =
    ((p1, fst (jac_step G L1 J1 (mkla 0 0) y (snd q))), (v, snd (jac_step G L1 J1 (mkla 0 0) y (snd q)))).
  Proof.
    intros H H'. destruct q as [p j]. unfold ex_step.
    destruct (if to_pre L0 L1 y then pre_call G L0 L1 o xs y p else (p, (vzero, vzero))) as [[[a0 s0] [a1 s1]] v].
    destruct M as (E & _). destruct y; try discriminate; cbn [reset to_jac is_asm]; rewrite E; cbn [fst snd jac_step];
    eexists; eexists; reflexivity.
  Qed.

  Lemma ex_cell e fl c x q r : jsol (snd q) = x ->
    let '(q', r') := ex_run G L0 L1 J1 o xs (cell_calls e fl c) q r in
    jsol (snd q') = x /\ forall g h, snd r' g h = snd r g h + (-1) *
      (if skip_entity e c then 0 else cell_jac G L1 J1 (time_at o (stage o)) x c g h).
  Proof.
    intros S. unfold cell_calls. destruct (skip_entity e c). { cbn. split; [exact S|]. intros. lra. }
    change ([OnBindV c; AsmVVolume c; OnBindUV c; LoadInside c; AsmUVVolume c]) with ([OnBindV c; AsmVVolume c] ++ [OnBindUV c; LoadInside c; AsmUVVolume c]).
    rewrite <- app_assoc, ex_run_app.
    destruct (inert_run [OnBindV c; AsmVVolume c]) with (q := q) (r := r) as [E1 E2]; [repeat constructor|].
    destruct (ex_run G L0 L1 J1 o xs [OnBindV c; AsmVVolume c] q r) as [q1 r1]. cbn [fst snd] in E1, E2.
    rewrite ex_run_app. cbn [ex_run].
    destruct (ex_other (OnBindUV c) q1 eq_refl eq_refl) as (p2 & v2 & ->). cbn [fst snd jac_step].
    match goal with |- context [ex_step _ _ _ _ _ _ (LoadInside c) ?q] => destruct (ex_other (LoadInside c) q eq_refl eq_refl) as (p3 & v3 & ->) end.
    cbn [fst snd jac_step].
    match goal with |- context [ex_step _ _ _ _ _ _ (AsmUVVolume c) ?q] => destruct (ex_uv_volume c q) as (p4 & v4 & ->) end.
    cbn [fst snd]. rewrite !madd_zero_r.
    rewrite app_assoc, ex_run_app.
    match goal with |- context [ex_run G L0 L1 J1 o xs (?l ++ ?l') ?q ?r] =>
      pose proof (fun H => inert_run (l ++ l') H q r) as EQ;
      destruct (ex_run G L0 L1 J1 o xs (l ++ l') q r) as [q5 r5] end.
    destruct EQ as [E3 E4].
    { apply Forall_app. split.
      - destruct (_ || _); [apply faces_inert|constructor].
      - destruct (uv_post fl), (v_post fl); repeat constructor. }
    cbn [fst snd] in E3, E4. cbn [ex_run].
    destruct (ex_other (OnUnbindUV c) q5 eq_refl eq_refl) as (p6 & v6 & ->).
    match goal with |- context [ex_step _ _ _ _ _ _ (OnUnbindV c) ?q] =>
      pose proof (inert_step (OnUnbindV c) q eq_refl) as [E5 E6]; destruct (ex_step G L0 L1 J1 o xs (OnUnbindV c) q) as [q7 v7] end.
    cbn [fst snd] in E5, E6 |- *. rewrite E5, E6, E4, E3. cbn [jac_step fst snd].
    split. { unfold jacc. cbn. rewrite E1. exact S. }
    intros g h. rewrite madd_zero_r. unfold madd, jacc, jset_al. cbn [al ss_dofs fst snd jxl jsol js_dofs].
    rewrite mscatter_acc, mscatter_zero, E2, E1, S. unfold cell_jac.
    destruct M as (-> & _ & _ & -> & _). cbn [mopt]. rewrite mscatter_zero. lra.
  Qed.

  Lemma mass_value e x cells g h : jacobian_value G e L1 J1 (time_at o (stage o)) x cells g h =
    lsum (fun c => if skip_entity e c then 0 else cell_jac G L1 J1 (time_at o (stage o)) x c g h) cells.
  Proof.
    unfold jacobian_value. induction cells as [|c cells IH]; cbn [filter]; [reflexivity|].
    rewrite lsum_cons, <- IH. destruct (skip_entity e c); cbn [negb]; [lra|]. rewrite lsum_cons. f_equal.
    rewrite lsum_zero; [lra|]. intros [i f] _. unfold face_jac. destruct M as (_ & -> & -> & _).
    rewrite andb_false_r. cbn [mopt]. rewrite mscatter_zero. destruct (classify e f); reflexivity.
  Qed.

  Lemma ex_sweep e fl x cells : forall q r g h, jsol (snd q) = x ->
    snd (snd (ex_run G L0 L1 J1 o xs (sweep e fl cells) q r)) g h =
    snd r g h - jacobian_value G e L1 J1 (time_at o (stage o)) x cells g h.
  Proof.
    intros q r g h. rewrite mass_value. revert q r. unfold sweep. induction cells as [|c cells IH]; intros q r S; cbn [flat_map].
    { cbn. lra. }
    rewrite ex_run_app, lsum_cons. pose proof (ex_cell e fl c x q r S) as H.
    destruct (ex_run G L0 L1 J1 o xs (cell_calls e fl c) q r) as [q1 r1]. destruct H as [S1 H]. rewrite IH by exact S1. rewrite H. lra.
  Qed.

  Lemma sweep_fits e cells : Forall fits (sweep e (either (either (res_flags L0) (res_flags L1)) (jac_flags L1)) cells).
  Proof.
    unfold sweep. induction cells as [|c cells IH]; cbn [flat_map]; [constructor|]. apply Forall_app. split; [|exact IH].
    set (fl := either _ _).
    assert (F : forall i f, Forall fits (face_calls e fl c i f)).
    { intros i f. unfold face_calls.
      assert (SK : Forall fits (if uv_skeleton fl || v_skeleton fl then
         if (outside f <? cid c)%nat || two_sided fl then
          OnBindVOutside c f i :: AsmVSkeleton c f i ::
          (if uv_skeleton fl then
             [OnBindUVOutside c f i; LoadOutside c f i; AsmUVSkeleton c f i; OnUnbindUVOutside c f i] else [])
          ++ [OnUnbindVOutside c f i]
         else [] else [])).
      { destruct (uv_skeleton fl || v_skeleton fl) eqn:E; [|constructor].
        destruct ((outside f <? cid c)%nat || two_sided fl); [|constructor].
        assert (Q : (do_alpha_skeleton L0 || do_alpha_skeleton L1) || (do_lambda_skeleton L0 || do_lambda_skeleton L1) = true).
        { unfold fl in E. cbn in E. destruct M as (_ & M2 & _). rewrite M2 in *.
          destruct (do_alpha_skeleton L0), (do_lambda_skeleton L0), (do_lambda_skeleton L1); cbn in *; congruence. }
        destruct (uv_skeleton fl); cbn [app]; repeat constructor; exact Q. }
      destruct (classify e f); [|exact SK| |exact SK]; destruct (uv_boundary fl), (v_boundary fl); cbn; repeat constructor. }
    assert (FS : forall fs i, Forall fits (faces_calls e fl c i fs)).
    { induction fs as [|f fs IHf]; intros i; cbn [faces_calls]; [constructor|]. destruct (skip_intersection e c f); [apply IHf|].
      apply Forall_app. split; [apply F|apply IHf]. }
    unfold cell_calls. destruct (skip_entity e c); [constructor|].
    apply Forall_app. split; [repeat constructor|]. apply Forall_app. split; [destruct (_ || _); [apply FS|constructor]|].
    apply Forall_app. split; [destruct (uv_post fl), (v_post fl); repeat constructor|repeat constructor].
  Qed.
End Ex.

Ltac asks3 := unfold asks_for; cbn;
  repeat (split; [intros E; rewrite E; rewrite ?orb_true_r; cbn; rewrite ?orb_true_r; reflexivity|]).

(** The system of an explicit stage, for all operators. *)
Theorem explicit_parts G L0 L1 J1 C e cells o xs p j m :
  linear_mass G L1 J1 ->
  let '(D, alpha, beta) := explicit_jacobian_residual G L0 L1 J1 C e cells o xs p j m in
  (forall g h, D g h = m g h - jacobian_value G e L1 J1 (time_at o (stage o)) (xs (stage o)) cells g h) /\
  alpha = C (fun g => lsum (fun s => (if big (a (T o) (stage o) s) then a (T o) (stage o) s * f1 o else 0) *
                         operator_value 0 G e L1 (time_at o s) (xs s) cells g) (seq 0 (stage o))) /\
  beta = (fun g => lsum (fun s => (if big (b (T o) (stage o) s) then b (T o) (stage o) s * f0 o else 0) *
                         operator_value 0 G e L0 (time_at o s) (xs s) cells g) (seq 0 (stage o))).
Proof.
  intros M. unfold explicit_jacobian_residual. cbn zeta.
  set (fl := either (either (res_flags L0) (res_flags L1)) (jac_flags L1)).
  pose proof (ex_run_ideal G L0 L1 J1 o xs M (sweep e fl cells) (sweep_fits G L0 L1 J1 M e cells) p (jset_solution (xs (stage o)) j) (vzero, vzero) m) as I.
  pose proof (fun g h => ex_sweep G L0 L1 J1 o xs M e fl (xs (stage o)) cells (p, jset_solution (xs (stage o)) j) (vzero, vzero, m) g h eq_refl) as D.
  destruct (ex_run G L0 L1 J1 o xs (sweep e fl cells) (p, jset_solution (xs (stage o)) j) (vzero, vzero, m)) as [q r].
  cbn [fst snd] in *. rewrite I. cbn [fst snd].
  destruct M as (M1 & M2 & M3 & M4 & M5 & M6 & M7 & M8 & M9 & _).
  split; [exact D|]. split.
  - f_equal. apply functional_extensionality; intros g. rewrite ideal_sweep.
    rewrite (K_value G o xs L1 (f1 o) (fun s => a (T o) (stage o) s) e fl cells). { unfold vzero. lra. }
    unfold asks_for. rewrite M2, M3, M4, M6, M7, M8. repeat (split; [discriminate|]). now right.
  - apply functional_extensionality; intros g. rewrite ideal_sweep.
    rewrite (K_value G o xs L0 (f0 o) (fun s => b (T o) (stage o) s) e fl cells). { unfold vzero. lra. }
    unfold fl. asks3. left. cbn. rewrite M9, !orb_false_r. reflexivity.
Qed.

(** C17 *)
Theorem explicit_stage_row N G L0 L1 J1 C e cells T t h r us p j guess g :
  dofs_below N G -> linear_mass G L1 J1 -> coefficients_ok T r -> b T r r = 0 -> (forall v, C v g = v g) ->
  let o := pre_step DoNotAssembleDT T t h r in
  (let '(D, rhs) := explicit_system G L0 L1 J1 C e cells o (fun i => if (i =? r)%nat then guess else us i) p j h in
     mv N D (us r) g = rhs g) ->
  stage_formula G L0 L1 e cells (pre_step MultiplyOperator0ByDT T t h r) us g = 0.
Proof.
  intros DB M [Hd HK] B0 HC o S.
  unfold explicit_system in S.
  set (us' := fun i => if (i =? r)%nat then guess else us i) in S.
  pose proof (explicit_parts G L0 L1 J1 C e cells o us' p j mzero M) as P.
  destruct (explicit_jacobian_residual G L0 L1 J1 C e cells o us' p j mzero) as [[D alpha] beta].
  destruct P as (PD & PA & PB). unfold vadd, vscal in S. rewrite PA, PB, HC in S. clear PA PB.
  cbn [stage EngineSpec.mv OneStepModel.T f1 f0 o pre_step] in S.
  unfold stage_formula. cbn [stage OneStepModel.T f1 f0 o pre_step t0 dt].
  rewrite seq_S, lsum_app, lsum_cons, lsum_nil, Nat.add_0_l, Hd, B0, lsum_plus.
  assert (E : mv N D (us r) g = - operator_value 0 G e L1 (time_at o r) (us r) cells g).
  { rewrite (mv_ext N D (fun i k => (-1) * jacobian_value G e L1 J1 (time_at o r) guess cells i k)).
    2:{ intros k. rewrite PD. unfold mzero. cbn [stage o pre_step]. unfold us'. rewrite Nat.eqb_refl. lra. }
    rewrite mv_scal.
    pose proof (value_apply G e L1 J1 (time_at o r) N DB
      (mkterms (R * R) true false false false false false false false false
         (fun c t p => mv (length (lfsu G (cid c))) (j_volume J1 c t (fun i => fst (p i))) (fun i => snd (p i))) (fun _ _ => vzero)
         (fun c f k t p q => let '((ss, sn), (ns, nn)) := j_skeleton J1 c f k t (fun i => fst (p i)) (fun i => fst (q i)) in
            let z := fun i => snd (p i) in let v := fun i => snd (q i) in
            let n := length (lfsu G (cid c)) in let n' := length (lfsu G (outside f)) in
            (fun i => mv n ss z i + mv n' sn v i, fun i => mv n ns z i + mv n' nn v i)) (fun _ _ _ _ => (vzero, vzero))
         (fun c f k t p => mv (length (lfsu G (cid c))) (j_boundary J1 c f k t (fun i => fst (p i))) (fun i => snd (p i))) (fun _ _ _ _ => vzero)
         (fun c t p => mv (length (lfsu G (cid c))) (j_post J1 c t (fun i => fst (p i))) (fun i => snd (p i))) (fun _ _ => vzero))
      guess (us r) cells g) as V.
    destruct M as (M1 & M2 & M3 & M4 & M5 & M6 & M7 & M8 & M9 & ML).
    rewrite <- V.
    2:{ unfold local_apply. cbn. rewrite M1, M2, M3, M4, M9. do 9 (split; [reflexivity|]). intros c tt pp. cbn.
        split; [|split; [|split]]; try (intros; reflexivity).
        intros f k q i. destruct (j_skeleton J1 c f k tt (fun i => fst (pp i)) (fun i => fst (q i))) as [[ss sn] [ns nn]]. split; reflexivity. }
    replace (operator_value 0 G e L1 (time_at o r) (us r) cells g) with
      (operator_value (0, 0) G e
         (mkterms (R * R) true false false false false false false false false
         (fun c t p => mv (length (lfsu G (cid c))) (j_volume J1 c t (fun i => fst (p i))) (fun i => snd (p i))) (fun _ _ => vzero)
         (fun c f k t p q => let '((ss, sn), (ns, nn)) := j_skeleton J1 c f k t (fun i => fst (p i)) (fun i => fst (q i)) in
            let z := fun i => snd (p i) in let v := fun i => snd (q i) in
            let n := length (lfsu G (cid c)) in let n' := length (lfsu G (outside f)) in
            (fun i => mv n ss z i + mv n' sn v i, fun i => mv n ns z i + mv n' nn v i)) (fun _ _ _ _ => (vzero, vzero))
         (fun c f k t p => mv (length (lfsu G (cid c))) (j_boundary J1 c f k t (fun i => fst (p i))) (fun i => snd (p i))) (fun _ _ _ _ => vzero)
         (fun c t p => mv (length (lfsu G (cid c))) (j_post J1 c t (fun i => fst (p i))) (fun i => snd (p i))) (fun _ _ => vzero))
        (time_at o r) (fun h => (guess h, us r h)) cells g).
    { lra. }
    unfold operator_value. apply lsum_ext. intros c _. apply (f_equal2 Rplus).
    - unfold cell_value. rewrite M1, M4, M5, M8. cbn [do_alpha_volume do_lambda_volume do_alpha_post do_lambda_post opt alpha_volume].
      f_equal. f_equal. f_equal. apply scatter_ext_in. intros i I.
      rewrite (proj1 (gather_pair guess (us r) _)), (proj2 (gather_pair guess (us r) _)).
      symmetry. now apply ML.
    - apply lsum_ext. intros [i f] _. unfold face_value. rewrite M2, M3, M6, M7, M9.
      cbn [do_alpha_skeleton do_lambda_skeleton do_alpha_boundary do_lambda_boundary do_two_sided opt opt2 fst snd]. reflexivity. }
  rewrite E in S.
  rewrite (lsum_ext (fun s => (if big (a T r s) then a T r s * 1 else 0) * _)
    (fun i => a T r i * 1 * operator_value 0 G e L1 (t + d T i * h) (us i) cells g)) in S.
  2:{ intros i Hi. apply in_seq in Hi. rewrite big_or_zero_f by (apply HK; lia). unfold us'.
      destruct (Nat.eqb_spec i r); [lia|]. reflexivity. }
  rewrite (lsum_ext (fun s => (if big (b T r s) then b T r s * 1 else 0) * _)
    (fun i => b T r i * 1 * operator_value 0 G e L0 (t + d T i * h) (us i) cells g)) in S.
  2:{ intros i Hi. apply in_seq in Hi. rewrite big_or_zero_f by (apply HK; lia). unfold us'.
      destruct (Nat.eqb_spec i r); [lia|]. reflexivity. }
  rewrite <- lsum_scal in S.
  rewrite (lsum_ext (fun s => b T r s * h * _) (fun i => h * (b T r i * 1 * operator_value 0 G e L0 (t + d T i * h) (us i) cells g))) by (intros; lra).
  unfold time_at in S. cbn [o pre_step t0 dt OneStepModel.T] in S. lra.
Qed.

Theorem explicit_stage_solves N G L0 L1 J1 e cells T t h r us p j x :
  dofs_below N G -> linear_mass G L1 J1 -> coefficients_ok T r -> b T r r = 0 -> us r = x ->
  let o := pre_step DoNotAssembleDT T t h r in
  (exists guess, let '(D, rhs) := explicit_system G L0 L1 J1 (fun v => v) e cells o (fun i => if (i =? r)%nat then guess else us i) p j h in
     forall g, mv N D x g = rhs g) ->
  forall g, stage_formula G L0 L1 e cells (pre_step MultiplyOperator0ByDT T t h r) us g = 0.
Proof.
  intros DB M HK B0 <- o [guess S] g. apply (explicit_stage_row N G L0 L1 J1 (fun v : vec => v) e cells T t h r us p j guess g DB M HK B0 (fun v => eq_refl)).
  cbv zeta. fold o. change (fun v : nat -> R => v) with (fun v : vec => v). destruct (explicit_system G L0 L1 J1 (fun v : vec => v) e cells o (fun i => if (i =? r)%nat then guess else us i) p j h) as [D rhs]. exact (S g).
Qed.

(** The pointer of a linear operator is never set, and the linear variant is refused for all others. *)
Lemma linear_apply_never linear G LA0 LA1 e cells o p r l z v :
  snd (one_apply linear G LA0 LA1 e cells o p r (applies linear G LA0 LA1 e cells o p r l) (ApplyLinear z)) <> Ok v.
Proof.
  cbn. destruct linear; [|discriminate].
  assert (E : applies true G LA0 LA1 e cells o p r l = None).
  { unfold applies. induction l as [|y l IH] using rev_ind; [reflexivity|]. rewrite fold_left_app. cbn. rewrite IH. destruct y; reflexivity. }
  rewrite E. discriminate.
Qed.
Lemma apply_at_ok G LA0 LA1 e cells o p r l x z :
  snd (one_apply false G LA0 LA1 e cells o p r (applies false G LA0 LA1 e cells o p r l) (ApplyAt x z)) = Ok (stage_apply G LA0 LA1 e cells o p x z r).
Proof. reflexivity. Qed.
