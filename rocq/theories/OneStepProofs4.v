(** Explicit stages whose mass operator has terms on faces. *)
From Coq Require Import FunctionalExtensionality.
From Verif Require Import DriverProofs EngineProofs EngineProofs2 EngineProofs3 OneStepSpec OneStepProofs OneStepProofs2 OneStepProofs3.
Local Open Scope R_scope.

Lemma viewed_seen {X} (L : terms X) two : viewed two L = seen two true true L.
Proof. reflexivity. Qed.

Section Faces.
  Variables (G : space) (L0 L1 : terms R) (J1 : jterms) (o : os) (xs : nat -> vec).
  Hypothesis AV : do_alpha_volume L1 = true.
  Let K0 := K_of G o xs L0 (f0 o) (fun s => b (T o) (stage o) s).
  Let K1 := K_of G o xs L1 (f1 o) (fun s => a (T o) (stage o) s).

  Lemma general_ideal l : Forall (fits L0 L1) l -> forall p j r m,
    fst (snd (ex_run G L0 L1 J1 o xs l (p, j) (r, m))) =
    (snd (ideal_run G K0 l (proj (snd (fst p))) (fst r)), snd (ideal_run G K1 l (proj (snd (snd p))) (snd r))).
  Proof.
    induction 1 as [|y l F _ IH]; intros p j [r0 r1] m; cbn [ex_run ideal_run]; [reflexivity|].
    unfold ex_step.
    assert (P : let '((p0', p1'), (v0, v1)) := (if to_pre L0 L1 y then pre_call G L0 L1 o xs y p else (p, (vzero, vzero))) in
      ideal_step G K0 y (proj (snd (fst p))) = (proj (snd p0'), v0) /\
      ideal_step G K1 y (proj (snd (snd p))) = (proj (snd p1'), v1)).
    { destruct (to_pre L0 L1 y) eqn:E; [apply (pre_call_ideal G L0 L1 o xs y p)|].
      destruct p as [[a0 s0] [a1 s1]]. cbn [fst snd].
      assert (B : match y with OnBindV _ | OnUnbindV _ => False | _ => True end).
      { destruct y; try exact I; cbn in E; rewrite AV, ?orb_true_r in E; discriminate. }
      split; [apply (proj1 (not_forwarded G L0 L1 o xs y E F _ B))|apply (proj2 (not_forwarded G L0 L1 o xs y E F _ B))]. }
    destruct (if to_pre L0 L1 y then pre_call G L0 L1 o xs y p else (p, (vzero, vzero))) as [[p0' p1'] [v0 v1]].
    destruct P as [-> ->]. destruct (reset_proj o y (p0', p1')) as [R0 R1].
    destruct (if to_jac L1 y then _ else _) as [j' mm]. cbn [fst snd] in *. rewrite IH, R0, R1. reflexivity.
  Qed.

  Lemma general_fits e cells : Forall (fits L0 L1) (sweep e (either (either (res_flags L0) (res_flags L1)) (jac_flags L1)) cells).
  Proof.
    unfold sweep. induction cells as [|c cells IH]; cbn [flat_map]; [constructor|]. apply Forall_app. split; [|exact IH].
    set (fl := either _ _).
    assert (F : forall i f, Forall (fits L0 L1) (face_calls e fl c i f)).
    { intros i f. unfold face_calls.
      assert (SK : Forall (fits L0 L1) (if uv_skeleton fl || v_skeleton fl then
         if (outside f <? cid c)%nat || two_sided fl then
          OnBindVOutside c f i :: AsmVSkeleton c f i ::
          (if uv_skeleton fl then
             [OnBindUVOutside c f i; LoadOutside c f i; AsmUVSkeleton c f i; OnUnbindUVOutside c f i] else [])
          ++ [OnUnbindVOutside c f i]
         else [] else [])).
      { destruct (uv_skeleton fl || v_skeleton fl) eqn:E; [|constructor].
        destruct ((outside f <? cid c)%nat || two_sided fl); [|constructor].
        assert (Q : (do_alpha_skeleton L0 || do_alpha_skeleton L1) || (do_lambda_skeleton L0 || do_lambda_skeleton L1) = true).
        { unfold fl in E. cbn in E.
          destruct (do_alpha_skeleton L0), (do_alpha_skeleton L1), (do_lambda_skeleton L0), (do_lambda_skeleton L1); cbn in *; congruence. }
        destruct (uv_skeleton fl); cbn [app]; repeat constructor; exact Q. }
      destruct (classify e f); [|exact SK| |exact SK]; destruct (uv_boundary fl), (v_boundary fl); cbn; repeat constructor. }
    assert (FS : forall fs i, Forall (fits L0 L1) (faces_calls e fl c i fs)).
    { induction fs as [|f fs IHf]; intros i; cbn [faces_calls]; [constructor|]. destruct (skip_intersection e c f); [apply IHf|].
      apply Forall_app. split; [apply F|apply IHf]. }
    unfold cell_calls. destruct (skip_entity e c); [constructor|].
    apply Forall_app. split; [repeat constructor|]. apply Forall_app. split; [destruct (_ || _); [apply FS|constructor]|].
    apply Forall_app. split; [destruct (uv_post fl), (v_post fl); repeat constructor|repeat constructor].
  Qed.

  (** ** The matrix: a run of the Jacobian engine over the forwarded calls, with cell terms at the time of the stage and all others at that of the
      stage before *)
  Let J' := at_times (time_at o (stage o)) (time_at o (pred (stage o))) J1.

  Lemma pre_asm_time y : stage o <> O -> forall p, time (fst (snd (pre_asm G L0 L1 o xs y p))) = time_at o (pred (stage o)).
  Proof.
    intros Hs p. unfold pre_asm. destruct (stage o) as [|k] eqn:E; [contradiction|]. cbn [pred].
    rewrite seq_S, fold_left_app. cbn [fold_left]. rewrite Nat.add_0_l.
    match goal with |- context [fold_left ?f ?l ?q] => set (w := fold_left f l q) end.
    destruct w as [[a0 s0] [a1 s1]]. cbn [set_time fst snd].
    destruct (big (a (T o) _ k)); cbn; reflexivity.
  Qed.

  Lemma forwarded_step y p j : stage o <> O -> to_jac L1 y = true ->
    let p1 := fst (if to_pre L0 L1 y then pre_call G L0 L1 o xs y p else (p, (vzero, vzero))) in
    jac_step G L1 J1 (fst (snd (reset o y p1))) y j = jac_step G L1 J' (mkla (-1) 0) y j.
  Proof.
    intros Hs H p1. destruct (is_asm y) eqn:I.
    2:{ destruct y; try discriminate; reflexivity. }
    assert (P : to_pre L0 L1 y = true).
    { destruct y; try discriminate; cbn in H |- *; rewrite H, ?orb_true_r; reflexivity. }
    assert (Q : time (fst (snd p1)) = time_at o (pred (stage o))).
    { unfold p1. rewrite P. destruct y; try discriminate; cbn [pre_call is_asm fst]; now apply pre_asm_time. }
    destruct p1 as [[a0 s0] [a1 s1]]. cbn [fst snd] in Q.
    destruct y; try discriminate; cbn [reset is_asm fst snd jac_step weight time]; rewrite ?Q; reflexivity.
  Qed.

  Lemma matrix_run l : stage o <> O -> forall p j r,
    snd (snd (ex_run G L0 L1 J1 o xs l (p, j) r)) = snd (jac_run G L1 J' (mkla (-1) 0) (filter (to_jac L1) l) j (snd r)).
  Proof.
    intros Hs. induction l as [|y l IH]; intros p j r; cbn [ex_run filter]; [reflexivity|].
    unfold ex_step. pose proof (forwarded_step y p j Hs) as F. cbv zeta in F.
    destruct (if to_pre L0 L1 y then pre_call G L0 L1 o xs y p else (p, (vzero, vzero))) as [p1 v]. cbn [fst] in F.
    destruct (to_jac L1 y) eqn:E.
    - cbn [jac_run]. rewrite (F eq_refl). destruct (jac_step G L1 J' (mkla (-1) 0) y j) as [j' m]. rewrite IH. reflexivity.
    - rewrite IH. cbn [snd]. now rewrite madd_zero_r.
  Qed.

  Definition outside_call (y : call) : bool :=
    match y with OnBindUVOutside _ _ _ | LoadOutside _ _ _ | OnUnbindUVOutside _ _ _ => true | _ => false end.
  Lemma idle_step y a j : to_jac L1 y = false -> do_alpha_skeleton L1 = true \/ outside_call y = false -> jac_step G L1 J' a y j = (j, mzero).
  Proof.
    intros H [S|S]; destruct y; cbn in H, S |- *; try discriminate; try congruence; try reflexivity; rewrite H; reflexivity.
  Qed.
  Lemma filtered_run l a : Forall (fun y => do_alpha_skeleton L1 = true \/ outside_call y = false) l -> forall j m,
    snd (jac_run G L1 J' a (filter (to_jac L1) l) j m) = snd (jac_run G L1 J' a l j m).
  Proof.
    induction 1 as [|y l Hy _ IH]; intros j m; cbn [filter jac_run]; [reflexivity|].
    destruct (to_jac L1 y) eqn:E.
    - cbn [jac_run]. destruct (jac_step G L1 J' a y j). apply IH.
    - rewrite (idle_step y a j E Hy), madd_zero_r. apply IH.
  Qed.

  Definition no_skeleton (fl : flags) : flags := mkflags false false (uv_boundary fl) (v_boundary fl) (uv_post fl) (v_post fl) (two_sided fl).
  Lemma filter_skeleton e fl cells : do_alpha_skeleton L1 = false ->
    filter (to_jac L1) (sweep e fl cells) = filter (to_jac L1) (sweep e (no_skeleton fl) cells).
  Proof.
    intros S. unfold sweep. induction cells as [|c cells IH]; cbn [flat_map]; [reflexivity|]. rewrite !filter_app, IH. f_equal.
    unfold cell_calls. destruct (skip_entity e c); [reflexivity|]. rewrite !filter_app. f_equal. f_equal. 
    assert (F : forall i f, filter (to_jac L1) (face_calls e fl c i f) = filter (to_jac L1) (face_calls e (no_skeleton fl) c i f)).
    { intros i f. unfold face_calls. cbn [no_skeleton uv_skeleton v_skeleton uv_boundary v_boundary two_sided orb].
      destruct (classify e f); try reflexivity;
      destruct (uv_skeleton fl), (v_skeleton fl), ((outside f <? cid c)%nat || two_sided fl); cbn; rewrite ?S; reflexivity. }
    assert (FS : forall fs i, filter (to_jac L1) (faces_calls e fl c i fs) = filter (to_jac L1) (faces_calls e (no_skeleton fl) c i fs)).
    { induction fs as [|f fs IHf]; intros i; cbn [faces_calls]; [reflexivity|]. destruct (skip_intersection e c f); [apply IHf|].
      now rewrite !filter_app, F, IHf. }
    assert (FE : uv_boundary fl = false -> v_boundary fl = false -> forall fs i, filter (to_jac L1) (faces_calls e (no_skeleton fl) c i fs) = []).
    { intros B1 B2. induction fs as [|f fs IHf]; intros i; cbn [faces_calls]; [reflexivity|]. destruct (skip_intersection e c f); [apply IHf|].
      rewrite filter_app, IHf, app_nil_r. unfold face_calls. cbn. rewrite B1, B2. now destruct (classify e f). }
    cbn [no_skeleton uv_skeleton v_skeleton uv_boundary v_boundary orb].
    destruct (uv_boundary fl) eqn:B1, (v_boundary fl) eqn:B2; rewrite ?orb_true_r; cbn [orb]; try apply FS.
    rewrite !orb_false_r. destruct (_ || _); [|reflexivity]. rewrite FS. now apply FE.
  Qed.

  Lemma no_outside e fl cells : Forall (fun y => do_alpha_skeleton L1 = true \/ outside_call y = false) (sweep e (no_skeleton fl) cells).
  Proof.
    apply Forall_forall. intros y H. right. unfold sweep in H. apply in_flat_map in H. destruct H as (c & _ & H).
    unfold cell_calls in H. destruct (skip_entity e c); [contradiction|]. 
    assert (F : forall fs i, In y (faces_calls e (no_skeleton fl) c i fs) -> outside_call y = false).
    { induction fs as [|f fs IHf]; intros i; cbn [faces_calls]; [contradiction|]. destruct (skip_intersection e c f); [apply IHf|].
      rewrite in_app_iff. intros [I|I]; [|eauto]. unfold face_calls in I. cbn in I.
      destruct (classify e f), (uv_boundary fl), (v_boundary fl); cbn in I; intuition (subst; reflexivity). }
    rewrite !in_app_iff in H. destruct H as [H|[H|[H|H]]].
    - cbn in H. intuition (subst; reflexivity).
    - destruct (_ || _) in H; [eauto|contradiction].
    - destruct (uv_post _), (v_post _) in H; cbn in H; intuition (subst; reflexivity).
    - cbn in H. intuition (subst; reflexivity).
  Qed.

  Lemma matrix_sweep e x cells p j r g h : stage o <> O -> jsol j = x ->
    let fl := either (either (res_flags L0) (res_flags L1)) (jac_flags L1) in
    snd (snd (ex_run G L0 L1 J1 o xs (sweep e fl cells) (p, j) r)) g h =
    snd r g h - jacobian_value G e (viewed (do_two_sided L0 || do_two_sided L1) L1) J' (time_at o (stage o)) x cells g h.
  Proof.
    intros Hs Hj fl. rewrite matrix_run by exact Hs.
    set (two := do_two_sided L0 || do_two_sided L1).
    assert (V : forall l a s m, jac_run G L1 J' a l s m = jac_run G (viewed two L1) J' a l s m).
    { intros l a. induction l as [|y l IH]; intros s m; cbn [jac_run]; [reflexivity|].
      change (jac_step G (viewed two L1) J' a y s) with (jac_step G L1 J' a y s). destruct (jac_step G L1 J' a y s). apply IH. }
    assert (TT : two_sided fl = two).
    { unfold fl, two. cbn. destruct (do_two_sided L0), (do_two_sided L1); reflexivity. }
    assert (Z : forall t, jacobian_value G e (viewed two L1) J' t x cells g h = jacobian_value G e (viewed two L1) J' (time_at o (stage o)) x cells g h) by reflexivity.
    destruct (do_alpha_skeleton L1) eqn:S.
    - rewrite filtered_run by (apply Forall_forall; intros; now left).
      rewrite V, (jac_sweep G e fl (viewed two L1) J' (mkla (-1) 0) x).
      + cbn [weight time]. rewrite Z. lra.
      + unfold jasks. cbn. rewrite S. split; [intros _; now rewrite ?orb_true_r|]. split; [intros ->; now rewrite ?orb_true_r|].
        split; [intros ->; now rewrite ?orb_true_r|]. left. exact TT.
      + exact Hj.
    - rewrite filter_skeleton by exact S. rewrite filtered_run by apply no_outside.
      rewrite V, (jac_sweep G e (no_skeleton fl) (viewed two L1) J' (mkla (-1) 0) x).
      + cbn [weight time]. rewrite Z. lra.
      + unfold jasks. cbn. rewrite S. split; [discriminate|]. split; [intros ->; now rewrite ?orb_true_r|].
        split; [intros ->; now rewrite ?orb_true_r|]. now right.
      + exact Hj.
  Qed.
End Faces.

(** The system of an explicit stage, for all operators with cell terms. *)
Theorem general_parts G L0 L1 J1 C e cells o xs p j m :
  do_alpha_volume L1 = true -> stage o <> O ->
  let two := do_two_sided L0 || do_two_sided L1 in
  let '(D, alpha, beta) := explicit_jacobian_residual G L0 L1 J1 C e cells o xs p j m in
  (forall g h, D g h = m g h - jacobian_value G e (viewed two L1) (at_times (time_at o (stage o)) (time_at o (pred (stage o))) J1)
                                 (time_at o (stage o)) (xs (stage o)) cells g h) /\
  alpha = C (fun g => lsum (fun s => (if big (a (T o) (stage o) s) then a (T o) (stage o) s * f1 o else 0) *
                         operator_value 0 G e (viewed two L1) (time_at o s) (xs s) cells g) (seq 0 (stage o))) /\
  beta = (fun g => lsum (fun s => (if big (b (T o) (stage o) s) then b (T o) (stage o) s * f0 o else 0) *
                         operator_value 0 G e (viewed two L0) (time_at o s) (xs s) cells g) (seq 0 (stage o))).
Proof.
  intros AV Hs two. unfold explicit_jacobian_residual. cbn zeta.
  pose proof (fun g h => matrix_sweep G L0 L1 J1 o xs AV e (xs (stage o)) cells p (jset_solution (xs (stage o)) j) (vzero, vzero, m) g h Hs eq_refl) as D.
  cbv zeta in D. set (fl := either (either (res_flags L0) (res_flags L1)) (jac_flags L1)) in *.
  pose proof (general_ideal G L0 L1 J1 o xs AV (sweep e fl cells) (general_fits L0 L1 e cells) p (jset_solution (xs (stage o)) j) (vzero, vzero) m) as I.
  destruct (ex_run G L0 L1 J1 o xs (sweep e fl cells) (p, jset_solution (xs (stage o)) j) (vzero, vzero, m)) as [q r].
  cbn [fst snd] in *. rewrite I. cbn [fst snd].
  assert (TT : two_sided fl = two).
  { unfold fl, two. cbn. destruct (do_two_sided L0), (do_two_sided L1); reflexivity. }
  split; [exact D|]. rewrite !viewed_seen. rewrite <- TT. split.
  - f_equal. apply functional_extensionality; intros g. rewrite ideal_sweep.
    rewrite (K_value_seen G L1 o xs (f1 o) (fun s => a (T o) (stage o) s) e fl cells). { unfold vzero. lra. }
    unfold fl. asks3. left. reflexivity.
  - apply functional_extensionality; intros g. rewrite ideal_sweep.
    rewrite (K_value_seen G L0 o xs (f0 o) (fun s => b (T o) (stage o) s) e fl cells). { unfold vzero. lra. }
    unfold fl. asks3. left. reflexivity.
Qed.

Lemma jac_viewed G e L J t x cells g h two :
  two = do_two_sided L \/ do_alpha_skeleton L = false ->
  jacobian_value G e (viewed two L) J t x cells g h = jacobian_value G e L J t x cells g h.
Proof.
  intros H. unfold jacobian_value. apply lsum_ext. intros c _. apply (f_equal2 Rplus); [reflexivity|].
  apply lsum_ext. intros [i f] _. unfold face_jac. cbn. destruct H as [->|H]; [reflexivity|]. rewrite H, !andb_false_r. reflexivity.
Qed.
Lemma jac_steady G e L J t tf x cells g h : steady_faces L J ->
  jacobian_value G e L (at_times t tf J) t x cells g h = jacobian_value G e L J t x cells g h.
Proof.
  intros H. unfold jacobian_value. apply lsum_ext. intros c _. apply (f_equal2 Rplus).
  - unfold cell_jac. cbn [at_times j_volume j_post]. destruct (do_alpha_post L) eqn:E; cbn [mopt]; [|reflexivity].
    destruct (H c (mkface O false true O false) O tf t (gather 0 x (lfsu G (cid c))) vzero) as (_ & _ & P). now rewrite (P E).
  - apply lsum_ext. intros [i f] _. unfold face_jac. cbn [at_times j_skeleton j_boundary].
    destruct (H c f i tf t (gather 0 x (lfsu G (cid c))) (gather 0 x (lfsu G (outside f)))) as (S & B & _).
    destruct (do_alpha_skeleton L) eqn:E; [rewrite (S eq_refl)|rewrite !andb_false_r].
    + destruct (do_alpha_boundary L) eqn:E'; [rewrite (B eq_refl)|]; reflexivity.
    + destruct (do_alpha_boundary L) eqn:E'; [rewrite (B eq_refl)|]; reflexivity.
Qed.

Definition second_terms (L : terms R) : terms (R * R) :=
  let s := fun (p : nat -> R * R) i => snd (p i) in
  mkterms (R * R) (do_alpha_volume L) (do_lambda_volume L) (do_alpha_skeleton L) (do_lambda_skeleton L) (do_alpha_boundary L) (do_lambda_boundary L)
    (do_alpha_post L) (do_lambda_post L) (do_two_sided L) (fun c t p => alpha_volume L c t (s p)) (lambda_volume L)
    (fun c f k t p q => alpha_skeleton L c f k t (s p) (s q)) (lambda_skeleton L)
    (fun c f k t p => alpha_boundary L c f k t (s p)) (lambda_boundary L) (fun c t p => alpha_post L c t (s p)) (lambda_post L).

Lemma linear_product N G e L J t y x cells g : dofs_below N G -> linear_operator G L J ->
  mv N (jacobian_value G e L J t y cells) x g = operator_value 0 G e L t x cells g.
Proof.
  intros DB (A & B1 & B2 & B3 & B4 & H).
  rewrite <- (value_apply G e L J t N DB (second_terms L) y x cells g).
  - unfold operator_value. apply lsum_ext. intros c _. apply (f_equal2 Rplus).
    + unfold cell_value. cbn. rewrite !(proj2 (gather_pair y x _)). reflexivity.
    + apply lsum_ext. intros [i f] _. unfold face_value. cbn. rewrite !(proj2 (gather_pair y x _)). reflexivity.
  - unfold local_apply. cbn. do 9 (split; [reflexivity || assumption|]). intros c tt p.
    destruct (H c tt (fun i => snd (p i)) (fun i => fst (p i))) as (H1 & H2 & H3 & H4).
    split; [exact H1|]. split; [exact H2|]. split; [exact H3|]. intros f k q i. apply H4.
Qed.

Theorem general_stage_row N G L0 L1 J1 C e cells T t h r us p j guess g :
  dofs_below N G -> linear_operator G L1 J1 -> steady_faces L1 J1 -> same_view L0 L1 -> coefficients_ok T r -> b T r r = 0 -> r <> O ->
  (forall v, C v g = v g) ->
  let o := pre_step DoNotAssembleDT T t h r in
  (let '(D, rhs) := explicit_system G L0 L1 J1 C e cells o (fun i => if (i =? r)%nat then guess else us i) p j h in
     mv N D (us r) g = rhs g) ->
  stage_formula G L0 L1 e cells (pre_step MultiplyOperator0ByDT T t h r) us g = 0.
Proof.
  intros DB M SF SV [Hd HK] B0 Hr HC o S.
  unfold explicit_system in S.
  set (us' := fun i => if (i =? r)%nat then guess else us i) in S.
  pose proof (general_parts G L0 L1 J1 C e cells o us' p j mzero (proj1 M) Hr) as P. cbv zeta in P.
  set (two := do_two_sided L0 || do_two_sided L1) in P.
  assert (V0 : two = do_two_sided L0 \/ do_alpha_skeleton L0 = false /\ do_lambda_skeleton L0 = false).
  { unfold two. destruct SV as [V|[(V & V' & E)|(V & V' & E)]]; [left|now right|left]; rewrite ?V, ?E, ?orb_diag; reflexivity. }
  assert (V1 : two = do_two_sided L1 \/ do_alpha_skeleton L1 = false /\ do_lambda_skeleton L1 = false).
  { unfold two. destruct SV as [V|[(V & V' & E)|(V & V' & E)]]; [left|left|now right]; rewrite ?V, ?E, ?orb_diag, ?orb_true_r; reflexivity. }
  destruct (explicit_jacobian_residual G L0 L1 J1 C e cells o us' p j mzero) as [[D alpha] beta].
  destruct P as (PD & PA & PB). unfold vadd, vscal in S. rewrite PA, PB, HC in S. clear PA PB.
  cbn [stage EngineSpec.mv OneStepModel.T f1 f0 o pre_step] in S.
  unfold stage_formula. cbn [stage OneStepModel.T f1 f0 o pre_step t0 dt].
  rewrite seq_S, lsum_app, lsum_cons, lsum_nil, Nat.add_0_l, Hd, B0, lsum_plus.
  assert (E : mv N D (us r) g = - operator_value 0 G e L1 (time_at o r) (us r) cells g).
  { rewrite (mv_ext N D (fun i k => (-1) * jacobian_value G e L1 J1 (time_at o r) guess cells i k)).
    2:{ intros k. rewrite PD. unfold mzero. cbn [stage o pre_step]. unfold us'. rewrite Nat.eqb_refl.
        rewrite jac_viewed by tauto. fold o. rewrite jac_steady by exact SF. lra. }
    rewrite mv_scal, linear_product by assumption. lra. }
  rewrite E in S.
  rewrite (lsum_ext (fun s => (if big (a T r s) then a T r s * 1 else 0) * _)
    (fun i => a T r i * 1 * operator_value 0 G e L1 (t + d T i * h) (us i) cells g)) in S.
  2:{ intros i Hi. apply in_seq in Hi. rewrite big_or_zero_f by (apply HK; lia). unfold us'.
      destruct (Nat.eqb_spec i r); [lia|]. rewrite viewed_seen, seen_same by exact V1. reflexivity. }
  rewrite (lsum_ext (fun s => (if big (b T r s) then b T r s * 1 else 0) * _)
    (fun i => b T r i * 1 * operator_value 0 G e L0 (t + d T i * h) (us i) cells g)) in S.
  2:{ intros i Hi. apply in_seq in Hi. rewrite big_or_zero_f by (apply HK; lia). unfold us'.
      destruct (Nat.eqb_spec i r); [lia|]. rewrite viewed_seen, seen_same by exact V0. reflexivity. }
  rewrite <- lsum_scal in S.
  rewrite (lsum_ext (fun s => b T r s * h * _) (fun i => h * (b T r i * 1 * operator_value 0 G e L0 (t + d T i * h) (us i) cells g))) by (intros; lra).
  unfold time_at in S. cbn [o pre_step t0 dt OneStepModel.T] in S. lra.
Qed.

Lemma general_boundary_stage N K G L0 L1 J1 e cells T t h r us p j values guess solve :
  dofs_below N G -> linear_operator G L1 J1 -> steady_faces L1 J1 -> same_view L0 L1 -> coefficients_ok T r -> b T r r = 0 -> r <> O ->
  let o := pre_step DoNotAssembleDT T t h r in
  (let '(D, _) := dirichlet_system K G L0 L1 J1 e cells o (fun i => if (i =? r)%nat then (fun g => if K g then values g else guess g) else us i) p j h in
     forall v g, (g < N)%nat -> mv N D (solve D v) g = v g) ->
  us r = explicit_boundary_stage N K G L0 L1 J1 e cells o us p j h values guess solve ->
  forall g, (g < N)%nat -> (K g = true -> us r g = values g) /\
    (K g = false -> stage_formula G L0 L1 e cells (pre_step MultiplyOperator0ByDT T t h r) us g = 0).
Proof.
  intros DB M SF SV HK B0 Hr o HS E g Hg. unfold explicit_boundary_stage in E. cbv zeta in E.
  set (x := fun g => if K g then values g else guess g) in *. unfold dirichlet_system in E, HS. change (stage o) with r in E.
  destruct (explicit_system G L0 L1 J1 (zero_on K) e cells o (fun i => if (i =? r)%nat then x else us i) p j h) as [D rhs] eqn:S. cbv beta iota in E.
  set (res := zero_on K (fun g => row_product N (trivial_rows K D) x g - rhs g)) in E. pose proof (HS res g Hg) as R.
  split; intros Hk.
  - rewrite mv_unit in R by auto. rewrite E. cbv beta. rewrite R. unfold res, zero_on, x. rewrite Hk. lra.
  - apply (general_stage_row N G L0 L1 J1 (zero_on K) e cells T t h r us p j x g DB M SF SV HK B0 Hr); [intros v; unfold zero_on; now rewrite Hk|].
    cbv zeta. fold o. rewrite S. unfold res in R at 2. unfold zero_on in R at 1. rewrite Hk, row_product_mv, !mv_free in R by exact Hk.
    rewrite E. rewrite mv_minus, R. fold x. ring.
Qed.

(** A mass operator with a boundary term, constant or growing in time, on one cell with one boundary face. *)
Definition rim_mass (c : R -> R) : terms R :=
  mkterms R true false false false true false false false false
    (fun _ _ x => x) (fun _ _ => vzero) (fun _ _ _ _ _ _ => (vzero, vzero)) (fun _ _ _ _ => (vzero, vzero))
    (fun _ _ _ t x => vscal (c t) x) (fun _ _ _ _ => vzero) (fun _ _ _ => vzero) (fun _ _ => vzero).
Definition rim_mass_j (c : R -> R) : jterms :=
  mkjterms (fun _ _ _ i j => if (i =? j)%nat then 1 else 0) (fun _ _ _ _ _ _ => ((mzero, mzero), (mzero, mzero)))
    (fun _ _ _ t _ i j => if (i =? j)%nat then c t else 0) (fun _ _ _ => mzero).
Definition rim_cell : list cell := [mkcell 5 [mkface 0 false true 0 false]].

Lemma rim_linear c : linear_operator one_dof (rim_mass c) (rim_mass_j c).
Proof.
  unfold linear_operator. repeat (split; [reflexivity|]). intros cc t x y.
  split; [|split; [|split]].
  - intros i I. cbn in I. assert (i = O) by lia. subst. unfold mv. cbn. lra.
  - intros i I. cbn in I. assert (i = O) by lia. subst. unfold mv. cbn. unfold mzero, vzero. lra.
  - intros f k i I. cbn in I. assert (i = O) by lia. subst. unfold mv. cbn. unfold vscal. lra.
  - intros f k x' y' i. cbn. split; intros I; assert (i = O) by lia; subst; unfold mv; cbn; unfold mzero, vzero; lra.
Qed.
Lemma rim_steady v : steady_faces (rim_mass (fun _ => v)) (rim_mass_j (fun _ => v)).
Proof. intros c f k t t' y y'. cbn. repeat split; intros; reflexivity. Qed.

(** the matrix has the boundary term at time 0, the stage is at time 1 *)
Lemma rim_late :
  (let '(D, rhs) := explicit_system one_dof no_terms (rim_mass (fun t => t)) (rim_mass_j (fun t => t)) (fun v => v) plain rim_cell (pre_step DoNotAssembleDT explicit_euler 0 1 1)
      (fun _ _ => 1) ((mkla 0 0, blank), (mkla 0 0, blank)) jblank 1 in
   forall g, mv 3 D (fun _ => 1) g = rhs g) /\
  stage_formula one_dof no_terms (rim_mass (fun t => t)) plain rim_cell (pre_step MultiplyOperator0ByDT explicit_euler 0 1 1) (fun _ _ => 1) O <> 0.
Proof.
  split.
  - pose proof (general_parts one_dof no_terms (rim_mass (fun t => t)) (rim_mass_j (fun t => t)) (fun v => v) plain rim_cell (pre_step DoNotAssembleDT explicit_euler 0 1 1)
      (fun _ _ => 1) ((mkla 0 0, blank), (mkla 0 0, blank)) jblank mzero eq_refl ltac:(discriminate)) as P. cbv zeta in P.
    unfold explicit_system. destruct (explicit_jacobian_residual _ _ _ _ _ _ _ _ _ _ _ _) as [[D al] be].
    destruct P as (PD & -> & ->). intros g. unfold mv, nsum, vadd, vscal. rewrite !PD.
    cbn [pre_step OneStepModel.T stage f0 f1 t0 dt lsum seq fold_right].
    rewrite (big_true (b explicit_euler 1 0)) by (cbn; rewrite Rabs_right; lra).
    rewrite (big_true (a explicit_euler 1 0)) by (cbn; rewrite Rabs_left; lra).
    unfold jacobian_value, cell_jac, operator_value, cell_value, a, b, d, mscatter, time_at, mzero, d. cbn.
    unfold vzero. destruct g; cbn; unfold mzero, vscal, gather; cbn; lra.
  - unfold stage_formula. cbn [pre_step OneStepModel.T stage f0 f1 t0 dt lsum seq fold_right].
    unfold operator_value, cell_value, a, b, d. cbn. unfold vzero, vscal, gather. cbn. lra.
Qed.
(** a constant boundary term *)
Lemma rim_meets :
  (let '(D, rhs) := explicit_system one_dof no_terms (rim_mass (fun _ => 2)) (rim_mass_j (fun _ => 2)) (fun v => v) plain rim_cell (pre_step DoNotAssembleDT explicit_euler 0 1 1)
      (fun i => if (i =? 1)%nat then vzero else (fun _ => 1)) ((mkla 0 0, blank), (mkla 0 0, blank)) jblank 1 in
   (forall g, mv 3 D (fun _ => 1) g = rhs g) /\ D O O = -3).
Proof.
  pose proof (general_parts one_dof no_terms (rim_mass (fun t => 2)) (rim_mass_j (fun t => 2)) (fun v => v) plain rim_cell (pre_step DoNotAssembleDT explicit_euler 0 1 1)
      (fun i => if (i =? 1)%nat then vzero else (fun _ => 1)) ((mkla 0 0, blank), (mkla 0 0, blank)) jblank mzero eq_refl ltac:(discriminate)) as P. cbv zeta in P.
    unfold explicit_system. destruct (explicit_jacobian_residual _ _ _ _ _ _ _ _ _ _ _ _) as [[D al] be].
    destruct P as (PD & -> & ->). split.
    2:{ rewrite PD. unfold jacobian_value, cell_jac, mscatter, time_at, mzero. cbn. unfold mzero, vzero. lra. }
    intros g. unfold mv, nsum, vadd, vscal. rewrite !PD.
    cbn [pre_step OneStepModel.T stage f0 f1 t0 dt lsum seq fold_right].
    rewrite (big_true (b explicit_euler 1 0)) by (cbn; rewrite Rabs_right; lra).
    rewrite (big_true (a explicit_euler 1 0)) by (cbn; rewrite Rabs_left; lra).
    unfold jacobian_value, cell_jac, operator_value, cell_value, a, b, d, mscatter, time_at, mzero, d. cbn.
    unfold vzero. destruct g; cbn; unfold mzero, vscal, gather; cbn; lra.
Qed.
