From Coq Require Import FunctionalExtensionality.
From Verif Require Import DriverProofs EngineProofs EngineProofs2 EngineProofs3 OneStepSpec.
Local Open Scope R_scope.

(** ** Operators seen with a given two-sidedness, and with terms switched off *)
Definition seen {X} (two asm post : bool) (L : terms X) : terms X :=
  mkterms X (asm && do_alpha_volume L) (asm && do_lambda_volume L) (asm && do_alpha_skeleton L) (asm && do_lambda_skeleton L)
    (asm && do_alpha_boundary L) (asm && do_lambda_boundary L) (post && do_alpha_post L) (post && do_lambda_post L) two
    (alpha_volume L) (lambda_volume L) (alpha_skeleton L) (lambda_skeleton L) (alpha_boundary L) (lambda_boundary L)
    (alpha_post L) (lambda_post L).

Lemma seen_same {X} (x0 : X) G e L t x cells g two :
  two = do_two_sided L \/ do_alpha_skeleton L = false /\ do_lambda_skeleton L = false ->
  operator_value x0 G e (seen two true true L) t x cells g = operator_value x0 G e L t x cells g.
Proof.
  intros H. unfold operator_value. apply lsum_ext. intros c _. apply (f_equal2 Rplus); [reflexivity|].
  apply lsum_ext. intros [i f] _. unfold face_value. cbn.
  assert (Z : forall b b' : bool, (b = b' \/ do_alpha_skeleton L = false /\ do_lambda_skeleton L = false) ->
    (if b then
      scatter (lfsv G (cid c)) (fst (opt2 (do_alpha_skeleton L) (alpha_skeleton L c f i t (gather x0 x (lfsu G (cid c))) (gather x0 x (lfsu G (outside f)))))) g +
      scatter (lfsv G (outside f)) (snd (opt2 (do_alpha_skeleton L) (alpha_skeleton L c f i t (gather x0 x (lfsu G (cid c))) (gather x0 x (lfsu G (outside f)))))) g +
      (scatter (lfsv G (cid c)) (fst (opt2 (do_lambda_skeleton L) (lambda_skeleton L c f i t))) g +
       scatter (lfsv G (outside f)) (snd (opt2 (do_lambda_skeleton L) (lambda_skeleton L c f i t))) g) else 0) =
    (if b' then
      scatter (lfsv G (cid c)) (fst (opt2 (do_alpha_skeleton L) (alpha_skeleton L c f i t (gather x0 x (lfsu G (cid c))) (gather x0 x (lfsu G (outside f)))))) g +
      scatter (lfsv G (outside f)) (snd (opt2 (do_alpha_skeleton L) (alpha_skeleton L c f i t (gather x0 x (lfsu G (cid c))) (gather x0 x (lfsu G (outside f)))))) g +
      (scatter (lfsv G (cid c)) (fst (opt2 (do_lambda_skeleton L) (lambda_skeleton L c f i t))) g +
       scatter (lfsv G (outside f)) (snd (opt2 (do_lambda_skeleton L) (lambda_skeleton L c f i t))) g) else 0)).
  { intros b b' [->|[-> ->]]; [reflexivity|]. cbn [opt2 fst snd]. rewrite !scatter_zero. unfold vzero. destruct b, b'; lra. }
  destruct (classify e f); try reflexivity; apply Z; (destruct H as [->|H]; [now left|now right]).
Qed.

Lemma seen_nothing {X} (x0 : X) G e L t x cells g two : operator_value x0 G e (seen two false false L) t x cells g = 0.
Proof.
  unfold operator_value. apply lsum_zero. intros c _. unfold cell_value. cbn [seen do_alpha_volume do_lambda_volume do_alpha_post do_lambda_post andb opt].
  rewrite !scatter_zero. rewrite lsum_zero. { unfold vzero. lra. }
  intros [i f] _. unfold face_value.
  cbn [seen do_alpha_skeleton do_lambda_skeleton do_alpha_boundary do_lambda_boundary do_two_sided andb opt opt2 fst snd].
  rewrite !scatter_zero. unfold vzero. destruct (classify e f); try lra; destruct (_ || two); lra.
Qed.

Lemma seen_drop_post {X} (L : terms X) two : no_post L -> seen two true false L = seen two true true L.
Proof. intros [E E']. unfold seen. cbn [andb]. now rewrite E, E'. Qed.

(** ** Two engines running side by side *)
Section Two.
  Context {X : Type} (x0 : X).
  Variables (G : space) (L0 L1 : terms X) (a0 a1 : la) (imp two : bool).
  Let M0 := seen two imp imp L0.
  Let M1 := seen two true false L1.

  Lemma run_acc L a l : forall (s : rest X) r g, snd (res_run x0 G L a l s r) g = r g + snd (res_run x0 G L a l s vzero) g.
  Proof.
    induction l as [|y l IH]; intros s r g; cbn [res_run snd]. { unfold vzero. lra. }
    destruct (res_step x0 G L a y s) as [s' v]. rewrite IH, (IH s' (vadd vzero v)). unfold vadd, vzero. lra.
  Qed.

  Lemma acc_in_off w v (s : rest X) : acc_in false w v s = s. Proof. reflexivity. Qed.

  Lemma two_step_0 y s : (if negb (is_asm y) || imp then res_step x0 G L0 a0 y s else (s, vzero)) = res_step x0 G M0 a0 y s.
  Proof. unfold M0. destruct imp, y; reflexivity. Qed.
  Lemma two_step_1 y s : (if is_post y then (s, vzero) else res_step x0 G L1 a1 y s) = res_step x0 G M1 a1 y s.
  Proof. unfold M1. destruct y; reflexivity. Qed.

  Lemma two_run_split l : forall s0 s1 r g,
    snd (two_run x0 G L0 L1 a0 a1 imp l (s0, s1) r) g =
    r g + snd (res_run x0 G M0 a0 l s0 vzero) g + snd (res_run x0 G M1 a1 l s1 vzero) g.
  Proof.
    induction l as [|y l IH]; intros s0 s1 r g. { cbn. unfold vzero. lra. }
    cbn [two_run]. unfold two_step. rewrite two_step_0, two_step_1. cbn [res_run].
    destruct (res_step x0 G M0 a0 y s0) as [s0' v0], (res_step x0 G M1 a1 y s1) as [s1' v1]. rewrite IH.
    rewrite (run_acc M0 a0 l s0' (vadd vzero v0)), (run_acc M1 a1 l s1' (vadd vzero v1)). unfold vadd, vzero. lra.
  Qed.

  Lemma two_value e fl cells s0 s1 x r g : sol s0 = x -> sol s1 = x -> asks_for M0 fl -> asks_for M1 fl ->
    snd (two_run x0 G L0 L1 a0 a1 imp (sweep e fl cells) (s0, s1) r) g =
    r g + weight a0 * operator_value x0 G e M0 (time a0) x cells g + weight a1 * operator_value x0 G e M1 (time a1) x cells g.
  Proof.
    intros S0 S1 F0 F1. rewrite two_run_split, (run_value x0 G M0 a0 x e fl cells s0 vzero g S0 F0),
      (run_value x0 G M1 a1 x e fl cells s1 vzero g S1 F1). unfold vzero. lra.
  Qed.
End Two.

Ltac asks := unfold asks_for; cbn;
  repeat (split; [intros E; apply andb_true_iff in E; destruct E as [_ E]; rewrite E; rewrite ?orb_true_r; cbn; rewrite ?orb_true_r; reflexivity|]);
  left; reflexivity.
Lemma either_asks_l {X} (L L' : terms X) asm post :
  asks_for (seen (two_sided (either (res_flags L) (res_flags L'))) asm post L) (either (res_flags L) (res_flags L')).
Proof. asks. Qed.
Lemma either_asks_r {X} (L L' : terms X) asm post :
  asks_for (seen (two_sided (either (res_flags L) (res_flags L'))) asm post L') (either (res_flags L) (res_flags L')).
Proof. asks. Qed.

(** The current stage residual, without any condition. *)
Lemma stage_residual_value G L0 L1 C e cells o const p x r :
  let two := do_two_sided L0 || do_two_sided L1 in
  stage_residual G L0 L1 C e cells o const p x r =
  C (fun g => r g
    + b (T o) (stage o) (stage o) * f0 o * operator_value 0 G e (seen two (implicit_stage o) (implicit_stage o) L0) (time_at o (stage o)) x cells g
    + f1 o * operator_value 0 G e (seen two true false L1) (time_at o (stage o)) x cells g + const g).
Proof.
  cbn zeta. unfold stage_residual. f_equal. apply functional_extensionality; intros g. unfold vadd at 1.
  rewrite (two_value 0 G L0 L1 (la_spatial o) (la_temporal o) (implicit_stage o) (do_two_sided L0 || do_two_sided L1) e
             (either (res_flags L0) (res_flags L1)) cells (set_solution x (fst p)) (set_solution x (snd p)) x r g eq_refl eq_refl).
  - reflexivity.
  - apply (either_asks_l L0 L1).
  - apply (either_asks_r L0 L1).
Qed.

(** ** The constant part *)
Section Pre.
  Variables (G : space) (L0 L1 : terms R) (o : os) (xs : nat -> vec).
  Definition ksum (l : list nat) (K : nat -> call -> vec * vec) (y : call) : vec * vec :=
    (fun i => lsum (fun s => fst (K s y) i) l, fun i => lsum (fun s => snd (K s y) i) l).
  (** contributions of stage [s] *)
  Definition k_of (L : terms R) (w : nat -> R) (s : nat) (y : call) : vec * vec :=
    if big (w s) then own 0 G L (w s * 1) (time_at o s) (xs s) y else (vzero, vzero).
  Let w0 s := b (T o) (stage o) s.
  Let w1 s := a (T o) (stage o) s.
  Definition kop (L : terms R) (f : R) (w : nat -> R) (s : nat) (y : call) : vec * vec :=
    if big (w s) then own 0 G L (w s * f) (time_at o s) (xs s) y else (vzero, vzero).
  Definition K_of (L : terms R) (f : R) (w : nat -> R) : call -> vec * vec := ksum (seq 0 (stage o)) (kop L f w).

  (** the loop for one operator *)
  Definition op_loop (L : terms R) (f : R) (w : nat -> R) (l : list nat) (y : call) (p : opst) : opst :=
    fold_left (fun p s => let p := set_time (time_at o s) p in
      if big (w s) then assemble_with G L (w s * f) (xs s) y p else p) l p.

  Lemma pre_asm_split y p0 p1 :
    pre_asm G L0 L1 o xs y (p0, p1) = (op_loop L0 (f0 o) w0 (seq 0 (stage o)) y p0, op_loop L1 (f1 o) w1 (seq 0 (stage o)) y p1).
  Proof.
    unfold pre_asm, op_loop. generalize (seq 0 (stage o)) as l. intros l. revert p0 p1.
    induction l as [|s l IH]; intros p0 p1; cbn [fold_left]; [reflexivity|]. rewrite <- IH. reflexivity.
  Qed.

  Definition addk (y : call) (k : vec * vec) (m : ms) : ms :=
    match y with
    | AsmVSkeleton _ _ _ | AsmUVSkeleton _ _ _ => mkms (vadd (m_rl m) (fst k)) (vadd (m_rn m) (snd k)) (m_rld m) (m_rnd m)
    | AsmVProcessor _ _ _ | AsmUVProcessor _ _ _ => m
    | _ => mkms (vadd (m_rl m) (fst k)) (m_rn m) (m_rld m) (m_rnd m)
    end.

  Lemma assemble_with_proj L w x y p : is_asm y = true ->
    proj (snd (assemble_with G L w x y p)) = addk y (own 0 G L w (time (fst p)) x y) (proj (snd p)).
  Proof.
    intros H. destruct p as [a s]. unfold assemble_with. cbn [fst snd].
    destruct y; try discriminate; cbn [prepare res_step fst own addk];
      try reflexivity;
      try (rewrite (acc_in_proj (mkla w (time a))); reflexivity);
      try (rewrite (acc_both_proj (mkla w (time a))); reflexivity).
  Qed.

  Lemma ms_eta m : mkms (m_rl m) (m_rn m) (m_rld m) (m_rnd m) = m. Proof. now destruct m. Qed.

  Lemma op_loop_proj L f w y l : is_asm y = true -> forall p,
    proj (snd (op_loop L f w l y p)) = addk y (ksum l (kop L f w) y) (proj (snd p)).
  Proof.
    intros H. induction l as [|s l IH]; intros p.
    - unfold op_loop, ksum. cbn [fold_left].
      change (fun i => lsum (fun s => fst (kop L f w s y) i) []) with vzero.
      change (fun i => lsum (fun s => snd (kop L f w s y) i) []) with vzero.
      destruct y; try discriminate; cbn [addk fst snd]; rewrite ?vadd_zero_r, ?ms_eta; reflexivity.
    - change (op_loop L f w (s :: l) y p) with (op_loop L f w l y (let p := set_time (time_at o s) p in
         if big (w s) then assemble_with G L (w s * f) (xs s) y p else p)).
      rewrite IH. cbn zeta.
      assert (E : proj (snd (if big (w s) then assemble_with G L (w s * f) (xs s) y (set_time (time_at o s) p) else set_time (time_at o s) p))
                  = addk y (kop L f w s y) (proj (snd p))).
      { unfold kop. destruct (big (w s)); [now rewrite assemble_with_proj|].
        destruct y; try discriminate; cbn [addk fst snd]; rewrite ?vadd_zero_r, ?ms_eta; reflexivity. }
      etransitivity; [apply f_equal; exact E|]. unfold ksum.
      destruct y; try discriminate; cbn [addk fst snd m_rl m_rn m_rld m_rnd]; rewrite ?vadd_assoc; reflexivity.
  Qed.

  Lemma own_off L w t x y : is_asm y = false -> own 0 G L w t x y = (vzero, vzero).
  Proof. destruct y; cbn; intros; discriminate || reflexivity. Qed.

  Lemma pre_call_ideal y p :
    let '((p0', p1'), (v0, v1)) := pre_call G L0 L1 o xs y p in
    ideal_step G (K_of L0 (f0 o) w0) y (proj (snd (fst p))) = (proj (snd p0'), v0) /\
    ideal_step G (K_of L1 (f1 o) w1) y (proj (snd (snd p))) = (proj (snd p1'), v1).
  Proof.
    destruct p as [[a0 s0] [a1 s1]].
    destruct (is_asm y) eqn:E.
    - assert (P : pre_call G L0 L1 o xs y (a0, s0, (a1, s1)) = (pre_asm G L0 L1 o xs y (a0, s0, (a1, s1)), (vzero, vzero))).
      { destruct y; try discriminate; reflexivity. }
      rewrite P, pre_asm_split. cbn [fst snd].
      rewrite !op_loop_proj by assumption. cbn [snd].
      fold (K_of L0 (f0 o) w0 y). fold (K_of L1 (f1 o) w1 y).
      destruct y; try discriminate; split; reflexivity.
    - destruct y; try discriminate; cbn [pre_call is_asm res_step]; split; reflexivity.
  Qed.

  Lemma pre_run_ideal l : forall p r,
    snd (pre_run G L0 L1 o xs l p r) =
    (snd (ideal_run G (K_of L0 (f0 o) w0) l (proj (snd (fst p))) (fst r)),
     snd (ideal_run G (K_of L1 (f1 o) w1) l (proj (snd (snd p))) (snd r))).
  Proof.
    induction l as [|y l IH]; intros p [r0 r1]; cbn [pre_run ideal_run]; [reflexivity|].
    pose proof (pre_call_ideal y p) as P. destruct (pre_call G L0 L1 o xs y p) as [[p0' p1'] [v0 v1]].
    destruct P as [-> ->]. rewrite IH. reflexivity.
  Qed.

  Lemma contrib_ksum l K g y : contrib G (ksum l K) g y = lsum (fun s => contrib G (K s) g y) l.
  Proof.
    assert (S : forall ds (F : nat -> vec) l, scatter ds (fun i => lsum (fun s => F s i) l) g = lsum (fun s => scatter ds (F s) g) l).
    { intros ds F l'. induction l' as [|s l' IH].
      - change (fun i => lsum (fun s => F s i) []) with vzero. now rewrite scatter_zero.
      - change (fun i => lsum (fun s => F s i) (s :: l')) with (vadd (F s) (fun i => lsum (fun s => F s i) l')).
        rewrite scatter_add. unfold vadd. rewrite IH. reflexivity. }
    destruct y; cbn [contrib]; unfold ksum; cbn [fst snd]; rewrite ?(S _ (fun s => fst (K s _))), ?(S _ (fun s => snd (K s _))), <- ?lsum_plus;
      try reflexivity; symmetry; apply lsum_zero; reflexivity.
  Qed.

  Lemma lsum_swap {A B} (f : A -> B -> R) la lb : lsum (fun x => lsum (f x) lb) la = lsum (fun y => lsum (fun x => f x y) la) lb.
  Proof.
    induction la as [|x la IH].
    - rewrite lsum_nil. symmetry. apply lsum_zero. reflexivity.
    - rewrite lsum_cons, IH, <- lsum_plus. apply lsum_ext. reflexivity.
  Qed.

  Lemma K_value L f w e fl cells g : asks_for L fl ->
    lsum (contrib G (K_of L f w) g) (sweep e fl cells) =
    lsum (fun s => (if big (w s) then w s * f else 0) * operator_value 0 G e L (time_at o s) (xs s) cells g) (seq 0 (stage o)).
  Proof.
    intros A. unfold K_of. rewrite (lsum_ext _ (fun y => lsum (fun s => contrib G (kop L f w s) g y) (seq 0 (stage o)))).
    2:{ intros. apply contrib_ksum. }
    rewrite lsum_swap. apply lsum_ext. intros s _. unfold kop. destruct (big (w s)).
    - now apply own_sum.
    - rewrite lsum_zero; [lra|]. intros y _. destruct y; cbn [contrib fst snd]; rewrite ?scatter_zero; unfold vzero; lra.
  Qed.
End Pre.

Lemma own_seen G L w t x y two : own 0 G (seen two true true L) w t x y = own 0 G L w t x y.
Proof. destruct y; reflexivity. Qed.

Lemma K_value_seen G L o xs f w e fl cells g : asks_for (seen (two_sided fl) true true L) fl ->
  lsum (contrib G (K_of G o xs L f w) g) (sweep e fl cells) =
  lsum (fun s => (if big (w s) then w s * f else 0) * operator_value 0 G e (seen (two_sided fl) true true L) (time_at o s) (xs s) cells g) (seq 0 (stage o)).
Proof.
  intros A. rewrite <- (K_value G o xs _ _ _ e fl cells g A). apply lsum_ext. intros y _.
  replace (K_of G o xs L f w) with (K_of G o xs (seen (two_sided fl) true true L) f w); [reflexivity|].
  apply functional_extensionality; intros z. unfold K_of, ksum, kop.
  f_equal; apply functional_extensionality; intros i; apply lsum_ext; intros s _; destruct (big (w s)); rewrite ?own_seen; reflexivity.
Qed.

(** What preStage leaves in the constant part, without any condition. *)
Lemma pre_stage_value G L0 L1 C e cells o xs p :
  let two := do_two_sided L0 || do_two_sided L1 in
  pre_stage G L0 L1 C e cells o xs p =
  C (fun g =>
    lsum (fun s => (if big (b (T o) (stage o) s) then b (T o) (stage o) s * f0 o else 0) *
                   operator_value 0 G e (seen two true true L0) (time_at o s) (xs s) cells g) (seq 0 (stage o)) +
    lsum (fun s => (if big (a (T o) (stage o) s) then a (T o) (stage o) s * f1 o else 0) *
                   operator_value 0 G e (seen two true true L1) (time_at o s) (xs s) cells g) (seq 0 (stage o))).
Proof.
  cbn zeta. unfold pre_stage. cbn zeta. rewrite pre_run_ideal. cbn [fst snd]. f_equal. vext. unfold vadd.
  rewrite !ideal_sweep. unfold vzero.
  rewrite (K_value_seen G L0 o xs (f0 o) (fun s => b (T o) (stage o) s) e _ cells) by apply (either_asks_l L0 L1).
  rewrite (K_value_seen G L1 o xs (f1 o) (fun s => a (T o) (stage o) s) e _ cells) by apply (either_asks_r L0 L1).
  cbn [either two_sided res_flags]. lra.
Qed.

Lemma big_or_zero v : zero_or_big v -> (if big v then v else 0) = v.
Proof. unfold big. intros [->|H]; destruct (Rlt_dec _ _); try reflexivity. contradiction. Qed.
Lemma big_or_zero_f v f : zero_or_big v -> (if big v then v * f else 0) = v * f.
Proof. intros H. pose proof (big_or_zero v H) as E. destruct (big v); [reflexivity|]. rewrite <- E. lra. Qed.

(** C15 *)
Theorem stage_residual_formula G L0 L1 C e cells o us p q r :
  constrains_once C -> coefficients_ok (T o) (stage o) -> no_post L1 -> same_view L0 L1 ->
  stage_residual G L0 L1 C e cells o (pre_stage G L0 L1 C e cells o us p) q (us (stage o)) r =
  C (vadd r (stage_formula G L0 L1 e cells o us)).
Proof.
  intros HC [Hd HK] NP SV. rewrite stage_residual_value, pre_stage_value.
  set (two := do_two_sided L0 || do_two_sided L1).
  match goal with |- C (fun g => @?u g + C ?v g) = _ => change (C (vadd u (C v)) = C (vadd r (stage_formula G L0 L1 e cells o us))) end.
  rewrite HC. f_equal. vext. unfold vadd, stage_formula.
  assert (V0 : two = do_two_sided L0 \/ do_alpha_skeleton L0 = false /\ do_lambda_skeleton L0 = false).
  { unfold two. destruct SV as [E|[(E & E' & E'')|(E & E' & E'')]]; rewrite ?E, ?E''; auto using orb_diag. }
  assert (V1 : two = do_two_sided L1 \/ do_alpha_skeleton L1 = false /\ do_lambda_skeleton L1 = false).
  { unfold two. destruct SV as [E|[(E & E' & E'')|(E & E' & E'')]]; rewrite ?E, ?E''; auto using orb_diag, orb_true_r. }
  rewrite seq_S, lsum_app, lsum_cons, lsum_nil, Nat.add_0_l, lsum_plus, Hd.
  rewrite (seen_drop_post L1 two NP), (seen_same 0 G e L1 _ _ cells _ two V1).
  unfold implicit_stage, time_at.
  assert (I : b (T o) (stage o) (stage o) * f0 o * operator_value 0 G e
     (seen two (big (b (T o) (stage o) (stage o))) (big (b (T o) (stage o) (stage o))) L0) (t0 o + d (T o) (stage o) * dt o) (us (stage o)) cells x =
     b (T o) (stage o) (stage o) * f0 o * operator_value 0 G e L0 (t0 o + d (T o) (stage o) * dt o) (us (stage o)) cells x).
  { destruct (HK (stage o) (le_n _)) as [_ B]. destruct (big (b (T o) (stage o) (stage o))) eqn:E.
    - now rewrite seen_same.
    - rewrite <- (big_or_zero _ B), E. lra. }
  rewrite I.
  rewrite (lsum_ext (fun s => (if big (b (T o) (stage o) s) then b (T o) (stage o) s * f0 o else 0) * _)
    (fun i => b (T o) (stage o) i * f0 o * operator_value 0 G e L0 (t0 o + d (T o) i * dt o) (us i) cells x)).
  2:{ intros i Hi. apply in_seq in Hi. rewrite big_or_zero_f by (apply HK; lia). now rewrite seen_same. }
  rewrite (lsum_ext (fun s => (if big (a (T o) (stage o) s) then a (T o) (stage o) s * f1 o else 0) * _)
    (fun i => a (T o) (stage o) i * f1 o * operator_value 0 G e L1 (t0 o + d (T o) i * dt o) (us i) cells x)).
  2:{ intros i Hi. apply in_seq in Hi. rewrite big_or_zero_f by (apply HK; lia). now rewrite seen_same. }
  lra.
Qed.
