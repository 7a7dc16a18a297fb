From Coq Require Import FunctionalExtensionality.
From Verif Require Import DriverProofs EngineModel EngineSpec EngineProofs.
Local Open Scope R_scope.

(** The sum over the calls of a sweep, cell by cell and face by face. *)
Section Sums.
  Variables (G : space) (e : env) (fl : flags) (K : call -> vec * vec) (two : bool).
  Definition face_sum (c : cell) (g : nat) (p : nat * face) : R :=
    let (i, f) := p in
    match classify e f with
    | Skeleton | Periodic =>
        if (outside f <? cid c)%nat || two then contrib G K g (AsmVSkeleton c f i) + contrib G K g (AsmUVSkeleton c f i) else 0
    | Boundary => contrib G K g (AsmVBoundary c f i) + contrib G K g (AsmUVBoundary c f i)
    | Processor => 0
    end.
  Definition cell_sum (g : nat) (c : cell) : R :=
    contrib G K g (AsmVVolume c) + contrib G K g (AsmUVVolume c) + contrib G K g (AsmVPost c) + contrib G K g (AsmUVPost c)
    + lsum (face_sum c g) (numbered e c).

  (** [K] vanishes on everything the sweep does not visit. *)
  Definition covered : Prop :=
    (uv_skeleton fl = false -> forall c f i g, contrib G K g (AsmUVSkeleton c f i) = 0) /\
    (uv_skeleton fl || v_skeleton fl = false -> forall c f i g, contrib G K g (AsmVSkeleton c f i) = 0) /\
    (uv_boundary fl = false -> forall c f i g, contrib G K g (AsmUVBoundary c f i) = 0) /\
    (uv_boundary fl || v_boundary fl = false -> forall c f i g, contrib G K g (AsmVBoundary c f i) = 0) /\
    (uv_post fl = false -> forall c g, contrib G K g (AsmUVPost c) = 0) /\
    (uv_post fl || v_post fl = false -> forall c g, contrib G K g (AsmVPost c) = 0) /\
    (two_sided fl = two \/
     forall c f i g, contrib G K g (AsmUVSkeleton c f i) = 0 /\ contrib G K g (AsmVSkeleton c f i) = 0).
  Hypothesis C : covered.

  Lemma skel_calls_sum c i f g :
    lsum (contrib G K g)
      (if uv_skeleton fl || v_skeleton fl then
         if (outside f <? cid c)%nat || two_sided fl then
          OnBindVOutside c f i :: AsmVSkeleton c f i ::
          (if uv_skeleton fl then
             [OnBindUVOutside c f i; LoadOutside c f i; AsmUVSkeleton c f i; OnUnbindUVOutside c f i] else [])
          ++ [OnUnbindVOutside c f i]
         else []
       else []) =
    (if (outside f <? cid c)%nat || two then contrib G K g (AsmVSkeleton c f i) + contrib G K g (AsmUVSkeleton c f i) else 0).
  Proof.
    destruct C as (C1 & C2 & _ & _ & _ & _ & C7).
    set (u := contrib G K g (AsmUVSkeleton c f i)) in *. set (v := contrib G K g (AsmVSkeleton c f i)) in *.
    assert (E1 : uv_skeleton fl = false -> u = 0) by (intros E; apply (C1 E)).
    assert (E2 : uv_skeleton fl || v_skeleton fl = false -> v = 0) by (intros E; apply (C2 E)).
    assert (E3 : two_sided fl = two \/ (u = 0 /\ v = 0)) by (destruct C7 as [E|E]; [now left|right; apply (E c f i g)]).
    assert (Hl : lsum (contrib G K g) (OnBindVOutside c f i :: AsmVSkeleton c f i ::
          (if uv_skeleton fl then
             [OnBindUVOutside c f i; LoadOutside c f i; AsmUVSkeleton c f i; OnUnbindUVOutside c f i] else [])
          ++ [OnUnbindVOutside c f i]) = v + u).
    { rewrite !lsum_cons. fold v. change (contrib G K g (OnBindVOutside c f i)) with 0.
      destruct (uv_skeleton fl); cbn [app]; rewrite ?lsum_cons, ?lsum_nil; fold u;
      change (contrib G K g (OnBindUVOutside c f i)) with 0;
      change (contrib G K g (LoadOutside c f i)) with 0; change (contrib G K g (OnUnbindVOutside c f i)) with 0;
      change (contrib G K g (OnUnbindUVOutside c f i)) with 0; [lra|]. rewrite (E1 eq_refl). lra. }
    destruct (uv_skeleton fl || v_skeleton fl) eqn:E.
    - destruct E3 as [<-|[Eu Ev]].
      + destruct ((outside f <? cid c)%nat || two_sided fl); [exact Hl|reflexivity].
      + destruct ((outside f <? cid c)%nat || two_sided fl), ((outside f <? cid c)%nat || two); rewrite ?Hl, ?lsum_nil; lra.
    - assert (U : u = 0) by (apply E1; apply orb_false_elim in E; tauto). pose proof (E2 eq_refl) as V.
      rewrite lsum_nil. destruct ((outside f <? cid c)%nat || two); lra.
  Qed.

  Lemma face_calls_sum c i f g : lsum (contrib G K g) (face_calls e fl c i f) = face_sum c g (i, f).
  Proof.
    destruct C as (C1 & C2 & C3 & C4 & _ & _ & C7). unfold face_calls, face_sum.
    destruct (classify e f) eqn:E; [|apply skel_calls_sum| |apply skel_calls_sum].
    - destruct (uv_boundary fl), (v_boundary fl); cbn [orb]; rewrite ?lsum_cons, ?lsum_nil; cbn [contrib]; lra.
    - destruct (uv_boundary fl) eqn:U, (v_boundary fl) eqn:V; cbn [orb] in *; rewrite ?lsum_cons, ?lsum_nil, ?(C3 eq_refl c f i g), ?(C4 eq_refl c f i g); lra.
  Qed.

  Lemma faces_calls_sum c g : forall fs i,
    lsum (contrib G K g) (faces_calls e fl c i fs) =
    lsum (face_sum c g) (let l := filter (fun f => negb (skip_intersection e c f)) fs in combine (seq i (length l)) l).
  Proof.
    induction fs as [|f fs IH]; intros i; cbn [faces_calls filter]; [reflexivity|].
    destruct (skip_intersection e c f); cbn [negb]; [apply IH|].
    rewrite lsum_app, IH, face_calls_sum. cbn [length seq combine]. rewrite lsum_cons. reflexivity.
  Qed.

  Lemma sweep_sum cells g :
    lsum (contrib G K g) (sweep e fl cells) = lsum (cell_sum g) (filter (fun c => negb (skip_entity e c)) cells).
  Proof.
    unfold sweep. rewrite lsum_flat_map. induction cells as [|c cells IH]; cbn [filter]; [reflexivity|].
    rewrite lsum_cons, IH. unfold cell_calls. destruct (skip_entity e c); cbn [negb]; [rewrite lsum_nil; lra|].
    rewrite lsum_cons. f_equal. rewrite !lsum_app, !lsum_cons, !lsum_nil.
    assert (F : lsum (contrib G K g) (if uv_skeleton fl || v_skeleton fl || uv_boundary fl || v_boundary fl
                                      then faces_calls e fl c 0 (faces c) else []) = lsum (face_sum c g) (numbered e c)).
    { destruct (uv_skeleton fl || v_skeleton fl || uv_boundary fl || v_boundary fl) eqn:E; [apply faces_calls_sum|].
      symmetry. rewrite lsum_nil. apply lsum_zero. intros [i f] _. unfold face_sum.
      destruct C as (C1 & C2 & C3 & C4 & _). apply orb_false_elim in E; destruct E as [E E4].
      apply orb_false_elim in E; destruct E as [E E3]. apply orb_false_elim in E; destruct E as [E1 E2].
      rewrite (C1 E1), (C2 (proj2 (orb_false_iff _ _) (conj E1 E2))), (C3 E3), (C4 (proj2 (orb_false_iff _ _) (conj E3 E4))).
      destruct (classify e f); try lra; match goal with |- context [if ?b then _ else _] => destruct b end; lra. }
    rewrite F. unfold cell_sum. cbn [contrib].
    change (contrib G K g (AsmVVolume c)) with (scatter (lfsv G (cid c)) (fst (K (AsmVVolume c))) g).
    destruct C as (_ & _ & _ & _ & C5 & C6 & _).
    destruct (uv_post fl) eqn:U, (v_post fl) eqn:V; cbn [orb] in *; rewrite ?lsum_cons, ?lsum_nil; try lra;
      rewrite <- ?(C5 eq_refl c g), <- ?(C6 eq_refl c g); cbn [contrib] in *; try lra;
      pose proof (C5 eq_refl c g); try pose proof (C6 eq_refl c g); lra.
  Qed.
End Sums.

(** Contributions of the engine of one operator with fixed weight, time and solution. *)
Section Own.
  Context {X : Type} (x0 : X).
  Variables (G : space) (L : terms X) (w t : R) (x : nat -> X).
  Let co (n : nat) := gather x0 x (lfsu G n).
  Definition kin (on : bool) (v : vec) : vec * vec := (if on then vscal w v else vzero, vzero).
  Definition kboth (on : bool) (v : vec * vec) : vec * vec := if on then (vscal w (fst v), vscal w (snd v)) else (vzero, vzero).
  Definition own (y : call) : vec * vec :=
    match y with
    | AsmVVolume c => kin (do_lambda_volume L) (lambda_volume L c t)
    | AsmUVVolume c => kin (do_alpha_volume L) (alpha_volume L c t (co (cid c)))
    | AsmVSkeleton c f i => kboth (do_lambda_skeleton L) (lambda_skeleton L c f i t)
    | AsmUVSkeleton c f i => kboth (do_alpha_skeleton L) (alpha_skeleton L c f i t (co (cid c)) (co (outside f)))
    | AsmVBoundary c f i => kin (do_lambda_boundary L) (lambda_boundary L c f i t)
    | AsmUVBoundary c f i => kin (do_alpha_boundary L) (alpha_boundary L c f i t (co (cid c)))
    | AsmVPost c => kin (do_lambda_post L) (lambda_post L c t)
    | AsmUVPost c => kin (do_alpha_post L) (alpha_post L c t (co (cid c)))
    | _ => (vzero, vzero)
    end.

  (** The sweep asks for at least what the operator needs, and sees interior faces as often as the operator wants. *)
  Definition asks_for (fl : flags) : Prop :=
    (do_alpha_skeleton L = true -> uv_skeleton fl = true) /\
    (do_lambda_skeleton L = true -> uv_skeleton fl || v_skeleton fl = true) /\
    (do_alpha_boundary L = true -> uv_boundary fl = true) /\
    (do_lambda_boundary L = true -> uv_boundary fl || v_boundary fl = true) /\
    (do_alpha_post L = true -> uv_post fl = true) /\
    (do_lambda_post L = true -> uv_post fl || v_post fl = true) /\
    (two_sided fl = do_two_sided L \/ do_alpha_skeleton L = false /\ do_lambda_skeleton L = false).

  Lemma own_covered fl : asks_for fl -> covered G fl own (do_two_sided L).
  Proof.
    intros (A1 & A2 & A3 & A4 & A5 & A6 & A7). unfold covered. repeat split.
    - intros F c f i g. cbn [contrib own]. unfold kboth. destruct (do_alpha_skeleton L); [rewrite A1 in F by auto; discriminate|].
      cbn [fst snd]. rewrite !scatter_zero. unfold vzero. lra.
    - intros F c f i g. cbn [contrib own]. unfold kboth. destruct (do_lambda_skeleton L); [rewrite A2 in F by auto; discriminate|].
      cbn [fst snd]. rewrite !scatter_zero. unfold vzero. lra.
    - intros F c f i g. cbn [contrib own]. unfold kin. destruct (do_alpha_boundary L); [rewrite A3 in F by auto; discriminate|].
      cbn [fst]. now rewrite scatter_zero.
    - intros F c f i g. cbn [contrib own]. unfold kin. destruct (do_lambda_boundary L); [rewrite A4 in F by auto; discriminate|].
      cbn [fst]. now rewrite scatter_zero.
    - intros F c g. cbn [contrib own]. unfold kin. destruct (do_alpha_post L); [rewrite A5 in F by auto; discriminate|].
      cbn [fst]. now rewrite scatter_zero.
    - intros F c g. cbn [contrib own]. unfold kin. destruct (do_lambda_post L); [rewrite A6 in F by auto; discriminate|].
      cbn [fst]. now rewrite scatter_zero.
    - destruct A7 as [A7|[A7 A8]]; [now left|]. right. intros c f i g. cbn [contrib own]. unfold kboth. rewrite A7, A8.
      cbn [fst snd]. rewrite !scatter_zero. unfold vzero. lra.
  Qed.

  Lemma own_sum e fl cells g : asks_for fl ->
    lsum (contrib G own g) (sweep e fl cells) = w * operator_value x0 G e L t x cells g.
  Proof.
    intros A. rewrite (sweep_sum G e fl own (do_two_sided L) (own_covered fl A)).
    unfold operator_value. rewrite <- lsum_scal. apply lsum_ext. intros c _.
    assert (P : forall ds on v, scatter ds (fst (kin on v)) g = w * scatter ds (opt on v) g).
    { intros ds on v. unfold kin, opt. cbn [fst]. destruct on; [rewrite scatter_scal; reflexivity|].
      rewrite scatter_zero. unfold vzero. lra. }
    assert (Q : forall ds ds' on v, scatter ds (fst (kboth on v)) g + scatter ds' (snd (kboth on v)) g =
                   w * (scatter ds (fst (opt2 on v)) g + scatter ds' (snd (opt2 on v)) g)).
    { intros ds ds' on v. unfold kboth, opt2. destruct on; cbn [fst snd]; [rewrite !scatter_scal; unfold vscal; lra|].
      rewrite !scatter_zero. unfold vzero. lra. }
    unfold cell_sum, cell_value. cbn [contrib own]. rewrite !P.
    rewrite Rmult_plus_distr_l, <- lsum_scal.
    rewrite (lsum_ext (face_sum G e own (do_two_sided L) c g) (fun p => w * face_value x0 G e L t x c p g)).
    { unfold co. lra. }
    intros [i f] _. unfold face_sum, face_value. cbn [contrib own].
    destruct (classify e f); [lra| | |].
    - match goal with |- context [if ?b then _ else _] => destruct b end; [|lra]. rewrite !Q. unfold co. lra.
    - rewrite !P. unfold co. lra.
    - match goal with |- context [if ?b then _ else _] => destruct b end; [|lra]. rewrite !Q. unfold co. lra.
  Qed.
End Own.

(** The engine of one operator behaves like the idealised engine. *)
Section Simulation.
  Context {X : Type} (x0 : X).
  Variables (G : space) (L : terms X) (a : la) (x : nat -> X).
  Let K := own x0 G L (weight a) (time a) x.
  Definition proj (s : rest X) : ms := mkms (rl s) (rn s) (rl_dofs s) (rn_dofs s).

  Definition follows (l : list call) (s : rest X) (s' : rest X) : Prop :=
    forall r, res_run x0 G L a l s r = (s', snd (ideal_run G K l (proj s) r)) /\
              fst (ideal_run G K l (proj s) r) = proj s'.

  Lemma follows_nil s : follows [] s s. Proof. intros r. split; reflexivity. Qed.

  Lemma res_run_app l l' s r : res_run x0 G L a (l ++ l') s r = let (s', r') := res_run x0 G L a l s r in res_run x0 G L a l' s' r'.
  Proof.
    revert s r. induction l as [|y l IH]; intros s r; cbn [res_run app]; [reflexivity|].
    destruct (res_step x0 G L a y s). apply IH.
  Qed.

  Lemma follows_app l l' s s' s'' : follows l s s' -> follows l' s' s'' -> follows (l ++ l') s s''.
  Proof.
    intros F F' r. rewrite res_run_app, ideal_run_app. destruct (F r) as [-> E].
    destruct (ideal_run G K l (proj s) r) as [m r1]. cbn [fst snd] in *. subst m. apply F'.
  Qed.

  Lemma follows_one y s s' v :
    res_step x0 G L a y s = (s', v) -> ideal_step G K y (proj s) = (proj s', v) -> follows [y] s s'.
  Proof. intros E E' r. cbn [res_run ideal_run]. rewrite E, E'. split; reflexivity. Qed.

  Lemma acc_in_proj on v (s : rest X) : proj (acc_in on (weight a) v s) = mkms (vadd (rl s) (fst (kin (weight a) on v))) (rn s) (rl_dofs s) (rn_dofs s).
  Proof. unfold acc_in, proj, kin, set_rl, vacc. destruct on; cbn [fst rl rn rl_dofs rn_dofs]; rewrite ?vadd_zero_r; reflexivity. Qed.
  Lemma acc_both_proj on v (s : rest X) : proj (acc_both on (weight a) v s) =
    mkms (vadd (rl s) (fst (kboth (weight a) on v))) (vadd (rn s) (snd (kboth (weight a) on v))) (rl_dofs s) (rn_dofs s).
  Proof.
    unfold acc_both, proj, kboth, set_rl, set_rn, vacc. destruct on; cbn [fst snd rl rn rl_dofs rn_dofs]; rewrite ?vadd_zero_r; reflexivity.
  Qed.
  Lemma acc_in_keep on v (s : rest X) : sol (acc_in on (weight a) v s) = sol s /\ xl (acc_in on (weight a) v s) = xl s /\ xn (acc_in on (weight a) v s) = xn s.
  Proof. destruct on; repeat split; reflexivity. Qed.
  Lemma acc_both_keep on v (s : rest X) : sol (acc_both on (weight a) v s) = sol s /\ xl (acc_both on (weight a) v s) = xl s /\ xn (acc_both on (weight a) v s) = xn s.
  Proof. destruct on; repeat split; reflexivity. Qed.

  Lemma step_in c f i s y :
    sol s = x -> xl s = gather x0 x (lfsu G (cid c)) ->
    In y [AsmVBoundary c f i; AsmUVBoundary c f i; AsmVPost c; AsmUVPost c; AsmVVolume c; AsmUVVolume c;
          AsmVProcessor c f i; AsmUVProcessor c f i; AsmVSkeleton c f i] ->
    exists s', follows [y] s s' /\ sol s' = x /\ xl s' = gather x0 x (lfsu G (cid c)) /\ xn s' = xn s.
  Proof.
    intros S1 S2 I. cbn [In] in I.
    destruct I as [<-|[<-|[<-|[<-|[<-|[<-|[<-|[<-|[<-|[]]]]]]]]]];
      (eexists; split; [eapply follows_one; [reflexivity|]|]);
      try (cbn [ideal_step]; unfold add_in, add_both, K; cbn [own]; rewrite ?acc_in_proj, ?acc_both_proj, ?S2; reflexivity);
      rewrite <- ?S1;
      try (match goal with |- context [acc_in ?o _ ?v s] => destruct (acc_in_keep o v s) as (-> & -> & ->) end; auto);
      try (match goal with |- context [acc_both ?o _ ?v s] => destruct (acc_both_keep o v s) as (-> & -> & ->) end; auto);
      rewrite ?S1; auto.
  Qed.

  Lemma sim_face e fl c i f s :
    sol s = x -> xl s = gather x0 x (lfsu G (cid c)) ->
    exists s', follows (face_calls e fl c i f) s s' /\ sol s' = x /\ xl s' = gather x0 x (lfsu G (cid c)).
  Proof.
    intros S1 S2. unfold face_calls.
    assert (SK : forall (b1 b2 b3 : bool), exists s', follows
      (if b1 then if b2 then OnBindVOutside c f i :: AsmVSkeleton c f i ::
          (if b3 then [OnBindUVOutside c f i; LoadOutside c f i; AsmUVSkeleton c f i; OnUnbindUVOutside c f i] else [])
          ++ [OnUnbindVOutside c f i] else [] else []) s s' /\ sol s' = x /\ xl s' = gather x0 x (lfsu G (cid c))).
    { intros [] [] b3; try (exists s; split; [apply follows_nil|auto]).
      pose (s1 := fst (res_step x0 G L a (OnBindVOutside c f i) s)).
      assert (F1 : follows [OnBindVOutside c f i] s s1) by (eapply follows_one; reflexivity).
      destruct (step_in c f i s1 (AsmVSkeleton c f i)) as (s2 & F2 & T1 & T2 & _).
      { exact S1. } { exact S2. } { cbn. tauto. }
      assert (U : exists s3, follows (if b3 then [OnBindUVOutside c f i; LoadOutside c f i; AsmUVSkeleton c f i; OnUnbindUVOutside c f i] else []) s2 s3
        /\ sol s3 = x /\ xl s3 = gather x0 x (lfsu G (cid c))).
      { destruct b3; [|exists s2; split; [apply follows_nil|auto]].
        pose (s4 := load_outside x0 (bind_uv_outside G f s2)).
        assert (N : xn s4 = gather x0 x (lfsu G (outside f))) by (cbn; now rewrite T1).
        eexists. split.
        - apply (follows_app [OnBindUVOutside c f i; LoadOutside c f i] _ _ s4).
          { apply (follows_app [_] [_] _ (bind_uv_outside G f s2)); (eapply follows_one; reflexivity). }
          apply (follows_app [AsmUVSkeleton c f i] [OnUnbindUVOutside c f i] _
                   (fst (res_step x0 G L a (AsmUVSkeleton c f i) s4))).
          + eapply follows_one; [apply surjective_pairing|]. cbn [res_step fst ideal_step].
            rewrite acc_both_proj. unfold add_both, K. cbn [own snd]. rewrite N.
            change (xl s4) with (xl s2). rewrite T2. reflexivity.
          + eapply follows_one; reflexivity.
        - cbn [res_step fst]. change (sol s2) with (sol s4) in T1. change (xl s2) with (xl s4) in T2.
          match goal with |- context [acc_both ?o _ ?v s4] => destruct (acc_both_keep o v s4) as (-> & -> & _) end. auto. }
      destruct U as (s3 & F3 & U1 & U2). exists s3. split; [|auto].
      apply (follows_app [OnBindVOutside c f i] (AsmVSkeleton c f i :: _) _ s1); [exact F1|].
      apply (follows_app [AsmVSkeleton c f i] (_ ++ _) _ s2); [exact F2|].
      apply (follows_app _ _ _ s3); [exact F3|]. eapply follows_one; reflexivity. }
    destruct (classify e f); [|apply SK| |apply SK].
    - destruct (uv_boundary fl), (v_boundary fl); cbn [orb];
        try (exists s; split; [apply follows_nil|auto]);
        destruct (step_in c f i s (AsmVProcessor c f i) S1 S2) as (s1 & F1 & T1 & T2 & _); try (cbn; tauto);
        try (exists s1; split; [exact F1|auto]; fail);
        destruct (step_in c f i s1 (AsmUVProcessor c f i) T1 T2) as (s2 & F2 & U1 & U2 & _); try (cbn; tauto);
        (exists s2; split; [apply (follows_app [_] [_] _ s1 _ F1 F2)|auto]).
    - destruct (uv_boundary fl), (v_boundary fl); cbn [orb];
        try (exists s; split; [apply follows_nil|auto]);
        destruct (step_in c f i s (AsmVBoundary c f i) S1 S2) as (s1 & F1 & T1 & T2 & _); try (cbn; tauto);
        try (exists s1; split; [exact F1|auto]; fail);
        destruct (step_in c f i s1 (AsmUVBoundary c f i) T1 T2) as (s2 & F2 & U1 & U2 & _); try (cbn; tauto);
        (exists s2; split; [apply (follows_app [_] [_] _ s1 _ F1 F2)|auto]).
  Qed.

  Lemma sim_faces e fl c : forall fs i s,
    sol s = x -> xl s = gather x0 x (lfsu G (cid c)) ->
    exists s', follows (faces_calls e fl c i fs) s s' /\ sol s' = x /\ xl s' = gather x0 x (lfsu G (cid c)).
  Proof.
    induction fs as [|f fs IH]; intros i s S1 S2; cbn [faces_calls]; [exists s; split; [apply follows_nil|auto]|].
    destruct (skip_intersection e c f); [now apply IH|].
    destruct (sim_face e fl c i f s S1 S2) as (s1 & F1 & T1 & T2).
    destruct (IH (S i) s1 T1 T2) as (s2 & F2 & U1 & U2). exists s2. split; [|auto].
    now apply (follows_app _ _ _ s1).
  Qed.

  Lemma sim_cell e fl c s : sol s = x -> exists s', follows (cell_calls e fl c) s s' /\ sol s' = x.
  Proof.
    intros S1. unfold cell_calls. destruct (skip_entity e c); [exists s; split; [apply follows_nil|auto]|].
    set (s1 := fst (res_step x0 G L a (OnBindV c) s)).
    set (s2 := fst (res_step x0 G L a (AsmVVolume c) s1)).
    set (s3 := load_inside x0 (bind_uv G c s2)).
    assert (T1 : sol s2 = x) by (unfold s2; cbn [res_step fst]; destruct (acc_in_keep (do_lambda_volume L) (lambda_volume L c (time a)) s1) as (-> & _); exact S1).
    assert (F3 : follows [OnBindV c; AsmVVolume c; OnBindUV c; LoadInside c] s s3).
    { apply (follows_app [OnBindV c] [AsmVVolume c; OnBindUV c; LoadInside c] _ s1); [eapply follows_one; reflexivity|].
      apply (follows_app [AsmVVolume c] [OnBindUV c; LoadInside c] _ s2).
      { eapply follows_one; [apply surjective_pairing|]. unfold s2. cbn [res_step fst snd ideal_step]. rewrite acc_in_proj. reflexivity. }
      apply (follows_app [OnBindUV c] [LoadInside c] _ (bind_uv G c s2)); eapply follows_one; reflexivity. }
    destruct (step_in c (mkface 0 false false 0 false) 0 s3 (AsmUVVolume c)) as (s4 & F4 & U1 & U2 & _).
    { exact T1. } { change (gather x0 (sol s2) (lfsu G (cid c)) = gather x0 x (lfsu G (cid c))). now rewrite T1. } { cbn. tauto. }
    assert (F5 : exists s5, follows (if uv_skeleton fl || v_skeleton fl || uv_boundary fl || v_boundary fl
        then faces_calls e fl c 0 (faces c) else []) s4 s5 /\ sol s5 = x /\ xl s5 = gather x0 x (lfsu G (cid c))).
    { destruct (uv_skeleton fl || v_skeleton fl || uv_boundary fl || v_boundary fl); [now apply sim_faces|].
      exists s4. split; [apply follows_nil|auto]. }
    destruct F5 as (s5 & F5 & V1 & V2).
    assert (F6 : exists s6, follows (if uv_post fl || v_post fl then AsmVPost c :: (if uv_post fl then [AsmUVPost c] else []) else []) s5 s6
      /\ sol s6 = x).
    { destruct (uv_post fl), (v_post fl); cbn [orb];
        try (exists s5; split; [apply follows_nil|auto]; fail);
        destruct (step_in c (mkface 0 false false 0 false) 0 s5 (AsmVPost c) V1 V2) as (t1 & H1 & W1 & W2 & _); try (cbn; tauto);
        try (exists t1; split; [exact H1|auto]; fail);
        destruct (step_in c (mkface 0 false false 0 false) 0 t1 (AsmUVPost c) W1 W2) as (t2 & H2 & Y1 & Y2 & _); try (cbn; tauto);
        (exists t2; split; [apply (follows_app [_] [_] _ t1 _ H1 H2)|auto]). }
    destruct F6 as (s6 & F6 & W).
    exists s6. split; [|exact W].
    apply (follows_app [OnBindV c; AsmVVolume c; OnBindUV c; LoadInside c; AsmUVVolume c] _ _ s4).
    { apply (follows_app [OnBindV c; AsmVVolume c; OnBindUV c; LoadInside c] [AsmUVVolume c] _ s3); assumption. }
    apply (follows_app _ _ _ s5); [exact F5|]. apply (follows_app _ _ _ s6); [exact F6|].
    apply (follows_app [_] [_] _ s6); eapply follows_one; reflexivity.
  Qed.

  Lemma sim_sweep e fl cells : forall s, sol s = x -> exists s', follows (sweep e fl cells) s s' /\ sol s' = x.
  Proof.
    unfold sweep. induction cells as [|c cells IH]; intros s H; cbn [flat_map]; [exists s; split; [apply follows_nil|auto]|].
    destruct (sim_cell e fl c s H) as (s1 & F1 & H1). destruct (IH s1 H1) as (s2 & F2 & H2).
    exists s2. split; [now apply (follows_app _ _ _ s1)|exact H2].
  Qed.

  Theorem run_value e fl cells s r g : sol s = x -> asks_for L fl ->
    snd (res_run x0 G L a (sweep e fl cells) s r) g = r g + weight a * operator_value x0 G e L (time a) x cells g.
  Proof.
    intros H A. destruct (sim_sweep e fl cells s H) as (s' & F & _). destruct (F r) as [-> _]. cbn [snd].
    rewrite ideal_sweep. unfold K. now rewrite own_sum.
  Qed.
End Simulation.

Lemma res_flags_ask {X} (L : terms X) : asks_for L (res_flags L).
Proof. unfold asks_for, res_flags; cbn. repeat split; auto; intros ->; auto using orb_true_r. Qed.

Theorem assembled_value {X} (x0 : X) G L e cells a s x r g :
  assemble_residual x0 G L e cells a s x r g = r g + weight a * operator_value x0 G e L (time a) x cells g.
Proof. unfold assemble_residual. apply run_value; [reflexivity|apply res_flags_ask]. Qed.
