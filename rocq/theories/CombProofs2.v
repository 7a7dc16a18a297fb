(** Proofs about combined local operators: assembled values. *)
From Coq Require Import FunctionalExtensionality Lra.
From Verif Require Import CommonFacts CombModel EngineSpec EngineProofs EngineProofs3 CombSpec CombProofs.
Local Open Scope R_scope.

Lemma lsum_swap {A B} (f : A -> B -> R) la lb : lsum (fun a => lsum (f a) lb) la = lsum (fun b => lsum (fun a => f a b) la) lb.
Proof.
  induction la as [|a la IH]; [rewrite lsum_nil; symmetry; now apply lsum_zero|].
  rewrite lsum_cons, IH, <- lsum_plus. apply lsum_ext. intros b _. now rewrite lsum_cons.
Qed.

Section Value.
  Context {X : Type}.
  Variable ap : applier.
  Variable ls : list (R * terms X).
  Hypothesis HA : adds ap (terms X) ls.

  Lemma run1_val on v : run1 ap on v ls = wval on v ls.
  Proof. unfold run1. rewrite (adds1 ap _ ls HA). cbn [snd]. fx. unfold vacc, vadd, vscal, vzero. ring. Qed.
  Lemma run2_val on v : run2 ap on v ls = (wval on (fun l => fst (v l)) ls, wval on (fun l => snd (v l)) ls).
  Proof. unfold run2. rewrite (adds2 ap _ ls HA). cbn [fst snd]. f_equal; fx; unfold vacc, vadd, vscal, vzero; ring. Qed.

  Lemma any_false (on : terms X -> bool) p : any on ls = false -> In p ls -> on (snd p) = false.
  Proof.
    intros E Hp. destruct (on (snd p)) eqn:O; [|reflexivity]. assert (any on ls = true); [|congruence].
    apply existsb_exists. exists p. auto.
  Qed.
  Lemma scatter_wval ds on v g :
    scatter ds (opt (any on ls) (wval on v ls)) g = lsum (fun p => fst p * scatter ds (opt (on (snd p)) (v (snd p))) g) ls.
  Proof.
    destruct (any on ls) eqn:E; cbn [opt].
    - clear E HA. unfold wval. induction ls as [|p l IH].
      + rewrite lsum_nil. transitivity (scatter ds vzero g); [|now rewrite scatter_zero]. apply scatter_ext. reflexivity.
      + rewrite lsum_cons, <- IH. unfold scatter.
        transitivity (scatter_from 0 ds (vadd (vscal (fst p) (opt (on (snd p)) (v (snd p))))
          (fun i => lsum (fun p => fst p * opt (on (snd p)) (v (snd p)) i) l)) g).
        * apply (scatter_ext ds). intros i. unfold vadd, vscal. now rewrite lsum_cons.
        * now rewrite scatter_from_add, scatter_from_scal.
    - rewrite scatter_zero. symmetry. apply lsum_zero. intros p Hp. rewrite (any_false on p E Hp). cbn [opt].
      rewrite scatter_zero. unfold vzero. ring.
  Qed.

  Lemma sides p : same_sides ls -> In p ls -> has_skeleton (snd p) = true -> do_two_sided (snd p) = any two_sided_skeleton ls.
  Proof.
    intros HS Hp H. destruct (any two_sided_skeleton ls) eqn:E.
    - apply existsb_exists in E as (q & Hq & E). apply andb_prop in E as [E1 E2]. now rewrite (HS p q Hp Hq H E1).
    - pose proof (any_false _ p E Hp) as F. unfold two_sided_skeleton in F. rewrite H in F. exact F.
  Qed.

  Variables (x0 : X) (G : space) (e : env) (t : R) (x : nat -> X).
  Variable bnd : list (R * terms X) -> cell -> face -> nat -> R -> (nat -> X) -> vec.
  Let L := combine_with ap bnd ls.

  Lemma cell_combined c g :
    cell_value x0 G L t x c g = lsum (fun p => fst p * cell_value x0 G (snd p) t x c g) ls.
  Proof.
    unfold cell_value, L, combine_with. cbn. rewrite !run1_val, !scatter_wval, <- !lsum_plus.
    apply lsum_ext. intros p _. ring.
  Qed.

  Hypothesis HS : same_sides ls.
  Hypothesis HB : (forall c f i, bnd ls c f i t (gather x0 x (lfsu G (cid c))) =
      wval do_alpha_boundary (fun l => alpha_boundary l c f i t (gather x0 x (lfsu G (cid c)))) ls) \/ no_boundary ls.

  Lemma face_combined c q g :
    face_value x0 G e L t x c q g = lsum (fun p => fst p * face_value x0 G e (snd p) t x c q g) ls.
  Proof.
    destruct q as (i, f). unfold face_value.
    assert (SK : forall cond, (if cond || do_two_sided L then
          let a := opt2 (do_alpha_skeleton L) (alpha_skeleton L c f i t (gather x0 x (lfsu G (cid c))) (gather x0 x (lfsu G (outside f)))) in
          let l := opt2 (do_lambda_skeleton L) (lambda_skeleton L c f i t) in
          scatter (lfsv G (cid c)) (fst a) g + scatter (lfsv G (outside f)) (snd a) g +
          (scatter (lfsv G (cid c)) (fst l) g + scatter (lfsv G (outside f)) (snd l) g)
        else 0) = lsum (fun p => fst p * (if cond || do_two_sided (snd p) then
          let a := opt2 (do_alpha_skeleton (snd p)) (alpha_skeleton (snd p) c f i t (gather x0 x (lfsu G (cid c))) (gather x0 x (lfsu G (outside f)))) in
          let l := opt2 (do_lambda_skeleton (snd p)) (lambda_skeleton (snd p) c f i t) in
          scatter (lfsv G (cid c)) (fst a) g + scatter (lfsv G (outside f)) (snd a) g +
          (scatter (lfsv G (cid c)) (fst l) g + scatter (lfsv G (outside f)) (snd l) g)
        else 0)) ls).
    { intros cond.
      transitivity (lsum (fun p => fst p * (if cond || do_two_sided L then
          let a := opt2 (do_alpha_skeleton (snd p)) (alpha_skeleton (snd p) c f i t (gather x0 x (lfsu G (cid c))) (gather x0 x (lfsu G (outside f)))) in
          let l := opt2 (do_lambda_skeleton (snd p)) (lambda_skeleton (snd p) c f i t) in
          scatter (lfsv G (cid c)) (fst a) g + scatter (lfsv G (outside f)) (snd a) g +
          (scatter (lfsv G (cid c)) (fst l) g + scatter (lfsv G (outside f)) (snd l) g)
        else 0)) ls).
      - destruct (cond || do_two_sided L); [|symmetry; apply lsum_zero; intros; ring].
        cbv zeta. unfold L, combine_with. cbn [do_alpha_skeleton do_lambda_skeleton alpha_skeleton lambda_skeleton].
        rewrite !run2_val.
        assert (O1 : forall on (v : vec * vec), fst (opt2 on v) = opt on (fst v)) by (intros [] ?; reflexivity).
        assert (O2 : forall on (v : vec * vec), snd (opt2 on v) = opt on (snd v)) by (intros [] ?; reflexivity).
        rewrite !O1, !O2. cbn [fst snd]. rewrite !scatter_wval, <- !lsum_plus. apply lsum_ext. intros p _. rewrite !O1, !O2. ring.
      - apply lsum_ext. intros p Hp. destruct (has_skeleton (snd p)) eqn:K.
        + rewrite (sides p HS Hp K). reflexivity.
        + apply orb_false_elim in K as [K1 K2]. rewrite K1, K2. cbn [opt2 fst snd]. rewrite !scatter_zero. unfold vzero.
          destruct (cond || do_two_sided L), (cond || do_two_sided (snd p)); ring. }
    destruct (classify e f); [|apply SK| |apply SK].
    { symmetry. apply lsum_zero. intros; ring. }
    - unfold L, combine_with. cbn [do_alpha_boundary do_lambda_boundary alpha_boundary lambda_boundary].
      rewrite run1_val, scatter_wval.
      destruct HB as [B|B].
      + rewrite B, scatter_wval, <- lsum_plus. apply lsum_ext. intros p _. ring.
      + assert (F : any do_alpha_boundary ls = false).
        { destruct (any do_alpha_boundary ls) eqn:F; [|reflexivity]. apply existsb_exists in F as (p & Hp & F).
          rewrite (B p Hp) in F. discriminate. }
        rewrite F. cbn [opt]. rewrite scatter_zero. unfold vzero. rewrite Rplus_0_l. apply lsum_ext. intros p Hp.
        rewrite (B p Hp). cbn [opt]. rewrite scatter_zero. unfold vzero. ring.
  Qed.

  Theorem operator_combined cells g :
    operator_value x0 G e L t x cells g = lsum (fun p => fst p * operator_value x0 G e (snd p) t x cells g) ls.
  Proof.
    unfold operator_value.
    transitivity (lsum (fun c => lsum (fun p => fst p * (cell_value x0 G (snd p) t x c g +
       lsum (fun q => face_value x0 G e (snd p) t x c q g) (numbered e c))) ls) (filter (fun c => negb (skip_entity e c)) cells)).
    - apply lsum_ext. intros c _. rewrite cell_combined.
      rewrite (lsum_ext (fun q => face_value x0 G e L t x c q g)
        (fun q => lsum (fun p => fst p * face_value x0 G e (snd p) t x c q g) ls)) by (intros; apply face_combined).
      rewrite lsum_swap, <- lsum_plus. apply lsum_ext. intros p _. rewrite lsum_scal. ring.
    - rewrite lsum_swap. apply lsum_ext. intros p _. now rewrite lsum_scal.
  Qed.
End Value.

Section JValue.
  Variable ap : applier.
  Variable ls : list (R * summand).
  Hypothesis HA : adds ap summand ls.
  Variables (G : space) (e : env) (t : R) (x : vec).
  Variable L : terms R.
  Hypothesis L1 : do_alpha_volume L = any do_alpha_volume (residual_parts ls).
  Hypothesis L2 : do_alpha_skeleton L = any do_alpha_skeleton (residual_parts ls).
  Hypothesis L3 : do_alpha_boundary L = any do_alpha_boundary (residual_parts ls).
  Hypothesis L4 : do_alpha_post L = any do_alpha_post (residual_parts ls).
  Hypothesis L5 : do_two_sided L = any two_sided_skeleton (residual_parts ls).
  Hypothesis HS : same_sides (residual_parts ls).

  Lemma mrun1_val on v : mrun1 ap on v ls = wmval (fun l => on (fst l)) v ls.
  Proof. unfold mrun1. rewrite (addsm1 ap _ ls HA (fun l => on (fst l)) v). cbn [snd]. fx; fx. unfold macc, mzero. rewrite Rplus_0_l. apply Rmult_1_l. Qed.
  Lemma mrun4_val on v : mrun4 ap on v ls =
    ((wmval (fun l => on (fst l)) (fun l => fst (fst (v l))) ls, wmval (fun l => on (fst l)) (fun l => snd (fst (v l))) ls),
     (wmval (fun l => on (fst l)) (fun l => fst (snd (v l))) ls, wmval (fun l => on (fst l)) (fun l => snd (snd (v l))) ls)).
  Proof.
    unfold mrun4. rewrite (addsm4 ap _ ls HA (fun l => on (fst l)) v). cbn [fst snd].
    f_equal; f_equal; fx; fx; unfold macc, mzero; rewrite Rplus_0_l; apply Rmult_1_l.
  Qed.
  Lemma in_parts p : In p ls -> In (fst p, fst (snd p)) (residual_parts ls).
  Proof. intros H. apply in_map_iff. exists p. auto. Qed.
  Lemma parts_false on p : any on (residual_parts ls) = false -> In p ls -> on (fst (snd p)) = false.
  Proof. intros E Hp. apply (any_false (residual_parts ls) on (fst p, fst (snd p)) E). now apply in_parts. Qed.
  Lemma mscatter_wmval rows cols on v g h :
    mscatter rows cols (mopt (any on (residual_parts ls)) (wmval (fun l => on (fst l)) v ls)) g h =
    lsum (fun p => fst p * mscatter rows cols (mopt (on (fst (snd p))) (v (snd p))) g h) ls.
  Proof.
    destruct (any on (residual_parts ls)) eqn:E; cbn [mopt].
    - clear E HA L1 L2 L3 L4 L5 HS. unfold wmval. induction ls as [|p l IH].
      + rewrite lsum_nil. apply mscatter_zero.
      + rewrite lsum_cons, <- IH, Rplus_comm. rewrite <- mscatter_acc. f_equal. fx. fx. rewrite lsum_cons. unfold macc. ring.
    - rewrite mscatter_zero. symmetry. apply lsum_zero. intros p Hp. rewrite (parts_false on p E Hp). cbn [mopt].
      rewrite mscatter_zero. ring.
  Qed.
  Let J := combine_jacobian ap ls.

  Lemma cell_jac_combined c g h :
    cell_jac G L J t x c g h = lsum (fun p => fst p * cell_jac G (fst (snd p)) (snd (snd p)) t x c g h) ls.
  Proof.
    unfold cell_jac, J, combine_jacobian. cbn [j_volume j_post]. rewrite !mrun1_val, L1, L4.
    rewrite !mscatter_wmval, <- lsum_plus. apply lsum_ext. intros p _. ring.
  Qed.
  Lemma face_jac_combined c q g h :
    face_jac G e L J t x c q g h = lsum (fun p => fst p * face_jac G e (fst (snd p)) (snd (snd p)) t x c q g h) ls.
  Proof.
    destruct q as (i, f). unfold face_jac.
    assert (SK : (if ((outside f <? cid c)%nat || do_two_sided L) && do_alpha_skeleton L then
          let '((ss, sn), (ns, nn)) := j_skeleton J c f i t (gather 0 x (lfsu G (cid c))) (gather 0 x (lfsu G (outside f))) in
          mscatter (lfsv G (cid c)) (lfsu G (cid c)) ss g h + mscatter (lfsv G (cid c)) (lfsu G (outside f)) sn g h +
          mscatter (lfsv G (outside f)) (lfsu G (cid c)) ns g h + mscatter (lfsv G (outside f)) (lfsu G (outside f)) nn g h
        else 0) = lsum (fun p => fst p * (if ((outside f <? cid c)%nat || do_two_sided (fst (snd p))) && do_alpha_skeleton (fst (snd p)) then
          let '((ss, sn), (ns, nn)) := j_skeleton (snd (snd p)) c f i t (gather 0 x (lfsu G (cid c))) (gather 0 x (lfsu G (outside f))) in
          mscatter (lfsv G (cid c)) (lfsu G (cid c)) ss g h + mscatter (lfsv G (cid c)) (lfsu G (outside f)) sn g h +
          mscatter (lfsv G (outside f)) (lfsu G (cid c)) ns g h + mscatter (lfsv G (outside f)) (lfsu G (outside f)) nn g h
        else 0)) ls).
    { destruct (do_alpha_skeleton L) eqn:D.
      2: { rewrite andb_false_r. symmetry. apply lsum_zero. intros p Hp. rewrite (parts_false _ p (eq_sym L2) Hp), andb_false_r. ring. }
      rewrite andb_true_r.
      assert (SD : forall p, In p ls -> do_alpha_skeleton (fst (snd p)) = true -> do_two_sided (fst (snd p)) = do_two_sided L).
      { intros p Hp H. rewrite L5. apply (sides (residual_parts ls) (fst p, fst (snd p)) HS (in_parts p Hp)).
        unfold has_skeleton. cbn [fst snd]. now rewrite H. }
      destruct ((outside f <? cid c)%nat || do_two_sided L) eqn:K.
      - unfold J, combine_jacobian. cbn [j_skeleton]. rewrite mrun4_val.
        assert (M : forall rows cols (v : summand -> mat), mscatter rows cols (wmval (fun l => do_alpha_skeleton (fst l)) v ls) g h =
          lsum (fun p => fst p * mscatter rows cols (mopt (do_alpha_skeleton (fst (snd p))) (v (snd p))) g h) ls).
        { intros rows cols v. pose proof (mscatter_wmval rows cols do_alpha_skeleton v g h) as Q. rewrite <- L2 in Q. exact Q. }
        rewrite !M, <- !lsum_plus. apply lsum_ext. intros p Hp. destruct (do_alpha_skeleton (fst (snd p))) eqn:A.
        + rewrite (SD p Hp A), K. cbn [andb mopt].
          destruct (j_skeleton (snd (snd p)) c f i t (gather 0 x (lfsu G (cid c))) (gather 0 x (lfsu G (outside f)))) as ((ss, sn), (ns, nn)).
          cbn [fst snd]. ring.
        + rewrite andb_false_r. cbn [mopt]. rewrite !mscatter_zero. ring.
      - symmetry. apply lsum_zero. intros p Hp. destruct (do_alpha_skeleton (fst (snd p))) eqn:A; [|rewrite andb_false_r; ring].
        rewrite (SD p Hp A), K. cbn [andb]. ring. }
    destruct (classify e f); [|exact SK| |exact SK].
    { symmetry. apply lsum_zero. intros; ring. }
    - unfold J, combine_jacobian. cbn [j_boundary]. rewrite mrun1_val, L3. apply mscatter_wmval.
  Qed.
  Theorem jacobian_combined cells g h :
    jacobian_value G e L J t x cells g h = lsum (fun p => fst p * jacobian_value G e (fst (snd p)) (snd (snd p)) t x cells g h) ls.
  Proof.
    unfold jacobian_value.
    transitivity (lsum (fun c => lsum (fun p => fst p * (cell_jac G (fst (snd p)) (snd (snd p)) t x c g h +
       lsum (fun q => face_jac G e (fst (snd p)) (snd (snd p)) t x c q g h) (numbered e c))) ls) (filter (fun c => negb (skip_entity e c)) cells)).
    - apply lsum_ext. intros c _. rewrite cell_jac_combined.
      rewrite (lsum_ext (fun q => face_jac G e L J t x c q g h)
        (fun q => lsum (fun p => fst p * face_jac G e (fst (snd p)) (snd (snd p)) t x c q g h) ls)) by (intros; apply face_jac_combined).
      rewrite lsum_swap, <- lsum_plus. apply lsum_ext. intros p _. rewrite lsum_scal. ring.
    - rewrite lsum_swap. apply lsum_ext. intros p _. now rewrite lsum_scal.
  Qed.
End JValue.

(** ** Scaled operators *)
Lemma scaled_one k v w r : scaled_view k (call1 true v) [w] r = vacc w r (vscal k v).
Proof.
  unfold scaled_view. destruct (Req_EM_T k 0) as [->|]; fx; unfold call1, vacc, vadd, vscal; cbn [map wnth nth]; ring.
Qed.
Lemma scaled_two k v w w' r : scaled_view k (call2 true v) [w; w'] r =
  (vacc w (fst r) (vscal k (fst v)), vacc w' (snd r) (vscal k (snd v))).
Proof.
  unfold scaled_view. destruct r as (r1, r2). destruct (Req_EM_T k 0) as [->|]; unfold call2; cbn [fst snd]; f_equal; fx;
    unfold vacc, vadd, vscal; cbn [map wnth nth]; ring.
Qed.
Lemma scaled_mone k v w r : scaled_view k (mcall1 true v) [w] r = macc w r (fun i j => k * v i j).
Proof.
  unfold scaled_view. destruct (Req_EM_T k 0) as [->|]; fx; fx; unfold mcall1, macc; cbn [map wnth nth]; ring.
Qed.
Lemma scaled_mfour k v w1 w2 w3 w4 m : scaled_view k (mcall4 true v) [w1; w2; w3; w4] m =
  ((macc w1 (fst (fst m)) (fun i j => k * fst (fst v) i j), macc w2 (snd (fst m)) (fun i j => k * snd (fst v) i j)),
   (macc w3 (fst (snd m)) (fun i j => k * fst (snd v) i j), macc w4 (snd (snd m)) (fun i j => k * snd (snd v) i j))).
Proof.
  unfold scaled_view. destruct m as ((m1, m2), (m3, m4)). destruct (Req_EM_T k 0) as [->|]; unfold mcall4; cbn [fst snd];
    f_equal; f_equal; fx; fx; unfold macc; cbn [map wnth nth]; ring.
Qed.

Lemma scatter_scaled ds on k v g : scatter ds (opt on (vacc 1 vzero (vscal k v))) g = k * scatter ds (opt on v) g.
Proof.
  transitivity (scatter ds (vscal k (opt on v)) g); [|now rewrite scatter_scal].
  apply scatter_ext. intros i. destruct on; unfold opt, vacc, vadd, vscal, vzero; ring.
Qed.
Lemma mscatter_scaled rows cols on k v g h :
  mscatter rows cols (mopt on (macc 1 mzero (fun i j => k * v i j))) g h = k * mscatter rows cols (mopt on v) g h.
Proof.
  transitivity (mscatter rows cols (macc k mzero (mopt on v)) g h); [|rewrite mscatter_acc, mscatter_zero; ring].
  f_equal. fx. fx. destruct on; unfold mopt, macc, mzero; ring.
Qed.

Theorem operator_scaled {X} (x0 : X) G e k (l : terms X) t x cells g :
  operator_value x0 G e (scaled k l) t x cells g = k * operator_value x0 G e l t x cells g.
Proof.
  unfold operator_value. rewrite <- lsum_scal. apply lsum_ext. intros c _. rewrite Rmult_plus_distr_l. f_equal.
  - unfold cell_value, scaled. cbn. rewrite !scaled_one, !scatter_scaled. ring.
  - rewrite <- lsum_scal. apply lsum_ext. intros (i, f) _. unfold face_value.
    assert (O1 : forall on (v : vec * vec), fst (opt2 on v) = opt on (fst v)) by (intros [] ?; reflexivity).
    assert (O2 : forall on (v : vec * vec), snd (opt2 on v) = opt on (snd v)) by (intros [] ?; reflexivity).
    destruct (classify e f); unfold scaled; cbn; rewrite ?scaled_one, ?scaled_two, ?O1, ?O2; cbn [fst snd]; rewrite ?scatter_scaled;
      try ring; destruct (_ || _); ring.
Qed.
Theorem jacobian_scaled G e k l j t x cells g h :
  jacobian_value G e (scaled k l) (scaled_jacobian k j) t x cells g h = k * jacobian_value G e l j t x cells g h.
Proof.
  unfold jacobian_value. rewrite <- lsum_scal. apply lsum_ext. intros c _. rewrite Rmult_plus_distr_l. f_equal.
  - unfold cell_jac, scaled, scaled_jacobian. cbn. rewrite !scaled_mone, !mscatter_scaled. ring.
  - rewrite <- lsum_scal. apply lsum_ext. intros (i, f) _. unfold face_jac.
    assert (SK : (if ((outside f <? cid c)%nat || do_two_sided (scaled k l)) && do_alpha_skeleton (scaled k l) then
        let '((ss, sn), (ns, nn)) := j_skeleton (scaled_jacobian k j) c f i t (gather 0 x (lfsu G (cid c))) (gather 0 x (lfsu G (outside f))) in
        mscatter (lfsv G (cid c)) (lfsu G (cid c)) ss g h + mscatter (lfsv G (cid c)) (lfsu G (outside f)) sn g h +
        mscatter (lfsv G (outside f)) (lfsu G (cid c)) ns g h + mscatter (lfsv G (outside f)) (lfsu G (outside f)) nn g h
      else 0) = k * (if ((outside f <? cid c)%nat || do_two_sided l) && do_alpha_skeleton l then
        let '((ss, sn), (ns, nn)) := j_skeleton j c f i t (gather 0 x (lfsu G (cid c))) (gather 0 x (lfsu G (outside f))) in
        mscatter (lfsv G (cid c)) (lfsu G (cid c)) ss g h + mscatter (lfsv G (cid c)) (lfsu G (outside f)) sn g h +
        mscatter (lfsv G (outside f)) (lfsu G (cid c)) ns g h + mscatter (lfsv G (outside f)) (lfsu G (outside f)) nn g h
      else 0)).
    { change (do_two_sided (scaled k l)) with (do_two_sided l). change (do_alpha_skeleton (scaled k l)) with (do_alpha_skeleton l).
      destruct (_ && _); [|ring]. unfold scaled_jacobian. cbn [j_skeleton]. rewrite scaled_mfour.
      destruct (j_skeleton j c f i t _ _) as ((ss, sn), (ns, nn)). cbn [fst snd].
      rewrite (mscatter_scaled _ _ true k ss), (mscatter_scaled _ _ true k sn), (mscatter_scaled _ _ true k ns), (mscatter_scaled _ _ true k nn).
      cbn [mopt]. ring. }
    destruct (classify e f); [ring|exact SK| |exact SK].
    unfold scaled_jacobian, scaled. cbn [j_boundary do_alpha_boundary]. rewrite scaled_mone. apply mscatter_scaled.
Qed.

(** ** Patterns *)
Lemma pattern_val {A} (on : A -> bool) links ls :
  combine_pattern weighted_sum on links ls =
  flat_map (fun p => if Req_EM_T (fst p) 0 then [] else if on (snd p) then links (snd p) else []) ls.
Proof.
  unfold combine_pattern, weighted_sum. rewrite weighted_eq. cbn [snd].
  assert (H : forall c, fold_left (fun c p => if Req_EM_T (fst p) 0 then c else pattern_call on links (snd p) (map (fun a => a * fst p) []) c) ls c =
    c ++ flat_map (fun p => if Req_EM_T (fst p) 0 then [] else if on (snd p) then links (snd p) else []) ls).
  { induction ls as [|p l IH]; intros c; cbn [fold_left flat_map]; [now rewrite app_nil_r|]. rewrite IH.
    destruct (Req_EM_T (fst p) 0); [reflexivity|]. unfold pattern_call. destruct (on (snd p)); [now rewrite app_assoc|reflexivity]. }
  apply H.
Qed.
