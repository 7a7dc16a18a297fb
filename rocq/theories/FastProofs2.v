(** Proofs about the fast DG operator: the matrix. *)
From Coq Require Import Lra.
From Verif Require Import CommonFacts EngineProofs EngineProofs2 EngineProofs3.
From Verif Require Export FastProofs.
Local Open Scope R_scope.

Definition fast_face_jac G e L J t x (p : part) (c : cell) (q : nat * face) (g h : nat) : R :=
  match classify e (snd q) with
  | Skeleton | Periodic =>
      if fast_visit p (jac_flags L) c (snd q) then near_jac G L J t x c q g h + far_jac G L J t x c q g h else 0
  | Boundary => boundary_jac G L J t x c q g h
  | Processor => 0
  end.
Definition fast_jac_value G e L J t x p cells g h : R :=
  lsum (fun c => cell_jac G L J t x c g h + lsum (fun q => fast_face_jac G e L J t x p c q g h) (numbered e c)) (fast_cells e p cells).

Section Run.
  Variables (F : fspace) (G : space) (L : terms R) (J : jterms) (x : vec) (a : la).
  Hypothesis HG : aliased F G.
  Hypothesis HB : u_block F = u_size F.
  Let w := weight a. Let t := time a.
  Let step := fun (sr : fjstate * mat) (y : call) => fast_jstep F L J x a y (fst sr) (snd sr).

  Definition jruns (l : list call) (s s' : fjstate) (d : mat) : Prop :=
    forall r, exists r', foldM step l (s, r) = Ok (s', r') /\ forall g h, r' g h = r g h + w * d g h.

  Lemma jruns_nil s : jruns [] s s mzero.
  Proof. intros r. exists r. split; auto. intros g h. unfold mzero. lra. Qed.
  Lemma jruns_app l l' s s' s'' d d' : jruns l s s' d -> jruns l' s' s'' d' -> jruns (l ++ l') s s'' (madd d d').
  Proof.
    intros A B r. destruct (A r) as (r' & E & H). destruct (B r') as (r'' & E' & H'). exists r''. split.
    - rewrite foldM_app, E. exact E'.
    - intros g h. rewrite H', H. unfold madd. lra.
  Qed.
  Lemma jruns_ext l s s' d d' : (forall g h, d g h = d' g h) -> jruns l s s' d -> jruns l s s' d'.
  Proof. intros E A r. destruct (A r) as (r' & E' & H). exists r'. split; auto. intros g h. now rewrite H, E. Qed.
  Lemma jruns_cons y l s s' s'' d d' : jruns [y] s s' d -> jruns l s' s'' d' -> jruns (y :: l) s s'' (madd d d').
  Proof. intros A B. change (y :: l) with ([y] ++ l). eapply jruns_app; eauto. Qed.
  Lemma jruns_state y s s' : (forall r, fast_jstep F L J x a y s r = Ok (s', r)) -> jruns [y] s s' mzero.
  Proof. intros E r. exists r. split; [cbn; unfold step; cbn [fst snd]; now rewrite E|]. intros g h. unfold mzero. lra. Qed.

  Let inside (c : cell) (s : fjstate) := p_ss s = Some (v_data F (cid c), u_data F (cid c)) /\ p_xs s = Some (u_data F (cid c)).
  Let co n := gather 0 x (lfsu G n).
  Lemma jco_alias n : alias_read 0 x (u_data F n) (u_size F) = co n.
  Proof. rewrite alias_read_gather. unfold co. now rewrite (proj1 (HG n)). Qed.
  Lemma jacc_value c n b r g h : malias_acc (weight a) (v_data F c, u_data F n) (v_size F) (u_size F) (u_block F) b r g h =
    r g h + w * mscatter (lfsv G c) (lfsu G n) b g h.
  Proof. rewrite HB, malias_acc_value. cbn [fst snd]. now rewrite (proj1 (HG n)), (proj2 (HG c)). Qed.

  Lemma jacc_runs y c s on v : (forall r, fast_jstep F L J x a y s r = fjacc F x (weight a) on v s r) ->
    inside c s -> jruns [y] s s (fun g h => mscatter (lfsv G (cid c)) (lfsu G (cid c)) (mopt on (v (co (cid c)))) g h).
  Proof.
    intros E [I IX] r. cbn [foldM]. unfold step. cbn [fst snd]. rewrite E. unfold fjacc. destruct on; cbn [mopt].
    - rewrite I, IX. cbn [deref bind]. eexists. split; [reflexivity|]. intros g h. rewrite jacc_value. now rewrite jco_alias.
    - eexists. split; [reflexivity|]. intros g h. rewrite mscatter_zero. lra.
  Qed.

  Lemma jface_runs e p c i f s : inside c s ->
    exists s', jruns (fast_face_calls e p (jac_flags L) c i f) s s' (fast_face_jac G e L J t x p c (i, f)) /\ inside c s'.
  Proof.
    intros I. unfold fast_face_calls, fast_face_jac. cbn [snd].
    assert (SK : exists s', jruns
      (if uv_skeleton (jac_flags L) || v_skeleton (jac_flags L) then
        if fast_visit p (jac_flags L) c f then
          OnBindVOutside c f i :: AsmVSkeleton c f i ::
          (if uv_skeleton (jac_flags L) then
             [OnBindUVOutside c f i; LoadOutside c f i; AsmUVSkeleton c f i; OnUnbindUVOutside c f i] else [])
          ++ [OnUnbindVOutside c f i]
        else []
      else []) s s' (fun g h => if fast_visit p (jac_flags L) c f then near_jac G L J t x c (i, f) g h + far_jac G L J t x c (i, f) g h else 0) /\ inside c s').
    { destruct (fast_visit p (jac_flags L) c f).
      2:{ exists s. split; auto. destruct (_ || _); (eapply jruns_ext; [|apply jruns_nil]; reflexivity). }
      destruct (do_alpha_skeleton L) eqn:DA.
      - replace (uv_skeleton (jac_flags L)) with true by (cbn; now rewrite DA). cbn [orb app].
        set (s2 := mkfjstate (p_ss s) (Some (v_data F (cid c), u_data F (outside f))) (Some (v_data F (outside f), u_data F (cid c)))
                     (Some (v_data F (outside f), u_data F (outside f))) (p_xs s) (Some (u_data F (outside f)))).
        set (s3 := mkfjstate (p_ss s) None None None (p_xs s) (Some (u_data F (outside f)))).
        exists s3. split; [|exact I].
        assert (R : jruns [AsmUVSkeleton c f i] s2 s2 (fun g h => near_jac G L J t x c (i, f) g h + far_jac G L J t x c (i, f) g h)).
        { intros r. cbn [foldM]. unfold step. cbn [fst snd fast_jstep]. rewrite DA. destruct I as [I IX]. subst s2. cbn [p_ss p_asn p_ans p_ann p_xs p_xn].
          rewrite I, IX. cbn [deref bind]. rewrite !jco_alias. fold t. unfold near_jac, far_jac. fold (co (cid c)) (co (outside f)). rewrite DA.
          destruct (j_skeleton J c f i t (co (cid c)) (co (outside f))) as ((ss, sn), (ns, nn)). cbn [bind fst snd].
          eexists. split; [reflexivity|]. intros g h. rewrite !jacc_value. lra. }
        eapply jruns_ext; [|eapply jruns_cons; [|eapply jruns_cons; [|eapply jruns_cons; [|eapply jruns_cons; [|eapply jruns_cons; [exact R|eapply jruns_cons; [|eapply jruns_cons; [|apply jruns_nil]]]]]]]].
        2: apply (jruns_state _ s s); reflexivity.
        2: apply (jruns_state _ s s); reflexivity.
        2: apply (jruns_state _ s s2); reflexivity.
        2: apply (jruns_state _ s2 s2); reflexivity.
        2: apply (jruns_state _ s2 s3); reflexivity.
        2: apply (jruns_state _ s3 s3); reflexivity.
        intros g h. unfold madd, mzero. lra.
      - replace (uv_skeleton (jac_flags L)) with false by (cbn; now rewrite DA). replace (v_skeleton (jac_flags L)) with false by reflexivity. cbn [orb].
        exists s. split; auto. eapply jruns_ext; [|apply jruns_nil]. intros g h. unfold near_jac, far_jac. rewrite DA. unfold mzero. lra. }
    destruct (classify e f); [|exact SK| |exact SK].
    - exists s. split; auto. cbn [jac_flags uv_boundary v_boundary]. destruct (do_alpha_boundary L); cbn [orb];
        (eapply jruns_ext; [|first [eapply jruns_cons; [|eapply jruns_cons; [|apply jruns_nil]] | eapply jruns_cons; [|apply jruns_nil] | apply jruns_nil];
          try (apply (jruns_state _ s s); reflexivity)]; intros g h; unfold madd, mzero; lra).
    - exists s. split; auto.
      pose proof (jacc_runs (AsmUVBoundary c f i) c s (do_alpha_boundary L) (j_boundary J c f i t) (fun _ => eq_refl) I) as R2.
      pose proof (jruns_state (AsmVBoundary c f i) s s (fun _ => eq_refl)) as R1.
      cbn [jac_flags uv_boundary v_boundary]. unfold boundary_jac. fold (co (cid c)). destruct (do_alpha_boundary L); cbn [orb].
      + eapply jruns_ext; [|eapply jruns_cons; [exact R1|eapply jruns_cons; [exact R2|apply jruns_nil]]]. intros g h. unfold madd, mzero. lra.
      + eapply jruns_ext; [|apply jruns_nil]. intros g h. cbn [mopt]. rewrite !mscatter_zero. reflexivity.
  Qed.

  Lemma jfaces_runs e p c : forall fs i s, inside c s ->
    exists s', jruns (fast_faces_calls e p (jac_flags L) c i fs) s s'
      (fun g h => lsum (fun q => fast_face_jac G e L J t x p c q g h) (let l := filter (fun f => negb (skip_intersection e c f)) fs in combine (seq i (length l)) l)) /\ inside c s'.
  Proof.
    induction fs as [|f fs IH]; intros i s I; cbn [fast_faces_calls filter].
    - exists s. split; auto. apply jruns_nil.
    - destruct (skip_intersection e c f); cbn [negb]; [now apply IH|].
      destruct (jface_runs e p c i f s I) as (s1 & R1 & I1). destruct (IH (S i) s1 I1) as (s2 & R2 & I2).
      exists s2. split; auto. eapply jruns_ext; [|eapply jruns_app; [exact R1|exact R2]].
      intros g h. cbn [length seq combine]. rewrite lsum_cons. reflexivity.
  Qed.

  Lemma jno_faces_zero e p c g h : do_alpha_skeleton L || do_alpha_boundary L = false ->
    lsum (fun q => fast_face_jac G e L J t x p c q g h) (numbered e c) = 0.
  Proof.
    intros H. apply orb_false_elim in H as [H1 H2].
    assert (Z : forall q, fast_face_jac G e L J t x p c q g h = 0).
    { intros [i f]. unfold fast_face_jac, near_jac, far_jac, boundary_jac. rewrite H1, H2. cbn [mopt].
      rewrite !mscatter_zero. destruct (classify e _); try lra; destruct (fast_visit _ _ _ _); lra. }
    unfold lsum. induction (numbered e c) as [|q l IHl]; cbn; auto. rewrite Z, IHl. lra.
  Qed.

  Lemma jcell_runs e p c s : skip_entity e c = false ->
    exists s', jruns (fast_cell_calls e p (jac_flags L) c) s s'
      (fun g h => cell_jac G L J t x c g h + lsum (fun q => fast_face_jac G e L J t x p c q g h) (numbered e c)).
  Proof.
    intros SE. unfold fast_cell_calls. rewrite SE.
    set (s2 := mkfjstate (Some (v_data F (cid c), u_data F (cid c))) (p_asn s) (p_ans s) (p_ann s) (Some (u_data F (cid c))) (p_xn s)).
    assert (I2 : inside c s2) by (split; reflexivity).
    pose proof (jruns_state (OnBindV c) s s (fun _ => eq_refl)) as R1.
    pose proof (jruns_state (AsmVVolume c) s s (fun _ => eq_refl)) as R2.
    pose proof (jruns_state (OnBindUV c) s s2 (fun _ => eq_refl)) as R3.
    pose proof (jruns_state (LoadInside c) s2 s2 (fun _ => eq_refl)) as R4.
    pose proof (jacc_runs (AsmUVVolume c) c s2 (do_alpha_volume L) (j_volume J c t) (fun _ => eq_refl) I2) as R5.
    assert (R6 : exists s3, jruns (if uv_skeleton (jac_flags L) || v_skeleton (jac_flags L) || uv_boundary (jac_flags L) || v_boundary (jac_flags L)
        then fast_faces_calls e p (jac_flags L) c 0 (faces c) else []) s2 s3 (fun g h => lsum (fun q => fast_face_jac G e L J t x p c q g h) (numbered e c)) /\
      inside c s3).
    { replace (uv_skeleton (jac_flags L) || v_skeleton (jac_flags L) || uv_boundary (jac_flags L) || v_boundary (jac_flags L))
        with (do_alpha_skeleton L || do_alpha_boundary L) by (cbn; now destruct (do_alpha_skeleton L), (do_alpha_boundary L)).
      destruct (do_alpha_skeleton L || do_alpha_boundary L) eqn:EF.
      - apply (jfaces_runs e p c (faces c) 0 s2 I2).
      - exists s2. split; auto. eapply jruns_ext; [|apply jruns_nil]. intros g h. now rewrite jno_faces_zero. }
    destruct R6 as (s3 & R6 & I3).
    pose proof (jruns_state (AsmVPost c) s3 s3 (fun _ => eq_refl)) as R7.
    pose proof (jacc_runs (AsmUVPost c) c s3 (do_alpha_post L) (j_post J c t) (fun _ => eq_refl) I3) as R8.
    assert (R9 : jruns (if uv_post (jac_flags L) || v_post (jac_flags L) then AsmVPost c :: (if uv_post (jac_flags L) then [AsmUVPost c] else []) else []) s3 s3
      (fun g h => mscatter (lfsv G (cid c)) (lfsu G (cid c)) (mopt (do_alpha_post L) (j_post J c t (co (cid c)))) g h)).
    { cbn [jac_flags uv_post v_post]. destruct (do_alpha_post L); cbn [orb].
      - eapply jruns_ext; [|eapply jruns_cons; [exact R7|eapply jruns_cons; [exact R8|apply jruns_nil]]]. intros g h. unfold madd, mzero. lra.
      - eapply jruns_ext; [|apply jruns_nil]. intros g h. cbn [mopt]. now rewrite mscatter_zero. }
    set (s4 := mkfjstate None (p_asn s3) (p_ans s3) (p_ann s3) (p_xs s3) (p_xn s3)).
    pose proof (jruns_state (OnUnbindUV c) s3 s4 (fun _ => eq_refl)) as R10.
    pose proof (jruns_state (OnUnbindV c) s4 s4 (fun _ => eq_refl)) as R11.
    exists s4. eapply jruns_ext; [|eapply jruns_cons; [exact R1|eapply jruns_cons; [exact R2|eapply jruns_cons; [exact R3|eapply jruns_cons; [exact R4|eapply jruns_cons; [exact R5|
      eapply jruns_app; [exact R6|eapply jruns_app; [exact R9|eapply jruns_cons; [exact R10|eapply jruns_cons; [exact R11|apply jruns_nil]]]]]]]]]].
    intros g h. unfold madd, mzero, cell_jac. fold (co (cid c)). lra.
  Qed.

  Lemma jsweep_runs e p cells : forall s, exists s', jruns (fast_sweep e p (jac_flags L) cells) s s' (fast_jac_value G e L J t x p cells).
  Proof.
    unfold fast_sweep, fast_jac_value, fast_cells. generalize (filter (fun c => negb (interior_border p) || own_cell p (cid c)) cells) as l.
    induction l as [|c l IH]; intros s; cbn [flat_map filter].
    - exists s. apply jruns_nil.
    - destruct (skip_entity e c) eqn:SE; cbn [negb].
      + unfold fast_cell_calls at 1. rewrite SE. apply IH.
      + destruct (jcell_runs e p c s SE) as (s1 & R1). destruct (IH s1) as (s2 & R2). exists s2.
        eapply jruns_ext; [|eapply jruns_app; [exact R1|exact R2]]. intros g h. now rewrite lsum_cons.
  Qed.

  Lemma fast_jassembled e p cells s r : exists s' r', fast_jacobian F L J x e p cells a s r = Ok (s', r') /\
    forall g h, r' g h = r g h + w * fast_jac_value G e L J t x p cells g h.
  Proof. destruct (jsweep_runs e p cells s) as (s' & R). destruct (R r) as (r' & E & H). exists s', r'. auto. Qed.
End Run.
