(** Proofs about the fast DG operator: what a sweep adds up. *)
From Coq Require Import Lra.
From Verif Require Import CommonFacts EngineProofs EngineProofs2 EngineProofs3.
From Verif Require Export FastSpec.
Local Open Scope R_scope.

Lemma scatter_seq p n v g : scatter (seq p n) v g = if ((p <=? g) && (g <? p + n))%nat then v (g - p)%nat else 0.
Proof.
  unfold scatter. assert (H : forall n p k, scatter_from k (seq p n) v g = if ((p <=? g) && (g <? p + n))%nat then v (k + (g - p))%nat else 0).
  { clear. induction n as [|n IH]; intros p k; cbn [seq scatter_from].
    - unfold vzero. destruct (Nat.leb_spec p g); cbn [andb]; auto. destruct (Nat.ltb_spec g (p + 0)); auto. lia.
    - rewrite IH. destruct (Nat.eqb_spec p g) as [<-|N].
      + destruct (Nat.leb_spec (S p) p); [lia|]. destruct (Nat.leb_spec p p); [|lia]. destruct (Nat.ltb_spec p (p + S n)); [|lia].
        cbn [andb]. replace (k + (p - p))%nat with k by lia. lra.
      + destruct (Nat.leb_spec (S p) g); cbn [andb].
        * destruct (Nat.leb_spec p g); [|lia]. cbn [andb]. destruct (Nat.ltb_spec g (S p + n)), (Nat.ltb_spec g (p + S n)); try lia; try lra.
          replace (S k + (g - S p))%nat with (k + (g - p))%nat by lia. lra.
        * destruct (Nat.leb_spec p g); cbn [andb]; [lia|lra]. }
  apply H.
Qed.

Lemma alias_acc_value w p n v r g : alias_acc w p n v r g = r g + w * scatter (seq p n) v g.
Proof.
  rewrite scatter_seq. unfold alias_acc.
  assert (H : forall n b r, fold_left (fun r i => fun g => if (g =? p + i)%nat then r g + w * v i else r g) (seq b n) r g =
            r g + w * (if ((p + b <=? g) && (g <? p + b + n))%nat then v (g - p)%nat else 0)).
  { clear. induction n as [|n IH]; intros b r; cbn [seq fold_left].
    - destruct (Nat.leb_spec (p + b) g); cbn [andb]; [|lra]. destruct (Nat.ltb_spec g (p + b + 0)); [lia|lra].
    - rewrite IH. destruct (Nat.eqb_spec g (p + b)) as [->|N].
      + destruct (Nat.leb_spec (p + S b) (p + b)); [lia|]. destruct (Nat.leb_spec (p + b) (p + b)); [|lia].
        destruct (Nat.ltb_spec (p + b) (p + b + S n)); [|lia]. cbn [andb]. replace (p + b - p)%nat with b by lia. lra.
      + destruct (Nat.leb_spec (p + S b) g), (Nat.leb_spec (p + b) g); cbn [andb]; try lia; try lra.
        destruct (Nat.ltb_spec g (p + S b + n)), (Nat.ltb_spec g (p + b + S n)); try lia; lra. }
  rewrite H. now rewrite Nat.add_0_r.
Qed.

Lemma alias_read_gather {X} (x0 : X) x p n : alias_read x0 x p n = gather x0 x (seq p n).
Proof.
  apply FunctionalExtensionality.functional_extensionality. intros i. unfold alias_read, gather.
  destruct (Nat.ltb_spec i n) as [L|L].
  - rewrite (nth_error_nth' _ 0%nat) by now rewrite seq_length. now rewrite seq_nth.
  - rewrite (proj2 (nth_error_None _ _)); auto. now rewrite seq_length.
Qed.

Lemma malias_acc_value w p rows cols m a g h :
  malias_acc w p rows cols cols m a g h = a g h + w * mscatter (seq (fst p) rows) (seq (snd p) cols) m g h.
Proof.
  unfold malias_acc, mscatter.
  assert (I : forall i n b a, (b + n <= cols)%nat ->
    fold_left (fun a j => fun g h => let k := (i * cols + j)%nat in
      if ((g =? fst p + k / cols) && (h =? snd p + k mod cols))%nat then a g h + w * m i j else a g h) (seq b n) a g h =
    a g h + (if (g =? fst p + i)%nat then w * (if ((snd p + b <=? h) && (h <? snd p + b + n))%nat then m i (h - snd p)%nat else 0) else 0)).
  { induction n as [|n IH]; intros b a' B; cbn [seq fold_left].
    - destruct (Nat.leb_spec (snd p + b) h); cbn [andb]; [|destruct (_ =? _)%nat; lra]. destruct (Nat.ltb_spec h (snd p + b + 0)); [lia|destruct (_ =? _)%nat; lra].
    - rewrite IH by lia. cbv zeta.
      assert (D : ((i * cols + b) / cols = i)%nat) by (rewrite Nat.add_comm, Nat.div_add by lia; rewrite Nat.div_small by lia; lia).
      assert (M : ((i * cols + b) mod cols = b)%nat) by (rewrite Nat.add_comm, Nat.mod_add by lia; apply Nat.mod_small; lia).
      rewrite D, M. destruct (Nat.eqb_spec g (fst p + i)); cbn [andb]; [|lra].
      destruct (Nat.eqb_spec h (snd p + b)) as [->|N].
      + destruct (Nat.leb_spec (snd p + S b) (snd p + b)); [lia|]. destruct (Nat.leb_spec (snd p + b) (snd p + b)); [|lia].
        destruct (Nat.ltb_spec (snd p + b) (snd p + b + S n)); [|lia]. cbn [andb]. replace (snd p + b - snd p)%nat with b by lia. lra.
      + destruct (Nat.leb_spec (snd p + S b) h), (Nat.leb_spec (snd p + b) h); cbn [andb]; try lia; try lra.
        destruct (Nat.ltb_spec h (snd p + S b + n)), (Nat.ltb_spec h (snd p + b + S n)); try lia; lra. }
  rewrite scatter_seq.
  assert (H : forall n b a, fold_left (fun a i => fold_left (fun a j => fun g h => let k := (i * cols + j)%nat in
      if ((g =? fst p + k / cols) && (h =? snd p + k mod cols))%nat then a g h + w * m i j else a g h) (seq 0 cols) a) (seq b n) a g h =
    a g h + w * (if ((fst p + b <=? g) && (g <? fst p + b + n))%nat then scatter (seq (snd p) cols) (fun j => m (g - fst p)%nat j) h else 0)).
  { induction n as [|n IH]; intros b a'; cbn [seq fold_left].
    - destruct (Nat.leb_spec (fst p + b) g); cbn [andb]; [|lra]. destruct (Nat.ltb_spec g (fst p + b + 0)); [lia|lra].
    - rewrite IH, I by lia. rewrite scatter_seq, Nat.add_0_r. destruct (Nat.eqb_spec g (fst p + b)) as [->|N].
      + destruct (Nat.leb_spec (fst p + S b) (fst p + b)); [lia|]. destruct (Nat.leb_spec (fst p + b) (fst p + b)); [|lia].
        destruct (Nat.ltb_spec (fst p + b) (fst p + b + S n)); [|lia]. cbn [andb]. replace (fst p + b - fst p)%nat with b by lia. lra.
      + destruct (Nat.leb_spec (fst p + S b) g), (Nat.leb_spec (fst p + b) g); cbn [andb]; try lia; try lra.
        destruct (Nat.ltb_spec g (fst p + S b + n)), (Nat.ltb_spec g (fst p + b + S n)); try lia; lra. }
  rewrite H. now rewrite Nat.add_0_r.
Qed.

(** What the fast sweep adds for a face. *)
Definition fast_face_value {X} (x0 : X) G e L t x (p : part) (c : cell) (q : nat * face) (g : nat) : R :=
  match classify e (snd q) with
  | Skeleton | Periodic =>
      if fast_visit p (res_flags L) c (snd q) then near_value x0 G L t x c q g + far_value x0 G L t x c q g else 0
  | Boundary => boundary_value x0 G L t x c q g
  | Processor => 0
  end.
Definition fast_cells (e : env) (p : part) (cells : list cell) : list cell :=
  filter (fun c => negb (skip_entity e c)) (filter (fun c => negb (interior_border p) || own_cell p (cid c)) cells).
Definition fast_value {X} (x0 : X) G e L t x p cells g : R :=
  lsum (fun c => cell_value x0 G L t x c g + lsum (fun q => fast_face_value x0 G e L t x p c q g) (numbered e c)) (fast_cells e p cells).

Section Run.
  Context {X : Type} (x0 : X).
  Variables (F : fspace) (G : space) (L : terms X) (x : nat -> X) (a : la).
  Hypothesis HG : aliased F G.
  Let w := weight a. Let t := time a.
  Let step := fun (sr : fstate * vec) (y : call) => fast_step x0 F L x a y (fst sr) (snd sr).

  Definition runs (l : list call) (s s' : fstate) (d : vec) : Prop :=
    forall r, exists r', foldM step l (s, r) = Ok (s', r') /\ forall g, r' g = r g + w * d g.

  Lemma runs_nil s : runs [] s s vzero.
  Proof. intros r. exists r. split; auto. intros g. unfold vzero. lra. Qed.
  Lemma runs_app l l' s s' s'' d d' : runs l s s' d -> runs l' s' s'' d' -> runs (l ++ l') s s'' (vadd d d').
  Proof.
    intros A B r. destruct (A r) as (r' & E & H). destruct (B r') as (r'' & E' & H'). exists r''. split.
    - rewrite foldM_app, E. exact E'.
    - intros g. rewrite H', H. unfold vadd. lra.
  Qed.
  Lemma runs_ext l s s' d d' : (forall g, d g = d' g) -> runs l s s' d -> runs l s s' d'.
  Proof. intros E A r. destruct (A r) as (r' & E' & H). exists r'. split; auto. intros g. now rewrite H, E. Qed.
  Lemma runs_cons y l s s' s'' d d' : runs [y] s s' d -> runs l s' s'' d' -> runs (y :: l) s s'' (vadd d d').
  Proof. intros A B. change (y :: l) with ([y] ++ l). eapply runs_app; eauto. Qed.
  Lemma runs_state y s s' : (forall r, fast_step x0 F L x a y s r = Ok (s', r)) -> runs [y] s s' vzero.
  Proof. intros E r. exists r. split; [cbn; unfold step; cbn [fst snd]; now rewrite E|]. intros g. unfold vzero. lra. Qed.

  Let inside (c : cell) (s : fstate) := p_rl s = Some (v_data F (cid c)).
  Let inside_x (c : cell) (s : fstate) := p_sl s = Some (u_data F (cid c)).
  Let co n := gather x0 x (lfsu G n).
  Lemma co_alias n : alias_read x0 x (u_data F n) (u_size F) = co n.
  Proof. rewrite alias_read_gather. unfold co. now rewrite (proj1 (HG n)). Qed.

  Lemma acc_in_runs y c s on v needs : (forall r, fast_step x0 F L x a y s r = facc_in x0 F x (weight a) on v needs s r) ->
    inside c s -> (needs = true -> inside_x c s) -> (needs = false -> forall z z', v z = v z') ->
    runs [y] s s (fun g => scatter (lfsv G (cid c)) (opt on (v (co (cid c)))) g).
  Proof.
    intros E I IX NX r. cbn [foldM]. unfold step. cbn [fst snd]. rewrite E. unfold facc_in. destruct on; cbn [opt].
    - rewrite I. cbn [deref bind].
      assert (Q : exists q, (if needs then deref (p_sl s) else Ok 0%nat) = Ok q /\ v (alias_read x0 x q (u_size F)) = v (co (cid c))).
      { destruct needs; [rewrite (IX eq_refl); eexists; split; [reflexivity|now rewrite co_alias]|exists 0%nat; split; auto]. }
      destruct Q as (q & -> & Q). cbn [bind]. eexists. split; [reflexivity|]. intros g. rewrite alias_acc_value, Q. now rewrite (proj2 (HG (cid c))).
    - eexists. split; [reflexivity|]. intros g. rewrite scatter_zero. unfold vzero. lra.
  Qed.

  Lemma acc_both_runs y c f s on v needs : (forall r, fast_step x0 F L x a y s r = facc_both x0 F x (weight a) on v needs s r) ->
    inside c s -> p_rn s = Some (v_data F (outside f)) ->
    (needs = true -> inside_x c s /\ p_sn s = Some (u_data F (outside f))) -> (needs = false -> forall z z' y y', v z y = v z' y') ->
    runs [y] s s (fun g => scatter (lfsv G (cid c)) (fst (opt2 on (v (co (cid c)) (co (outside f))))) g +
                           scatter (lfsv G (outside f)) (snd (opt2 on (v (co (cid c)) (co (outside f))))) g).
  Proof.
    intros E I O IX NX r. cbn [foldM]. unfold step. cbn [fst snd]. rewrite E. unfold facc_both. destruct on; cbn [opt2 fst snd].
    - rewrite I, O. cbn [deref bind].
      assert (Q : exists q q', (if needs then deref (p_sl s) else Ok 0%nat) = Ok q /\ (if needs then deref (p_sn s) else Ok 0%nat) = Ok q' /\
                v (alias_read x0 x q (u_size F)) (alias_read x0 x q' (u_size F)) = v (co (cid c)) (co (outside f))).
      { destruct needs; [|exists 0%nat, 0%nat; auto]. destruct (IX eq_refl) as [A B]. rewrite A, B.
        do 2 eexists. split; [reflexivity|]. split; [reflexivity|]. now rewrite !co_alias. }
      destruct Q as (q & q' & -> & -> & Q). cbn [bind]. eexists. split; [reflexivity|]. intros g.
      rewrite !alias_acc_value, Q, (proj2 (HG (cid c))), (proj2 (HG (outside f))). fold w. lra.
    - eexists. split; [reflexivity|]. intros g. rewrite !scatter_zero. unfold vzero. lra.
  Qed.

  Lemma face_runs e p c i f s : inside c s -> inside_x c s ->
    exists s', runs (fast_face_calls e p (res_flags L) c i f) s s' (fast_face_value x0 G e L t x p c (i, f)) /\ inside c s' /\ inside_x c s'.
  Proof.
    intros I IX. unfold fast_face_calls, fast_face_value. cbn [snd].
    assert (SK : exists s', runs
      (if uv_skeleton (res_flags L) || v_skeleton (res_flags L) then
        if fast_visit p (res_flags L) c f then
          OnBindVOutside c f i :: AsmVSkeleton c f i ::
          (if uv_skeleton (res_flags L) then
             [OnBindUVOutside c f i; LoadOutside c f i; AsmUVSkeleton c f i; OnUnbindUVOutside c f i] else [])
          ++ [OnUnbindVOutside c f i]
        else []
      else []) s s' (fun g => if fast_visit p (res_flags L) c f then near_value x0 G L t x c (i, f) g + far_value x0 G L t x c (i, f) g else 0) /\ inside c s' /\ inside_x c s').
    { cbn [res_flags uv_skeleton v_skeleton]. fold (res_flags L). destruct (fast_visit p (res_flags L) c f).
      2:{ exists s. split; auto. destruct (_ || _); (eapply runs_ext; [|apply runs_nil]; reflexivity). }
      destruct (do_alpha_skeleton L) eqn:DA; [|destruct (do_lambda_skeleton L) eqn:DL]; cbn [orb app].
      - set (s1 := mkfstate (p_rl s) (Some (v_data F (outside f))) (p_sl s) (p_sn s)).
        set (s2 := mkfstate (p_rl s) (Some (v_data F (outside f))) (p_sl s) (Some (u_data F (outside f)))).
        set (s3 := mkfstate (p_rl s) None (p_sl s) (Some (u_data F (outside f)))).
        exists s3. split; [|split; assumption].
        eapply runs_ext; [|eapply runs_cons; [|eapply runs_cons; [|eapply runs_cons; [|eapply runs_cons; [|eapply runs_cons; [|eapply runs_cons; [|eapply runs_cons; [|apply runs_nil]]]]]]]].
        2: apply (runs_state _ s s1); reflexivity.
        2: apply (acc_both_runs (AsmVSkeleton c f i) c f s1 (do_lambda_skeleton L) (fun _ _ => lambda_skeleton L c f i t) false); auto; try discriminate; reflexivity.
        2: apply (runs_state _ s1 s2); reflexivity.
        2: apply (runs_state _ s2 s2); reflexivity.
        2: apply (acc_both_runs (AsmUVSkeleton c f i) c f s2 (do_alpha_skeleton L) (alpha_skeleton L c f i t) true); auto; try discriminate; reflexivity.
        2: apply (runs_state _ s2 s2); reflexivity.
        2: apply (runs_state _ s2 s3); reflexivity.
        intros g. unfold vadd, vzero, near_value, far_value. fold (co (cid c)) (co (outside f)). rewrite DA. lra.
      - set (s1 := mkfstate (p_rl s) (Some (v_data F (outside f))) (p_sl s) (p_sn s)).
        set (s3 := mkfstate (p_rl s) None (p_sl s) (p_sn s)).
        exists s3. split; [|split; assumption].
        eapply runs_ext; [|eapply runs_cons; [|eapply runs_cons; [|eapply runs_cons; [|apply runs_nil]]]].
        2: apply (runs_state _ s s1); reflexivity.
        2: apply (acc_both_runs (AsmVSkeleton c f i) c f s1 (do_lambda_skeleton L) (fun _ _ => lambda_skeleton L c f i t) false); auto; try discriminate; reflexivity.
        2: apply (runs_state _ s1 s3); reflexivity.
        intros g. unfold vadd, near_value, far_value. rewrite DA, DL. cbn [opt2 fst snd]. rewrite !scatter_zero. unfold vzero. lra.
      - exists s. split; auto. eapply runs_ext; [|apply runs_nil]. intros g. unfold near_value, far_value. rewrite DA, DL. cbn [opt2 fst snd].
        rewrite !scatter_zero. unfold vzero. lra. }
    destruct (classify e f); [|exact SK| |exact SK].
    - exists s. split; auto. cbn [res_flags uv_boundary v_boundary]. destruct (do_alpha_boundary L), (do_lambda_boundary L); cbn [orb];
        (eapply runs_ext; [|first [eapply runs_cons; [|eapply runs_cons; [|apply runs_nil]] | eapply runs_cons; [|apply runs_nil] | apply runs_nil];
          try (apply (runs_state _ s s); reflexivity)]; intros g; unfold vadd, vzero; lra).
    - exists s. split; auto.
      pose proof (acc_in_runs (AsmVBoundary c f i) c s (do_lambda_boundary L) (fun _ => lambda_boundary L c f i t) false (fun _ => eq_refl) I ltac:(discriminate) (fun _ _ _ => eq_refl)) as R1.
      pose proof (acc_in_runs (AsmUVBoundary c f i) c s (do_alpha_boundary L) (alpha_boundary L c f i t) true (fun _ => eq_refl) I (fun _ => IX) ltac:(discriminate)) as R2.
      cbn [res_flags uv_boundary v_boundary]. unfold boundary_value. fold (co (cid c)). destruct (do_alpha_boundary L), (do_lambda_boundary L); cbn [orb].
      + eapply runs_ext; [|eapply runs_cons; [exact R1|eapply runs_cons; [exact R2|apply runs_nil]]]. intros g. unfold vadd, vzero. lra.
      + eapply runs_ext; [|eapply runs_cons; [exact R1|eapply runs_cons; [exact R2|apply runs_nil]]]. intros g. unfold vadd, vzero. lra.
      + eapply runs_ext; [|eapply runs_cons; [exact R1|apply runs_nil]]. intros g. cbn [opt]. rewrite scatter_zero. unfold vadd, vzero. lra.
      + eapply runs_ext; [|apply runs_nil]. intros g. cbn [opt]. rewrite !scatter_zero. unfold vzero. lra.
  Qed.

  Lemma faces_runs e p c : forall fs i s, inside c s -> inside_x c s ->
    exists s', runs (fast_faces_calls e p (res_flags L) c i fs) s s'
      (fun g => lsum (fun q => fast_face_value x0 G e L t x p c q g) (let l := filter (fun f => negb (skip_intersection e c f)) fs in combine (seq i (length l)) l)) /\ inside c s' /\ inside_x c s'.
  Proof.
    induction fs as [|f fs IH]; intros i s I IX; cbn [fast_faces_calls filter].
    - exists s. split; auto. apply runs_nil.
    - destruct (skip_intersection e c f); cbn [negb]; [now apply IH|].
      destruct (face_runs e p c i f s I IX) as (s1 & R1 & I1 & IX1). destruct (IH (S i) s1 I1 IX1) as (s2 & R2 & I2 & IX2).
      exists s2. split; auto. eapply runs_ext; [|eapply runs_app; [exact R1|exact R2]].
      intros g. cbn [length seq combine]. rewrite lsum_cons. reflexivity.
  Qed.

  Lemma no_faces_zero e p c g : do_alpha_skeleton L || do_lambda_skeleton L || do_alpha_boundary L || do_lambda_boundary L = false ->
    lsum (fun q => fast_face_value x0 G e L t x p c q g) (numbered e c) = 0.
  Proof.
    intros H. apply orb_false_elim in H as [H H4]. apply orb_false_elim in H as [H H3]. apply orb_false_elim in H as [H1 H2].
    assert (Z : forall q, fast_face_value x0 G e L t x p c q g = 0).
    { intros [i f]. unfold fast_face_value, near_value, far_value, boundary_value. rewrite H1, H2, H3, H4. cbn [opt opt2 fst snd].
      rewrite !scatter_zero. unfold vzero. destruct (classify e _); try lra; destruct (fast_visit _ _ _ _); lra. }
    unfold lsum. induction (numbered e c) as [|q l IHl]; cbn; auto. rewrite Z, IHl. lra.
  Qed.

  Lemma cell_runs e p c s : skip_entity e c = false ->
    exists s', runs (fast_cell_calls e p (res_flags L) c) s s'
      (fun g => cell_value x0 G L t x c g + lsum (fun q => fast_face_value x0 G e L t x p c q g) (numbered e c)).
  Proof.
    intros SE. unfold fast_cell_calls. rewrite SE.
    set (s1 := mkfstate (Some (v_data F (cid c))) (p_rn s) (p_sl s) (p_sn s)).
    set (s2 := mkfstate (Some (v_data F (cid c))) (p_rn s) (Some (u_data F (cid c))) (p_sn s)).
    assert (I1 : inside c s1) by reflexivity. assert (I2 : inside c s2) by reflexivity. assert (IX2 : inside_x c s2) by reflexivity.
    pose proof (runs_state (OnBindV c) s s1 (fun _ => eq_refl)) as R1.
    pose proof (acc_in_runs (AsmVVolume c) c s1 (do_lambda_volume L) (fun _ => lambda_volume L c t) false (fun _ => eq_refl) I1 ltac:(discriminate) (fun _ _ _ => eq_refl)) as R2.
    pose proof (runs_state (OnBindUV c) s1 s2 (fun _ => eq_refl)) as R3.
    pose proof (runs_state (LoadInside c) s2 s2 (fun _ => eq_refl)) as R4.
    pose proof (acc_in_runs (AsmUVVolume c) c s2 (do_alpha_volume L) (alpha_volume L c t) true (fun _ => eq_refl) I2 (fun _ => IX2) ltac:(discriminate)) as R5.
    assert (R6 : exists s3, runs (if uv_skeleton (res_flags L) || v_skeleton (res_flags L) || uv_boundary (res_flags L) || v_boundary (res_flags L)
        then fast_faces_calls e p (res_flags L) c 0 (faces c) else []) s2 s3 (fun g => lsum (fun q => fast_face_value x0 G e L t x p c q g) (numbered e c)) /\
      inside c s3 /\ inside_x c s3).
    { cbn [res_flags uv_skeleton v_skeleton uv_boundary v_boundary]. fold (res_flags L).
      destruct (do_alpha_skeleton L || do_lambda_skeleton L || do_alpha_boundary L || do_lambda_boundary L) eqn:EF.
      - apply (faces_runs e p c (faces c) 0 s2 I2 IX2).
      - exists s2. split; auto. eapply runs_ext; [|apply runs_nil]. intros g. now rewrite no_faces_zero. }
    destruct R6 as (s3 & R6 & I3 & IX3).
    pose proof (acc_in_runs (AsmVPost c) c s3 (do_lambda_post L) (fun _ => lambda_post L c t) false (fun _ => eq_refl) I3 ltac:(discriminate) (fun _ _ _ => eq_refl)) as R7.
    pose proof (acc_in_runs (AsmUVPost c) c s3 (do_alpha_post L) (alpha_post L c t) true (fun _ => eq_refl) I3 (fun _ => IX3) ltac:(discriminate)) as R8.
    assert (R9 : runs (if uv_post (res_flags L) || v_post (res_flags L) then AsmVPost c :: (if uv_post (res_flags L) then [AsmUVPost c] else []) else []) s3 s3
      (fun g => scatter (lfsv G (cid c)) (opt (do_lambda_post L) (lambda_post L c t)) g + scatter (lfsv G (cid c)) (opt (do_alpha_post L) (alpha_post L c t (co (cid c)))) g)).
    { cbn [res_flags uv_post v_post]. destruct (do_alpha_post L), (do_lambda_post L); cbn [orb].
      - eapply runs_ext; [|eapply runs_cons; [exact R7|eapply runs_cons; [exact R8|apply runs_nil]]]. intros g. unfold vadd, vzero. lra.
      - eapply runs_ext; [|eapply runs_cons; [exact R7|eapply runs_cons; [exact R8|apply runs_nil]]]. intros g. unfold vadd, vzero. lra.
      - eapply runs_ext; [|eapply runs_cons; [exact R7|apply runs_nil]]. intros g. cbn [opt]. rewrite scatter_zero. unfold vadd, vzero. lra.
      - eapply runs_ext; [|apply runs_nil]. intros g. cbn [opt]. rewrite !scatter_zero. unfold vzero. lra. }
    set (s4 := mkfstate None (p_rn s3) (p_sl s3) (p_sn s3)).
    pose proof (runs_state (OnUnbindUV c) s3 s3 (fun _ => eq_refl)) as R10.
    pose proof (runs_state (OnUnbindV c) s3 s4 (fun _ => eq_refl)) as R11.
    exists s4. eapply runs_ext; [|eapply runs_cons; [exact R1|eapply runs_cons; [exact R2|eapply runs_cons; [exact R3|eapply runs_cons; [exact R4|eapply runs_cons; [exact R5|
      eapply runs_app; [exact R6|eapply runs_app; [exact R9|eapply runs_cons; [exact R10|eapply runs_cons; [exact R11|apply runs_nil]]]]]]]]]].
    intros g. unfold vadd, vzero, cell_value. fold (co (cid c)). lra.
  Qed.

  Lemma sweep_runs e p cells : forall s, exists s', runs (fast_sweep e p (res_flags L) cells) s s' (fast_value x0 G e L t x p cells).
  Proof.
    unfold fast_sweep, fast_value, fast_cells. generalize (filter (fun c => negb (interior_border p) || own_cell p (cid c)) cells) as l.
    induction l as [|c l IH]; intros s; cbn [flat_map filter].
    - exists s. apply runs_nil.
    - destruct (skip_entity e c) eqn:SE; cbn [negb].
      + unfold fast_cell_calls at 1. rewrite SE. apply IH.
      + destruct (cell_runs e p c s SE) as (s1 & R1). destruct (IH s1) as (s2 & R2). exists s2.
        eapply runs_ext; [|eapply runs_app; [exact R1|exact R2]]. intros g. now rewrite lsum_cons.
  Qed.

  Lemma fast_assembled e p cells s r : exists s' r', fast_residual x0 F L x e p cells a s r = Ok (s', r') /\
    forall g, r' g = r g + w * fast_value x0 G e L t x p cells g.
  Proof. destruct (sweep_runs e p cells s) as (s' & R). destruct (R r) as (r' & E & H). exists s', r'. auto. Qed.
End Run.
