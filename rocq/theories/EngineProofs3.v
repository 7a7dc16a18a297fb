From Coq Require Import FunctionalExtensionality.
From Verif Require Import DriverProofs EngineModel EngineSpec EngineProofs EngineProofs2.
Local Open Scope R_scope.

Lemma madd_zero_r m : madd m mzero = m. Proof. do 2 vext. unfold madd, mzero. lra. Qed.
Lemma macc_zero w m : macc w mzero m = fun i j => w * m i j. Proof. do 2 vext. unfold macc, mzero. lra. Qed.

Lemma scatter_ext ds u v g : (forall i, u i = v i) -> scatter ds u g = scatter ds v g.
Proof. intros H. f_equal. vext. apply H. Qed.

Lemma scatter_ext_in ds u v g : (forall i, (i < length ds)%nat -> u i = v i) -> scatter ds u g = scatter ds v g.
Proof.
  unfold scatter. intros H. assert (K : forall i, (0 <= i < 0 + length ds)%nat -> u i = v i) by (intros; apply H; lia). clear H.
  revert K. generalize 0%nat. induction ds as [|d ds IH]; intros k H; cbn [scatter_from length] in *; [reflexivity|].
  rewrite (H k) by lia. f_equal. apply IH. intros i I. apply H. lia.
Qed.
Lemma opt_ext_in ds (on : bool) u v g : (forall i, (i < length ds)%nat -> u i = v i) -> scatter ds (opt on u) g = scatter ds (opt on v) g.
Proof. intros H. destruct on; cbn [opt]; [now apply scatter_ext_in|reflexivity]. Qed.

Lemma mscatter_zero rows cols g h : mscatter rows cols mzero g h = 0.
Proof.
  unfold mscatter. rewrite (scatter_ext _ _ vzero). { now rewrite scatter_zero. }
  intros i. change (fun j => mzero i j) with vzero. now rewrite scatter_zero.
Qed.
Lemma mscatter_acc rows cols w m m' g h : mscatter rows cols (macc w m m') g h = mscatter rows cols m g h + w * mscatter rows cols m' g h.
Proof.
  unfold mscatter.
  rewrite (scatter_ext _ _ (vadd (fun i => scatter cols (fun j => m i j) h) (vscal w (fun i => scatter cols (fun j => m' i j) h)))).
  { rewrite scatter_add, scatter_scal. reflexivity. }
  intros i. change (fun j => macc w m m' i j) with (vadd (fun j => m i j) (vscal w (fun j => m' i j))).
  rewrite scatter_add, scatter_scal. reflexivity.
Qed.
Lemma macc_opt (on : bool) w m m' : (if on then macc w m m' else m) = macc w m (mopt on m').
Proof. destruct on; [reflexivity|]. do 2 vext. unfold macc, mopt, mzero. lra. Qed.

(** What the sweep must ask for on behalf of the derivative terms. *)
Definition jasks (L : terms R) (fl : flags) : Prop :=
  (do_alpha_skeleton L = true -> uv_skeleton fl = true) /\ (do_alpha_boundary L = true -> uv_boundary fl = true) /\
  (do_alpha_post L = true -> uv_post fl = true) /\
  (two_sided fl = do_two_sided L \/ do_alpha_skeleton L = false).

Section JSim.
  Variables (G : space) (e : env) (fl : flags) (L : terms R) (J : jterms) (a : la) (x : vec).
  Hypothesis A : jasks L fl.
  Let run := jac_run G L J a.

  Lemma jac_run_app l l' s m : run (l ++ l') s m = let (s', m') := run l s m in run l' s' m'.
  Proof.
    unfold run. revert s m. induction l as [|y l IH]; intros s m; cbn [jac_run app]; [reflexivity|].
    destruct (jac_step G L J a y s). apply IH.
  Qed.

  Definition bound (c : cell) (s : jest) : Prop :=
    jsol s = x /\ jxl s = gather 0 x (lfsu G (cid c)) /\ ss_dofs s = (lfsv G (cid c), lfsu G (cid c)).
  Definition jpend (c : cell) (s : jest) (m : mat) (g h : nat) : R :=
    m g h + mscatter (lfsv G (cid c)) (lfsu G (cid c)) (al s) g h.

  Lemma jacc_bound c on w m s : bound c s -> bound c (jacc on w m s).
  Proof. intros B. unfold jacc. destruct on; exact B. Qed.
  Lemma jacc_al on w m s : al (jacc on w m s) = macc w (al s) (mopt on m).
  Proof. rewrite <- macc_opt. unfold jacc. destruct on; reflexivity. Qed.

  Lemma jac_face c i f s m : bound c s ->
    let '(s', m') := run (face_calls e fl c i f) s m in
    bound c s' /\ forall g h, jpend c s' m' g h = jpend c s m g h + weight a * face_jac G e L J (time a) x c (i, f) g h.
  Proof.
    intros B. destruct A as (A1 & A2 & _ & A4).
    assert (SK : let '(s', m') := run
      (if uv_skeleton fl || v_skeleton fl then
         if (outside f <? cid c)%nat || two_sided fl then
          OnBindVOutside c f i :: AsmVSkeleton c f i ::
          (if uv_skeleton fl then
             [OnBindUVOutside c f i; LoadOutside c f i; AsmUVSkeleton c f i; OnUnbindUVOutside c f i] else [])
          ++ [OnUnbindVOutside c f i]
         else []
       else []) s m in
      bound c s' /\ forall g h, jpend c s' m' g h = jpend c s m g h + weight a *
        (if ((outside f <? cid c)%nat || do_two_sided L) && do_alpha_skeleton L then
          let '((ss, sn), (ns, nn)) := j_skeleton J c f i (time a) (gather 0 x (lfsu G (cid c))) (gather 0 x (lfsu G (outside f))) in
          mscatter (lfsv G (cid c)) (lfsu G (cid c)) ss g h + mscatter (lfsv G (cid c)) (lfsu G (outside f)) sn g h +
          mscatter (lfsv G (outside f)) (lfsu G (cid c)) ns g h + mscatter (lfsv G (outside f)) (lfsu G (outside f)) nn g h
        else 0)).
    { destruct (do_alpha_skeleton L) eqn:D.
      - rewrite (A1 eq_refl). cbn [orb]. destruct A4 as [->|?]; [|discriminate]. rewrite andb_true_r.
        destruct ((outside f <? cid c)%nat || do_two_sided L).
        + unfold run. cbn [app jac_run jac_step al al_sn al_ns al_nn jxl jxn jsol ss_dofs sn_d ns_d nn_d js_dofs jn_dofs].
          rewrite D. destruct B as (B1 & B2 & B3). rewrite B1, B2.
          destruct (j_skeleton J c f i (time a) (gather 0 x (lfsu G (cid c))) (gather 0 x (lfsu G (outside f)))) as [[ss sn] [ns nn]].
          cbn [fst snd al al_sn al_ns al_nn jxl jxn jsol ss_dofs sn_d ns_d nn_d js_dofs jn_dofs].
          split; [repeat split; assumption|]. intros g h. unfold jpend. cbn [al].
          rewrite !madd_zero_r. unfold madd. rewrite !mscatter_acc, !mscatter_zero. lra.
        + cbn. split; [exact B|]. intros. lra.
      - rewrite andb_false_r.
        destruct (uv_skeleton fl || v_skeleton fl); [|cbn; split; [exact B|intros; lra]].
        destruct ((outside f <? cid c)%nat || two_sided fl); [|cbn; split; [exact B|intros; lra]].
        destruct B as (B1 & B2 & B3).
        destruct (uv_skeleton fl); unfold run;
          cbn [app jac_run jac_step al al_sn al_ns al_nn jxl jxn jsol ss_dofs sn_d ns_d nn_d js_dofs jn_dofs]; rewrite ?D;
          cbn [app jac_run jac_step al al_sn al_ns al_nn jxl jxn jsol ss_dofs sn_d ns_d nn_d js_dofs jn_dofs fst snd];
          (split; [repeat split; assumption|]); intros g h; unfold jpend; cbn [al]; rewrite !madd_zero_r; try lra.
        unfold madd. rewrite !mscatter_zero. lra. }
    unfold face_calls, face_jac. destruct (classify e f); [|exact SK| |exact SK].
    - destruct (uv_boundary fl), (v_boundary fl); cbn; rewrite ?madd_zero_r; (split; [exact B|]); intros; lra.
    - clear SK. assert (P : forall l, (l = [] \/ l = [AsmVBoundary c f i]) -> do_alpha_boundary L = false ->
         let '(s', m') := run l s m in bound c s' /\ forall g h, jpend c s' m' g h = jpend c s m g h + weight a *
           mscatter (lfsv G (cid c)) (lfsu G (cid c)) (mopt (do_alpha_boundary L) (j_boundary J c f i (time a) (gather 0 x (lfsu G (cid c))))) g h).
      { intros l [-> | ->] E; rewrite E; cbn; rewrite ?madd_zero_r; (split; [exact B|]); intros; rewrite mscatter_zero; lra. }
      destruct (uv_boundary fl) eqn:U.
      + cbn [orb]. unfold run. cbn [jac_run jac_step]. rewrite !madd_zero_r. destruct B as (B1 & B2 & B3). rewrite B2.
        split; [apply jacc_bound; repeat split; assumption|]. intros g h. unfold jpend. rewrite jacc_al, mscatter_acc. lra.
      + apply P. { cbn [orb]. destruct (v_boundary fl); auto. }
        destruct (do_alpha_boundary L); [discriminate (A2 eq_refl)|reflexivity].
  Qed.

  Lemma jac_faces c : forall fs i s m, bound c s ->
    let '(s', m') := run (faces_calls e fl c i fs) s m in
    bound c s' /\ forall g h, jpend c s' m' g h = jpend c s m g h + weight a *
      lsum (fun p => face_jac G e L J (time a) x c p g h)
        (let l := filter (fun f => negb (skip_intersection e c f)) fs in combine (seq i (length l)) l).
  Proof.
    induction fs as [|f fs IH]; intros i s m B; cbn [faces_calls filter].
    { cbn. split; [exact B|]. intros. lra. }
    destruct (skip_intersection e c f); cbn [negb]; [now apply IH|].
    rewrite jac_run_app. pose proof (jac_face c i f s m B) as F. destruct (run (face_calls e fl c i f) s m) as [s1 m1].
    destruct F as [B1 F]. pose proof (IH (S i) s1 m1 B1) as H. destruct (run (faces_calls e fl c (S i) fs) s1 m1) as [s2 m2].
    destruct H as [B2 H]. split; [exact B2|]. intros g h. rewrite H, F. cbn [length seq combine]. rewrite lsum_cons. lra.
  Qed.

  Lemma jac_cell c s m : jsol s = x ->
    let '(s', m') := run (cell_calls e fl c) s m in
    jsol s' = x /\ forall g h, m' g h = m g h + weight a *
      (if skip_entity e c then 0 else cell_jac G L J (time a) x c g h + lsum (fun p => face_jac G e L J (time a) x c p g h) (numbered e c)).
  Proof.
    intros S1. unfold cell_calls. destruct (skip_entity e c). { cbn. split; [exact S1|]. intros. lra. }
    rewrite jac_run_app. unfold run at 1. cbn [jac_run jac_step].
    match goal with |- context [jacc ?o ?w ?mm ?s] => set (s0 := s) end.
    match goal with |- context [jacc ?o ?w ?mm s0] => set (s1 := jacc o w mm s0) end.
    assert (B0 : bound c s0) by (unfold bound, s0; cbn; rewrite S1; repeat split).
    assert (B1 : bound c s1) by (apply jacc_bound, B0).
    assert (E1 : al s1 = macc (weight a) mzero (mopt (do_alpha_volume L) (j_volume J c (time a) (gather 0 x (lfsu G (cid c)))))).
    { unfold s1. rewrite jacc_al. cbn [al s0 jxl]. rewrite ?S1. reflexivity. }
    clearbody s1. rewrite !madd_zero_r.
    rewrite jac_run_app.
    assert (F : let '(s', m') := run (if uv_skeleton fl || v_skeleton fl || uv_boundary fl || v_boundary fl
                                      then faces_calls e fl c 0 (faces c) else []) s1 m in
      bound c s' /\ forall g h, jpend c s' m' g h = jpend c s1 m g h + weight a *
        lsum (fun p => face_jac G e L J (time a) x c p g h) (numbered e c)).
    { destruct (uv_skeleton fl || v_skeleton fl || uv_boundary fl || v_boundary fl) eqn:E; [now apply jac_faces|].
      cbn. split; [exact B1|]. intros g h. rewrite lsum_zero; [lra|]. intros [i f] _. unfold face_jac.
      destruct A as (A1 & A2 & _). apply orb_false_elim in E; destruct E as [E _].
      apply orb_false_elim in E; destruct E as [E E3]. apply orb_false_elim in E; destruct E as [E2 _].
      destruct (do_alpha_skeleton L); [rewrite (A1 eq_refl) in E2; discriminate|].
      destruct (do_alpha_boundary L); [rewrite (A2 eq_refl) in E3; discriminate|].
      rewrite andb_false_r. destruct (classify e f); try reflexivity. apply mscatter_zero. }
    destruct (run (if uv_skeleton fl || v_skeleton fl || uv_boundary fl || v_boundary fl
                   then faces_calls e fl c 0 (faces c) else []) s1 m) as [s2 m2].
    destruct F as [B2 F]. rewrite jac_run_app.
    assert (H : let '(s', m') := run (if uv_post fl || v_post fl then AsmVPost c :: (if uv_post fl then [AsmUVPost c] else []) else []) s2 m2 in
      bound c s' /\ m' = m2 /\ al s' = macc (weight a) (al s2) (mopt (do_alpha_post L) (j_post J c (time a) (gather 0 x (lfsu G (cid c)))))).
    { destruct A as (_ & _ & A3 & _). destruct B2 as (C1 & C2 & C3).
      destruct (uv_post fl) eqn:U.
      - cbn [orb]. unfold run. cbn [jac_run jac_step]. rewrite !madd_zero_r, C2. split; [apply jacc_bound; repeat split; assumption|].
        split; [reflexivity|]. apply jacc_al.
      - destruct (do_alpha_post L); [discriminate (A3 eq_refl)|]. rewrite <- macc_opt.
        destruct (v_post fl); cbn; rewrite ?madd_zero_r; repeat split; assumption. }
    destruct (run (if uv_post fl || v_post fl then AsmVPost c :: (if uv_post fl then [AsmUVPost c] else []) else []) s2 m2) as [s3 m3].
    destruct H as ((C1 & C2 & C3) & -> & H). unfold run. cbn [jac_run jac_step]. split; [exact C1|].
    intros g h. rewrite madd_zero_r, C3. cbn [fst snd]. unfold madd. rewrite H, mscatter_acc.
    specialize (F g h). unfold jpend in F. rewrite E1, mscatter_acc, mscatter_zero in F. unfold cell_jac. lra.
  Qed.

  Lemma jac_sweep cells : forall s m, jsol s = x ->
    forall g h, snd (run (sweep e fl cells) s m) g h = m g h + weight a * jacobian_value G e L J (time a) x cells g h.
  Proof.
    unfold sweep, jacobian_value. induction cells as [|c cells IH]; intros s m S1 g h; cbn [flat_map filter].
    { cbn. lra. }
    rewrite jac_run_app. pose proof (jac_cell c s m S1) as C. destruct (run (cell_calls e fl c) s m) as [s1 m1].
    destruct C as [S2 C]. rewrite (IH s1 m1 S2), C. destruct (skip_entity e c); cbn [negb]; rewrite ?lsum_cons; lra.
  Qed.
End JSim.

Lemma jac_flags_ask L : jasks L (jac_flags L).
Proof. unfold jasks, jac_flags; cbn. auto. Qed.

Theorem assembled_jacobian G L J e cells a s x m g h :
  assemble_jacobian G L J e cells a s x m g h = m g h + weight a * jacobian_value G e L J (time a) x cells g h.
Proof. unfold assemble_jacobian. apply jac_sweep; [apply jac_flags_ask|reflexivity]. Qed.

(** ** Matrix times vector *)
Lemma nsum_ext n f g : (forall i, (i < n)%nat -> f i = g i) -> nsum n f = nsum n g.
Proof. induction n as [|n IH]; intros H; cbn [nsum]; [reflexivity|]. rewrite IH, H; auto. Qed.
Lemma nsum_zero n : nsum n (fun _ => 0) = 0. Proof. induction n; cbn [nsum]; lra. Qed.
Lemma nsum_plus n f g : nsum n (fun i => f i + g i) = nsum n f + nsum n g.
Proof. induction n as [|n IH]; cbn [nsum]; [lra|]. rewrite IH. lra. Qed.
Lemma nsum_scal n w f : nsum n (fun i => w * f i) = w * nsum n f.
Proof. induction n as [|n IH]; cbn [nsum]; [lra|]. rewrite IH. lra. Qed.
Lemma nsum_single n k v : (k < n)%nat -> nsum n (fun i => if (k =? i)%nat then v i else 0) = v k.
Proof.
  intros H. induction n as [|n IH]; [lia|]. cbn [nsum]. destruct (Nat.eqb_spec k n).
  - subst k. rewrite (nsum_ext n _ (fun _ => 0)); [rewrite nsum_zero; lra|].
    intros i I. destruct (Nat.eqb_spec n i); [lia|reflexivity].
  - rewrite IH by lia. lra.
Qed.
Lemma nsum_lsum {A} n (f : A -> nat -> R) l : nsum n (fun h => lsum (fun a => f a h) l) = lsum (fun a => nsum n (f a)) l.
Proof.
  induction l as [|x l IH]; [apply nsum_zero|]. rewrite (nsum_ext n _ (fun h => f x h + lsum (fun a => f a h) l)) by reflexivity.
  rewrite nsum_plus, IH. reflexivity.
Qed.
Lemma nsum_shift n f : nsum (S n) f = f O + nsum n (fun i => f (S i)).
Proof. induction n as [|n IH]; [cbn [nsum]; lra|]. cbn [nsum] in *. rewrite IH. lra. Qed.

Lemma scatter_dot N ds (z v : vec) : (forall g, In g ds -> (g < N)%nat) -> forall i,
  nsum N (fun h => scatter_from i ds v h * z h) = nsum (length ds) (fun j => v (i + j)%nat * gather 0 z ds j).
Proof.
  induction ds as [|d ds IH]; intros H i.
  { cbn [length scatter_from nsum]. rewrite (nsum_ext _ _ (fun _ => 0)); [apply nsum_zero|]. intros. unfold vzero. lra. }
  cbn [length]. rewrite nsum_shift. cbn [scatter_from].
  rewrite (nsum_ext N _ (fun h => (if (d =? h)%nat then v i * z h else 0) + scatter_from (S i) ds v h * z h)).
  2:{ intros h _. destruct (d =? h)%nat; lra. }
  rewrite nsum_plus, (nsum_single N d (fun h => v i * z h)) by (apply H; now left).
  rewrite IH by (intros; apply H; now right). rewrite Nat.add_0_r. unfold gather at 2. cbn [nth_error].
  f_equal. apply nsum_ext. intros j _. replace (i + S j)%nat with (S i + j)%nat by lia. reflexivity.
Qed.

Lemma scatter_linear ds v g : forall i, scatter_from i ds v g = nsum (length ds) (fun j => if (nth j ds O =? g)%nat then v (i + j)%nat else 0).
Proof.
  induction ds as [|d ds IH]; intros i; cbn [scatter_from length]; [reflexivity|].
  rewrite nsum_shift, IH. cbn [nth]. rewrite Nat.add_0_r. f_equal. apply nsum_ext. intros j _.
  replace (i + S j)%nat with (S i + j)%nat by lia. reflexivity.
Qed.

Lemma nsum_swap n k (f : nat -> nat -> R) : nsum n (fun i => nsum k (f i)) = nsum k (fun j => nsum n (fun i => f i j)).
Proof.
  induction n as [|n IH]; cbn [nsum]; [now rewrite nsum_zero|]. rewrite IH, <- nsum_plus. reflexivity.
Qed.

Lemma mv_mscatter N rows cols m z g : (forall h, In h cols -> (h < N)%nat) ->
  nsum N (fun h => mscatter rows cols m g h * z h) = scatter rows (mv (length cols) m (gather 0 z cols)) g.
Proof.
  intros H. unfold mscatter, scatter at 1 3. rewrite scatter_linear.
  rewrite (nsum_ext N _ (fun h => nsum (length rows) (fun i => (if (nth i rows O =? g)%nat then 1 else 0) * (scatter cols (fun j => m i j) h * z h)))).
  2:{ intros h _. rewrite scatter_linear, Rmult_comm, <- nsum_scal. apply nsum_ext. intros i _. cbn. destruct (_ =? g)%nat; lra. }
  rewrite nsum_swap. apply nsum_ext. intros i _. rewrite nsum_scal.
  unfold mv. cbn [plus]. unfold scatter. rewrite (scatter_dot N cols z (fun j => m i j) H 0). cbn [plus].
  destruct (_ =? g)%nat; lra.
Qed.

(** ** The matrix is the derivative, and jacobian_apply its product with the update *)
Lemma gather_along x z s ds : gather 0 (along x z s) ds = along (gather 0 x ds) (gather 0 z ds) s.
Proof. vext. unfold gather, along, vadd, vscal. destruct (nth_error ds x0); lra. Qed.

Lemma scatter_derivable ds (f : R -> vec) (v : vec) g :
  forall k, (forall i, (k <= i < k + length ds)%nat -> derivable_pt_lim (fun s => f s i) 0 (v i)) ->
  derivable_pt_lim (fun s => scatter_from k ds (f s) g) 0 (scatter_from k ds v g).
Proof.
  induction ds as [|d ds IH]; intros k H; cbn [scatter_from length] in *.
  { unfold vzero. apply derivable_pt_lim_const. }
  apply (derivable_pt_lim_plus (fun s => if (d =? g)%nat then f s k else 0) (fun s => scatter_from (S k) ds (f s) g)).
  - destruct (d =? g)%nat; [apply H; lia|apply derivable_pt_lim_const].
  - apply IH. intros i I. apply H. lia.
Qed.

Lemma lsum_derivable {A} (f : R -> A -> R) (v : A -> R) l :
  (forall y, In y l -> derivable_pt_lim (fun s => f s y) 0 (v y)) -> derivable_pt_lim (fun s => lsum (f s) l) 0 (lsum v l).
Proof.
  induction l as [|y l IH]; intros H.
  { unfold lsum. cbn [fold_right]. apply derivable_pt_lim_const. }
  apply (derivable_pt_lim_plus (fun s => f s y) (fun s => lsum (f s) l)).
  - apply H. now left.
  - apply IH. intros u U. apply H. now right.
Qed.

Lemma derivable_pt_lim_plus' f g x l m : derivable_pt_lim f x l -> derivable_pt_lim g x m ->
  derivable_pt_lim (fun s => f s + g s) x (l + m).
Proof. intros F H. exact (derivable_pt_lim_plus f g x l m F H). Qed.

Lemma lsum_derivable_at {A} (f : R -> A -> R) (v : A -> R) l :
  (forall y, derivable_pt_lim (fun s => f s y) 0 (v y)) -> derivable_pt_lim (fun s => lsum (f s) l) 0 (lsum v l).
Proof. intros H. apply lsum_derivable. auto. Qed.

Section Derivative.
  Variables (G : space) (e : env) (L : terms R) (J : jterms) (t : R) (N : nat).
  Hypothesis DB : dofs_below N G.

  Let prod (x z : vec) (c : cell) (g : nat) : R :=
    scatter (lfsv G (cid c)) (opt (do_alpha_volume L) (mv (length (lfsu G (cid c))) (j_volume J c t (gather 0 x (lfsu G (cid c)))) (gather 0 z (lfsu G (cid c))))) g +
    scatter (lfsv G (cid c)) (opt (do_alpha_post L) (mv (length (lfsu G (cid c))) (j_post J c t (gather 0 x (lfsu G (cid c)))) (gather 0 z (lfsu G (cid c))))) g.
  Let fprod (x z : vec) (c : cell) (p : nat * face) (g : nat) : R :=
    let (i, f) := p in
    match classify e f with
    | Skeleton | Periodic =>
        if (outside f <? cid c)%nat || do_two_sided L then
          if do_alpha_skeleton L then
          let '((ss, sn), (ns, nn)) := j_skeleton J c f i t (gather 0 x (lfsu G (cid c))) (gather 0 x (lfsu G (outside f))) in
          let n := length (lfsu G (cid c)) in let n' := length (lfsu G (outside f)) in
          let z1 := gather 0 z (lfsu G (cid c)) in let z2 := gather 0 z (lfsu G (outside f)) in
          scatter (lfsv G (cid c)) (vadd (mv n ss z1) (mv n' sn z2)) g +
          scatter (lfsv G (outside f)) (vadd (mv n ns z1) (mv n' nn z2)) g
          else 0
        else 0
    | Boundary => scatter (lfsv G (cid c)) (opt (do_alpha_boundary L) (mv (length (lfsu G (cid c))) (j_boundary J c f i t (gather 0 x (lfsu G (cid c)))) (gather 0 z (lfsu G (cid c))))) g
    | Processor => 0
    end.

  Lemma mopt_prod rows (on : bool) c m z g :
    nsum N (fun h => mscatter rows (lfsu G c) (mopt on m) g h * z h) =
    scatter rows (opt on (mv (length (lfsu G c)) m (gather 0 z (lfsu G c)))) g.
  Proof.
    destruct on; cbn [mopt opt]; [apply mv_mscatter; intros; eapply DB; eauto|].
    rewrite scatter_zero. rewrite (nsum_ext _ _ (fun _ => 0)); [apply nsum_zero|]. intros. rewrite mscatter_zero. lra.
  Qed.

  Lemma mv_jacobian x z cells g :
    mv N (jacobian_value G e L J t x cells) z g =
    lsum (fun c => prod x z c g + lsum (fun p => fprod x z c p g) (numbered e c)) (filter (fun c => negb (skip_entity e c)) cells).
  Proof.
    unfold mv, jacobian_value.
    rewrite (nsum_ext N _ (fun h => lsum (fun c => (cell_jac G L J t x c g h + lsum (fun p => face_jac G e L J t x c p g h) (numbered e c)) * z h)
      (filter (fun c => negb (skip_entity e c)) cells))).
    2:{ intros h _. rewrite Rmult_comm, <- lsum_scal. apply lsum_ext. intros. lra. }
    rewrite nsum_lsum. apply lsum_ext. intros c _.
    rewrite (nsum_ext N _ (fun h => cell_jac G L J t x c g h * z h + lsum (fun p => face_jac G e L J t x c p g h * z h) (numbered e c))).
    2:{ intros h _. rewrite Rmult_plus_distr_r. f_equal. rewrite Rmult_comm, <- lsum_scal. apply lsum_ext. intros. lra. }
    rewrite nsum_plus, nsum_lsum. f_equal.
    - unfold cell_jac, prod.
      rewrite (nsum_ext N _ (fun h =>
        mscatter (lfsv G (cid c)) (lfsu G (cid c)) (mopt (do_alpha_volume L) (j_volume J c t (gather 0 x (lfsu G (cid c))))) g h * z h +
        mscatter (lfsv G (cid c)) (lfsu G (cid c)) (mopt (do_alpha_post L) (j_post J c t (gather 0 x (lfsu G (cid c))))) g h * z h))
        by (intros; lra).
      rewrite nsum_plus, !mopt_prod. reflexivity.
    - apply lsum_ext. intros [i f] _. unfold face_jac, fprod. destruct (classify e f).
      + rewrite (nsum_ext N _ (fun _ => 0)) by (intros; lra). apply nsum_zero.
      + destruct ((outside f <? cid c)%nat || do_two_sided L), (do_alpha_skeleton L); cbn [andb];
          try (rewrite (nsum_ext N _ (fun _ => 0)) by (intros; lra); apply nsum_zero).
        destruct (j_skeleton J c f i t (gather 0 x (lfsu G (cid c))) (gather 0 x (lfsu G (outside f)))) as [[ss sn] [ns nn]].
        rewrite (nsum_ext N _ (fun h => mscatter (lfsv G (cid c)) (lfsu G (cid c)) ss g h * z h +
          mscatter (lfsv G (cid c)) (lfsu G (outside f)) sn g h * z h +
          (mscatter (lfsv G (outside f)) (lfsu G (cid c)) ns g h * z h +
           mscatter (lfsv G (outside f)) (lfsu G (outside f)) nn g h * z h))) by (intros; lra).
        rewrite !nsum_plus, !mv_mscatter by (intros; eapply DB; eauto). rewrite !scatter_add. reflexivity.
      + apply mopt_prod.
      + destruct ((outside f <? cid c)%nat || do_two_sided L), (do_alpha_skeleton L); cbn [andb];
          try (rewrite (nsum_ext N _ (fun _ => 0)) by (intros; lra); apply nsum_zero).
        destruct (j_skeleton J c f i t (gather 0 x (lfsu G (cid c))) (gather 0 x (lfsu G (outside f)))) as [[ss sn] [ns nn]].
        rewrite (nsum_ext N _ (fun h => mscatter (lfsv G (cid c)) (lfsu G (cid c)) ss g h * z h +
          mscatter (lfsv G (cid c)) (lfsu G (outside f)) sn g h * z h +
          (mscatter (lfsv G (outside f)) (lfsu G (cid c)) ns g h * z h +
           mscatter (lfsv G (outside f)) (lfsu G (outside f)) nn g h * z h))) by (intros; lra).
        rewrite !nsum_plus, !mv_mscatter by (intros; eapply DB; eauto). rewrite !scatter_add. reflexivity.
  Qed.

  Lemma opt_derivable (on : bool) ds (f : R -> vec) v g :
    (forall i, (i < length ds)%nat -> derivable_pt_lim (fun s => f s i) 0 (v i)) ->
    derivable_pt_lim (fun s => scatter ds (opt on (f s)) g) 0 (scatter ds (opt on v) g).
  Proof.
    intros H. unfold scatter. destruct on; cbn [opt]; apply scatter_derivable; [intros i I; apply H; lia|].
    intros i _. unfold vzero. apply derivable_pt_lim_const.
  Qed.

  Theorem value_derivative x z cells g : local_derivatives G L J ->
    derivable_pt_lim (fun s => operator_value 0 G e L t (along x z s) cells g) 0 (mv N (jacobian_value G e L J t x cells) z g).
  Proof.
    intros LD. rewrite mv_jacobian. unfold operator_value.
    apply (lsum_derivable_at (fun s c => cell_value 0 G L t (along x z s) c g +
      lsum (fun p => face_value 0 G e L t (along x z s) c p g) (numbered e c))). intros c.
    destruct (LD c t (gather 0 x (lfsu G (cid c))) (gather 0 z (lfsu G (cid c)))) as (D1 & D2 & D3 & D4).
    apply derivable_pt_lim_plus'.
    - unfold cell_value, prod.
      replace (scatter (lfsv G (cid c)) (opt (do_alpha_volume L) (mv (length (lfsu G (cid c))) (j_volume J c t (gather 0 x (lfsu G (cid c)))) (gather 0 z (lfsu G (cid c))))) g +
        scatter (lfsv G (cid c)) (opt (do_alpha_post L) (mv (length (lfsu G (cid c))) (j_post J c t (gather 0 x (lfsu G (cid c)))) (gather 0 z (lfsu G (cid c))))) g) with
       (scatter (lfsv G (cid c)) (opt (do_alpha_volume L) (mv (length (lfsu G (cid c))) (j_volume J c t (gather 0 x (lfsu G (cid c)))) (gather 0 z (lfsu G (cid c))))) g + 0 +
        scatter (lfsv G (cid c)) (opt (do_alpha_post L) (mv (length (lfsu G (cid c))) (j_post J c t (gather 0 x (lfsu G (cid c)))) (gather 0 z (lfsu G (cid c))))) g + 0) by lra.
      apply derivable_pt_lim_plus'; [apply derivable_pt_lim_plus'; [apply derivable_pt_lim_plus'|]|]; try apply derivable_pt_lim_const.
      + apply (opt_derivable _ _ (fun s => alpha_volume L c t (gather 0 (along x z s) (lfsu G (cid c))))).
        intros i I. eapply derivable_pt_lim_ext; [|apply (D1 i I)]. intros s. cbn. now rewrite gather_along.
      + apply (opt_derivable _ _ (fun s => alpha_post L c t (gather 0 (along x z s) (lfsu G (cid c))))).
        intros i I. eapply derivable_pt_lim_ext; [|apply (D2 i I)]. intros s. cbn. now rewrite gather_along.
    - apply (lsum_derivable_at (fun s p => face_value 0 G e L t (along x z s) c p g)). intros [i f]. unfold face_value, fprod.
      assert (SK : derivable_pt_lim
        (fun s => if (outside f <? cid c)%nat || do_two_sided L then
          scatter (lfsv G (cid c)) (fst (opt2 (do_alpha_skeleton L) (alpha_skeleton L c f i t (gather 0 (along x z s) (lfsu G (cid c))) (gather 0 (along x z s) (lfsu G (outside f)))))) g +
          scatter (lfsv G (outside f)) (snd (opt2 (do_alpha_skeleton L) (alpha_skeleton L c f i t (gather 0 (along x z s) (lfsu G (cid c))) (gather 0 (along x z s) (lfsu G (outside f)))))) g +
          (scatter (lfsv G (cid c)) (fst (opt2 (do_lambda_skeleton L) (lambda_skeleton L c f i t))) g +
           scatter (lfsv G (outside f)) (snd (opt2 (do_lambda_skeleton L) (lambda_skeleton L c f i t))) g) else 0) 0
        (if (outside f <? cid c)%nat || do_two_sided L then
          if do_alpha_skeleton L then
          let '((ss, sn), (ns, nn)) := j_skeleton J c f i t (gather 0 x (lfsu G (cid c))) (gather 0 x (lfsu G (outside f))) in
          scatter (lfsv G (cid c)) (vadd (mv (length (lfsu G (cid c))) ss (gather 0 z (lfsu G (cid c)))) (mv (length (lfsu G (outside f))) sn (gather 0 z (lfsu G (outside f))))) g +
          scatter (lfsv G (outside f)) (vadd (mv (length (lfsu G (cid c))) ns (gather 0 z (lfsu G (cid c)))) (mv (length (lfsu G (outside f))) nn (gather 0 z (lfsu G (outside f))))) g
          else 0
        else 0)).
      { destruct ((outside f <? cid c)%nat || do_two_sided L); [|apply derivable_pt_lim_const].
        specialize (D4 f i (gather 0 x (lfsu G (outside f))) (gather 0 z (lfsu G (outside f)))).
        destruct (j_skeleton J c f i t (gather 0 x (lfsu G (cid c))) (gather 0 x (lfsu G (outside f)))) as [[ss sn] [ns nn]].
        destruct (do_alpha_skeleton L); cbn [opt2].
        - match goal with |- derivable_pt_lim _ _ ?v => replace v with (v + 0) by lra end.
          apply derivable_pt_lim_plus'; [|apply derivable_pt_lim_const].
          apply derivable_pt_lim_plus'; unfold scatter.
          + apply (scatter_derivable _ (fun s => fst (alpha_skeleton L c f i t (gather 0 (along x z s) (lfsu G (cid c))) (gather 0 (along x z s) (lfsu G (outside f)))))).
            intros k I. eapply derivable_pt_lim_ext; [|apply (proj1 (D4 k)); lia]. intros s. cbn. now rewrite !gather_along.
          + apply (scatter_derivable _ (fun s => snd (alpha_skeleton L c f i t (gather 0 (along x z s) (lfsu G (cid c))) (gather 0 (along x z s) (lfsu G (outside f)))))).
            intros k I. eapply derivable_pt_lim_ext; [|apply (proj2 (D4 k)); lia]. intros s. cbn. now rewrite !gather_along.
        - cbn [fst snd]. apply derivable_pt_lim_const. }
      destruct (classify e f); [apply derivable_pt_lim_const|exact SK| |exact SK].
      match goal with |- derivable_pt_lim _ _ ?v => replace v with (v + 0) by lra end.
      apply derivable_pt_lim_plus'; [|apply derivable_pt_lim_const].
      apply (opt_derivable _ _ (fun s => alpha_boundary L c f i t (gather 0 (along x z s) (lfsu G (cid c))))).
      intros k I. eapply derivable_pt_lim_ext; [|apply (D3 f i k I)]. intros s. cbn. now rewrite gather_along.
  Qed.

  Lemma gather_pair (x z : vec) ds : (fun i => fst (gather (0, 0) (fun g => (x g, z g)) ds i)) = gather 0 x ds /\
    (fun i => snd (gather (0, 0) (fun g => (x g, z g)) ds i)) = gather 0 z ds.
  Proof. split; vext; unfold gather; destruct (nth_error ds x0); reflexivity. Qed.

  Theorem value_apply LA x z cells g : local_apply G L J LA ->
    operator_value (0, 0) G e LA t (fun h => (x h, z h)) cells g = mv N (jacobian_value G e L J t x cells) z g.
  Proof.
    intros (E1 & E2 & E3 & E4 & E5 & E6 & E7 & E8 & E9 & H). rewrite mv_jacobian. unfold operator_value. apply lsum_ext. intros c _.
    destruct (H c t (gather (0, 0) (fun h => (x h, z h)) (lfsu G (cid c)))) as (D1 & D2 & D3 & D4).
    rewrite !(proj1 (gather_pair x z _)), ?(proj2 (gather_pair x z _)) in *.
    f_equal.
    - unfold cell_value, prod. rewrite E1, E4, E6, E9. cbn [opt]. rewrite scatter_zero.
      rewrite (opt_ext_in _ _ _ _ g D1), (opt_ext_in _ _ _ _ g D2).
      unfold vzero. lra.
    - apply lsum_ext. intros [i f] _. unfold face_value, fprod. rewrite E2, E3, E5, E7, E8. cbn [opt opt2 fst snd]. rewrite !scatter_zero.
      assert (SK : (if (outside f <? cid c)%nat || do_two_sided L then
          scatter (lfsv G (cid c)) (fst (opt2 (do_alpha_skeleton L) (alpha_skeleton LA c f i t (gather (0, 0) (fun h => (x h, z h)) (lfsu G (cid c))) (gather (0, 0) (fun h => (x h, z h)) (lfsu G (outside f)))))) g +
          scatter (lfsv G (outside f)) (snd (opt2 (do_alpha_skeleton L) (alpha_skeleton LA c f i t (gather (0, 0) (fun h => (x h, z h)) (lfsu G (cid c))) (gather (0, 0) (fun h => (x h, z h)) (lfsu G (outside f)))))) g +
          (vzero g + vzero g) else 0) =
        (if (outside f <? cid c)%nat || do_two_sided L then
          if do_alpha_skeleton L then
          let '((ss, sn), (ns, nn)) := j_skeleton J c f i t (gather 0 x (lfsu G (cid c))) (gather 0 x (lfsu G (outside f))) in
          scatter (lfsv G (cid c)) (vadd (mv (length (lfsu G (cid c))) ss (gather 0 z (lfsu G (cid c)))) (mv (length (lfsu G (outside f))) sn (gather 0 z (lfsu G (outside f))))) g +
          scatter (lfsv G (outside f)) (vadd (mv (length (lfsu G (cid c))) ns (gather 0 z (lfsu G (cid c)))) (mv (length (lfsu G (outside f))) nn (gather 0 z (lfsu G (outside f))))) g
          else 0
        else 0)).
      { destruct ((outside f <? cid c)%nat || do_two_sided L); [|reflexivity].
        destruct (do_alpha_skeleton L); cbn [opt2]; [|cbn [fst snd]; rewrite !scatter_zero; unfold vzero; lra].
        specialize (D4 f i (gather (0, 0) (fun h => (x h, z h)) (lfsu G (outside f)))). cbn zeta in D4.
        rewrite !(proj1 (gather_pair x z _)), ?(proj2 (gather_pair x z _)) in D4.
        destruct (j_skeleton J c f i t (gather 0 x (lfsu G (cid c))) (gather 0 x (lfsu G (outside f)))) as [[ss sn] [ns nn]].
        unfold vzero. rewrite Rplus_0_r, Rplus_0_r. f_equal; apply scatter_ext_in; intros k I.
        - now apply (proj1 (D4 k)).
        - now apply (proj2 (D4 k)). }
      destruct (classify e f); [reflexivity|exact SK| |exact SK].
      rewrite (opt_ext_in _ _ _ _ g (D3 f i)).
      unfold vzero. lra.
  Qed.
End Derivative.

Lemma mv_scal N w m z g : mv N (fun i j => w * m i j) z g = w * mv N m z g.
Proof. unfold mv. rewrite <- nsum_scal. apply nsum_ext. intros. lra. Qed.
Lemma mv_ext N m m' z g : (forall h, m g h = m' g h) -> mv N m z g = mv N m' z g.
Proof. intros H. apply nsum_ext. intros. now rewrite H. Qed.

Theorem assembled_derivative N G L J e cells a s s' x z g :
  dofs_below N G -> local_derivatives G L J ->
  derivable_pt_lim (fun h => assemble_residual 0 G L e cells a s (along x z h) vzero g) 0
                   (mv N (assemble_jacobian G L J e cells a s' x mzero) z g).
Proof.
  intros DB LD.
  rewrite (mv_ext N _ (fun i j => weight a * jacobian_value G e L J (time a) x cells i j)).
  2:{ intros h. rewrite assembled_jacobian. unfold mzero. lra. }
  rewrite mv_scal. eapply derivable_pt_lim_ext.
  { intros h. symmetry. rewrite (assembled_value 0 G L e cells a s (along x z h) vzero g). unfold vzero. rewrite Rplus_0_l. reflexivity. }
  apply derivable_pt_lim_scal. apply value_derivative; assumption.
Qed.

Theorem assembled_apply N G L J LA e cells a s s' x z g :
  dofs_below N G -> local_apply G L J LA ->
  assemble_residual (0, 0) G LA e cells a s (fun h => (x h, z h)) vzero g =
  mv N (assemble_jacobian G L J e cells a s' x mzero) z g.
Proof.
  intros DB LA'.
  rewrite (mv_ext N _ (fun i j => weight a * jacobian_value G e L J (time a) x cells i j)).
  2:{ intros h. rewrite assembled_jacobian. unfold mzero. lra. }
  rewrite mv_scal, assembled_value, (value_apply G e L J (time a) N DB LA x z cells g LA'). unfold vzero. lra.
Qed.

(** ** A concrete operator: reaction x^2 in each cell and the jump across interior faces; one DOF per cell. *)
Definition one_dof : space :=
  let ds := fun c => [if (c =? 5)%nat then 0 else if (c =? 3)%nat then 1 else 2]%nat in mkspace ds ds.
Definition reaction_jump : terms R :=
  mkterms R true false true false false false false false false
    (fun _ _ x i => x i * x i) (fun _ _ => vzero)
    (fun _ _ _ _ x y => (fun i => x i - y i, fun i => y i - x i)) (fun _ _ _ _ => (vzero, vzero))
    (fun _ _ _ _ _ => vzero) (fun _ _ _ _ => vzero) (fun _ _ _ => vzero) (fun _ _ => vzero).
Definition reaction_jump_j : jterms :=
  let id := fun w i j => if (i =? j)%nat then w else 0 in
  mkjterms (fun _ _ x i j => if (i =? j)%nat then 2 * x i else 0)
    (fun _ _ _ _ _ _ => ((id 1, id (-1)), (id (-1), id 1)))
    (fun _ _ _ _ _ => mzero) (fun _ _ _ => mzero).
Definition reaction_jump_apply : terms (R * R) :=
  mkterms (R * R) true false true false false false false false false
    (fun _ _ p i => 2 * fst (p i) * snd (p i)) (fun _ _ => vzero)
    (fun _ _ _ _ p q => (fun i => snd (p i) - snd (q i), fun i => snd (q i) - snd (p i))) (fun _ _ _ _ => (vzero, vzero))
    (fun _ _ _ _ _ => vzero) (fun _ _ _ _ => vzero) (fun _ _ _ => vzero) (fun _ _ => vzero).
Definition blank : rest R := mkrest vzero vzero vzero vzero [] [] [] [] vzero.

Lemma line_derivative p q : derivable_pt_lim (fun s => p + s * q) 0 q.
Proof.
  cut (derivable_pt_lim (fun s => p + s * q) 0 (0 + (1 * q + 0 * 0))).
  { intros H. replace (0 + (1 * q + 0 * 0)) with q in H by lra. exact H. }
  apply (derivable_pt_lim_plus (fun _ => p) (fun s => s * q)); [apply derivable_pt_lim_const|].
  apply (derivable_pt_lim_mult (fun s => s) (fun _ => q)); [apply derivable_pt_lim_id|apply derivable_pt_lim_const].
Qed.

Lemma engine_meets : dofs_below 3 one_dof /\ local_derivatives one_dof reaction_jump reaction_jump_j /\
  local_apply one_dof reaction_jump reaction_jump_j reaction_jump_apply /\
  assemble_residual 0 one_dof reaction_jump (fst (no_skip false)) strip (mkla 2 0) blank (fun g => INR g) vzero 1%nat = 2.
Proof.
  split; [|split; [|split]].
  - intros c g [<-|[]]. destruct (c =? 5)%nat, (c =? 3)%nat; lia.
  - intros c t x z. cbn [length lfsu lfsv one_dof]. split; [|split; [|split]].
    + intros i I. assert (i = O) by lia. subst i. unfold mv. cbn.
      replace (0 + 2 * x O * z O) with (z O * (x O + 0 * z O) + (x O + 0 * z O) * z O) by lra.
      apply (derivable_pt_lim_mult (fun s => along x z s O) (fun s => along x z s O)); apply line_derivative.
    + intros i I. match goal with |- derivable_pt_lim _ _ ?v => replace v with 0 by (unfold mv; cbn; unfold mzero; lra) end. apply derivable_pt_lim_const.
    + intros f k i I. match goal with |- derivable_pt_lim _ _ ?v => replace v with 0 by (unfold mv; cbn; unfold mzero; lra) end. apply derivable_pt_lim_const.
    + intros f k y v i. cbn. unfold mv. cbn. split; intros I; assert (i = O) by lia; subst i; cbn.
      * replace (0 + 1 * z O + (0 + -1 * v O)) with (z O - v O) by lra.
        apply (derivable_pt_lim_minus (fun s => along x z s O) (fun s => along y v s O)); apply line_derivative.
      * replace (0 + -1 * z O + (0 + 1 * v O)) with (v O - z O) by lra.
        apply (derivable_pt_lim_minus (fun s => along y v s O) (fun s => along x z s O)); apply line_derivative.
  - unfold local_apply. repeat (split; [reflexivity|]). intros c t p. cbn [length lfsu lfsv one_dof].
    split; [|split; [|split]].
    + intros i I. assert (i = O) by lia. subst i. unfold mv. cbn. lra.
    + intros i I. unfold mv. cbn. unfold vzero, mzero. lra.
    + intros f k i I. unfold mv. cbn. unfold vzero, mzero. lra.
    + intros f k q i. cbn. unfold mv. cbn. split; intros I; assert (i = O) by lia; subst i; cbn; lra.
  - rewrite assembled_value. cbn. unfold cell_value, Nat.ltb. cbn. unfold vzero. lra.
Qed.
