(** Numerical Jacobians inside an assembly; concrete cases. *)
From Coq Require Import FunctionalExtensionality Lra.
From Verif Require Import CommonFacts NumModel EngineSpec EngineProofs EngineProofs3 NumSpec NumProofs NumProofs2.
Local Open Scope R_scope.

(** The derivative terms of an operator that derives from all numerical Jacobian mixins. *)
Definition num_jterms (eps : R) (G : space) (L : terms R) : jterms :=
  let m c := length (lfsv G c) in let n c := length (lfsu G c) in
  mkjterms
    (fun c t x => num_jacobian eps (alpha_volume L c t) (m (cid c)) (n (cid c)) 1 x mzero)
    (fun c f k t x y => num_jacobian_skeleton eps (alpha_skeleton L c f k t) (m (cid c)) (m (outside f)) (n (cid c)) (n (outside f))
                          1 x y ((mzero, mzero), (mzero, mzero)))
    (fun c f k t x => num_jacobian eps (alpha_boundary L c f k t) (m (cid c)) (n (cid c)) 1 x mzero)
    (fun c t x => num_jacobian eps (alpha_post L c t) (m (cid c)) (n (cid c)) 1 x mzero).

(** Every non-constant term is an affine function of the coefficients. *)
Definition locally_affine (G : space) (L : terms R) : Prop :=
  forall c t, let m := length (lfsv G (cid c)) in let n := length (lfsu G (cid c)) in
    (exists K b, affine m n (alpha_volume L c t) K b) /\
    (exists K b, affine m n (alpha_post L c t) K b) /\
    (forall f k, exists K b, affine m n (alpha_boundary L c f k t) K b) /\
    (forall f k, exists K b, affine2 m (length (lfsv G (outside f))) n (length (lfsu G (outside f))) (alpha_skeleton L c f k t) K b).

Lemma line_derivative f b d : (forall s, f s = b + s * d) -> derivable_pt_lim f 0 d.
Proof.
  intros H. assert (E : f = fun s => b + s * d) by (apply functional_extensionality; auto). rewrite E.
  intros e He. exists (mkposreal 1 Rlt_0_1). intros h Hh _.
  replace ((b + (0 + h) * d - (b + 0 * d)) / h - d) with 0 by (field; auto). rewrite Rabs_R0. exact He.
Qed.

Lemma nsum_along n K x z s :
  nsum n (fun j => K j * along x z s j) = nsum n (fun j => K j * x j) + s * nsum n (fun j => K j * z j).
Proof.
  induction n as [|n IH]; cbn [nsum]; [ring|]. rewrite IH. unfold along, vadd, vscal. ring.
Qed.

Lemma affine_derivative eps m n alpha K b x z i : 0 < eps -> affine m n alpha K b -> (i < m)%nat ->
  derivable_pt_lim (fun s => alpha (along x z s) i) 0 (mv n (num_jacobian eps alpha m n 1 x mzero) z i).
Proof.
  intros He HA Hi. apply line_derivative with (b := alpha x i). intros s.
  rewrite !HA by assumption. rewrite nsum_along. rewrite Rplus_assoc. f_equal. f_equal. f_equal.
  unfold mv. apply nsum_ext. intros j Hj. rewrite num_jacobian_val.
  destruct (Nat.ltb_spec i m); [|lia]. destruct (Nat.ltb_spec j n); [|lia]. cbn [andb].
  rewrite (forward_affine eps m n alpha K b) by assumption. unfold mzero. ring.
Qed.

Lemma affine2_s ms mn ns nn alpha K b : affine2 ms mn ns nn alpha K b -> forall xn,
  affine ms ns (fun u => fst (alpha u xn)) (fst (fst K)) (fun i => fst b i + nsum nn (fun j => snd (fst K) i j * xn j)) /\
  affine mn ns (fun u => snd (alpha u xn)) (fst (snd K)) (fun i => snd b i + nsum nn (fun j => snd (snd K) i j * xn j)).
Proof.
  destruct K as ((a1, a2), (a3, a4)). cbn. intros H xn. split; intros x i Hi; destruct (H x xn i) as [H1 H2].
  - rewrite H1 by assumption. ring. - rewrite H2 by assumption. ring.
Qed.
Lemma affine2_n ms mn ns nn alpha K b : affine2 ms mn ns nn alpha K b -> forall xs,
  affine ms nn (fun u => fst (alpha xs u)) (snd (fst K)) (fun i => fst b i + nsum ns (fun j => fst (fst K) i j * xs j)) /\
  affine mn nn (fun u => snd (alpha xs u)) (snd (snd K)) (fun i => snd b i + nsum ns (fun j => fst (snd K) i j * xs j)).
Proof.
  destruct K as ((a1, a2), (a3, a4)). cbn. intros H xs. split; intros x i Hi; destruct (H xs x i) as [H1 H2].
  - rewrite H1 by assumption. ring. - rewrite H2 by assumption. ring.
Qed.

Lemma num_skeleton_affine eps alpha ms mn ns nn w xs xn K b0 a b c d :
  0 < eps -> affine2 ms mn ns nn alpha K b0 ->
  let '((a', b'), (c', d')) := num_jacobian_skeleton eps alpha ms mn ns nn w xs xn ((a, b), (c, d)) in
  block_added ms ns a a' (fun i j => w * fst (fst K) i j) /\ block_added ms nn b b' (fun i j => w * snd (fst K) i j) /\
  block_added mn ns c c' (fun i j => w * fst (snd K) i j) /\ block_added mn nn d d' (fun i j => w * snd (snd K) i j).
Proof.
  intros He HA. pose proof (num_skeleton_val eps alpha ms mn ns nn w xs xn a b c d) as V.
  destruct (num_jacobian_skeleton _ _ _ _ _ _ _ _ _ _) as ((a', b'), (c', d')).
  destruct V as (V1 & V2 & V3 & V4).
  destruct (affine2_s _ _ _ _ _ _ _ HA xn) as [S1 S2]. destruct (affine2_n _ _ _ _ _ _ _ HA xs) as [N1 N2].
  split; [|split; [|split]]; intros i j.
  - rewrite V1. destruct (Nat.ltb_spec i ms); cbn [andb]; auto. destruct (Nat.ltb_spec j ns); auto.
    unfold forward_s. now rewrite (forward_affine eps _ _ _ _ _ xs i j He S1).
  - rewrite V2. destruct (Nat.ltb_spec i ms); cbn [andb]; auto. destruct (Nat.ltb_spec j nn); auto.
    unfold forward_n. now rewrite (forward_affine eps _ _ _ _ _ xn i j He N1).
  - rewrite V3. destruct (Nat.ltb_spec i mn); cbn [andb]; auto. destruct (Nat.ltb_spec j ns); auto.
    unfold forward_s. now rewrite (forward_affine eps _ _ _ _ _ xs i j He S2).
  - rewrite V4. destruct (Nat.ltb_spec i mn); cbn [andb]; auto. destruct (Nat.ltb_spec j nn); auto.
    unfold forward_n. now rewrite (forward_affine eps _ _ _ _ _ xn i j He N2).
Qed.

Lemma num_local_derivatives eps G L : 0 < eps -> locally_affine G L -> local_derivatives G L (num_jterms eps G L).
Proof.
  intros He HA c t x z. destruct (HA c t) as ((Kv & bv & Av) & (Kp & bp & Ap) & Ab & As).
  split; [|split; [|split]].
  - intros i Hi. exact (affine_derivative eps _ _ _ Kv bv x z i He Av Hi).
  - intros i Hi. exact (affine_derivative eps _ _ _ Kp bp x z i He Ap Hi).
  - intros f k i Hi. destruct (Ab f k) as (K & b & A). exact (affine_derivative eps _ _ _ K b x z i He A Hi).
  - intros f k y v i. destruct (As f k) as (K & b & A). cbn [j_skeleton num_jterms].
    pose proof (num_skeleton_affine eps _ _ _ _ _ 1 x y K b mzero mzero mzero mzero He A) as V.
    destruct (num_jacobian_skeleton _ _ _ _ _ _ _ _ _ _) as ((ss, sn), (ns, nn)).
    destruct V as (V1 & V2 & V3 & V4). destruct K as ((k1, k2), (k3, k4)). cbn [fst snd] in *.
    split; intros Hi.
    + apply line_derivative with (b := fst (alpha_skeleton L c f k t x y) i). intros s.
      destruct (A (along x z s) (along y v s) i) as [E _]. rewrite E by assumption.
      destruct (A x y i) as [E0 _]. rewrite E0 by assumption. rewrite !nsum_along.
      assert (M1 : mv (length (lfsu G (cid c))) ss z i = nsum (length (lfsu G (cid c))) (fun j => k1 i j * z j)).
      { unfold mv. apply nsum_ext. intros j Hj. rewrite V1. destruct (Nat.ltb_spec i (length (lfsv G (cid c)))); [|lia].
        destruct (Nat.ltb_spec j (length (lfsu G (cid c)))); [|lia]. cbn [andb]. unfold mzero. ring. }
      assert (M2 : mv (length (lfsu G (outside f))) sn v i = nsum (length (lfsu G (outside f))) (fun j => k2 i j * v j)).
      { unfold mv. apply nsum_ext. intros j Hj. rewrite V2. destruct (Nat.ltb_spec i (length (lfsv G (cid c)))); [|lia].
        destruct (Nat.ltb_spec j (length (lfsu G (outside f)))); [|lia]. cbn [andb]. unfold mzero. ring. }
      rewrite M1, M2. ring.
    + apply line_derivative with (b := snd (alpha_skeleton L c f k t x y) i). intros s.
      destruct (A (along x z s) (along y v s) i) as [_ E]. rewrite E by assumption.
      destruct (A x y i) as [_ E0]. rewrite E0 by assumption. rewrite !nsum_along.
      assert (M1 : mv (length (lfsu G (cid c))) ns z i = nsum (length (lfsu G (cid c))) (fun j => k3 i j * z j)).
      { unfold mv. apply nsum_ext. intros j Hj. rewrite V3. destruct (Nat.ltb_spec i (length (lfsv G (outside f)))); [|lia].
        destruct (Nat.ltb_spec j (length (lfsu G (cid c)))); [|lia]. cbn [andb]. unfold mzero. ring. }
      assert (M2 : mv (length (lfsu G (outside f))) nn v i = nsum (length (lfsu G (outside f))) (fun j => k4 i j * v j)).
      { unfold mv. apply nsum_ext. intros j Hj. rewrite V4. destruct (Nat.ltb_spec i (length (lfsv G (outside f)))); [|lia].
        destruct (Nat.ltb_spec j (length (lfsu G (outside f)))); [|lia]. cbn [andb]. unfold mzero. ring. }
      rewrite M1, M2. ring.
Qed.

(** The diagonal matrix in a release build. *)
Lemma dusmv_row alpha a x i k : (k <= length x)%nat -> (i < length (ddata a))%nat ->
  forall y, (i < length y)%nat ->
  foldM (fun y j => let* o := rget y i in let* v := dget a i j in let* b := rget x j in rset y i (o + alpha * v * b)) (seq 0 k) y =
  Ok (upd i (nth i y 0 + alpha * nth i (ddata a) 0 * nsum k (fun j => nth j x 0)) y).
Proof.
  intros Hx Hi. induction k as [|k IH]; intros y Hy.
  - cbn. f_equal. rewrite Rmult_0_r, Rplus_0_r.
    revert i Hi Hy. induction y as [|h y IHy]; intros [|i] Hi Hy; cbn in *; try lia; auto. f_equal. apply IHy; lia.
  - rewrite seq_S, foldM_app, (IH ltac:(lia) y Hy). cbn [bind foldM Nat.add].
    rewrite rget_ok by (rewrite upd_length; lia). cbn [bind]. unfold dget.
    destruct (nth_error (ddata a) i) eqn:E; [|apply nth_error_None in E; lia]. rewrite (nth_error_nth _ _ _ E). cbn [bind].
    rewrite rget_ok by lia. cbn [bind]. unfold rset. rewrite upd_length. destruct (Nat.ltb_spec i (length y)); [|lia].
    cbn [bind]. f_equal. rewrite upd_nth_same by assumption.
    assert (U : forall (u v : R) n (l : list R), upd n u (upd n v l) = upd n u l).
    { intros u v n l. revert n. induction l as [|h l IHl]; intros [|n]; cbn; auto. now rewrite IHl. }
    rewrite U. f_equal. cbn [nsum]. ring.
Qed.
