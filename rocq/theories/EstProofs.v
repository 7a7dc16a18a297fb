(** Proofs about the error estimators: assembly, diameters, formulas. *)
From Coq Require Import Lra Lia.
From Coq Require Import List.
Import ListNotations.
From Verif Require Import CommonFacts CdModel CdSpec CdProofs FlowProofs EstModel EstSpec.
Local Open Scope R_scope.

(** ** Diameters *)
Lemma two_norm_dist d a b : two_norm d (fun c => a c - b c) = dist d a b.
Proof. unfold two_norm, dist. f_equal. rewrite dot_sum. apply rsum_ext; intros; ring. Qed.
Lemma dist_sym d a b : dist d a b = dist d b a.
Proof. unfold dist. f_equal. apply rsum_ext; intros; ring. Qed.
Lemma dist_self d a : dist d a a = 0.
Proof. unfold dist. rewrite (rsum_ext d _ (fun _ => 0)) by (intros; ring). rewrite rsum_0. apply sqrt_0. Qed.
Lemma dist_nonneg d a b : 0 <= dist d a b.
Proof. apply sqrt_pos. Qed.

Lemma loop_max n g h0 : let h := loop n (fun k h => Rmax h (g k)) h0 in
  h0 <= h /\ (forall k, (k < n)%nat -> g k <= h) /\ (h = h0 \/ exists k, (k < n)%nat /\ h = g k).
Proof.
  induction n as [|n IH]; cbn; [repeat split; [lra | lia | now left]|].
  destruct IH as (A & B & C). set (h := loop n _ h0) in *. repeat split.
  - eapply Rle_trans; [apply A | apply Rmax_l].
  - intros k Hk. destruct (Nat.eq_dec k n) as [->|]; [apply Rmax_r|]. eapply Rle_trans; [apply B; lia | apply Rmax_l].
  - destruct (Rle_dec h (g n)) as [L|L]; [rewrite Rmax_right by easy; right; exists n; split; [lia|easy]|].
    rewrite Rmax_left by lra. destruct C as [C|(k & Hk & C)]; [now left | right; exists k; split; [lia|easy]].
Qed.
Lemma diameter_inv d n corner m : let h := loop m (fun i hmax => loop (n - S i) (fun k hmax =>
    let j := (S i + k)%nat in Rmax hmax (two_norm d (fun c => corner j c - corner i c))) hmax) (-1) in
  (forall i j, (i < m)%nat -> (i < j < n)%nat -> dist d (corner i) (corner j) <= h) /\
  (h = -1 \/ exists i j, (i < m)%nat /\ (i < j < n)%nat /\ h = dist d (corner i) (corner j)).
Proof.
  induction m as [|m IH]; cbn; [split; [lia | now left]|].
  destruct IH as (A & B). set (h := loop m _ (-1)) in *.
  pose proof (loop_max (n - S m) (fun k => two_norm d (fun c => corner (S (m + k)) c - corner m c)) h) as (P & Q & W). cbn zeta in *.
  split.
  - intros i j Hi Hj. destruct (Nat.eq_dec i m) as [->|].
    + specialize (Q (j - S m)%nat ltac:(lia)). replace (S (m + (j - S m)))%nat with j in Q by lia. rewrite two_norm_dist, dist_sym in Q. exact Q.
    + eapply Rle_trans; [apply (A i j); lia | exact P].
  - destruct W as [W|(k & Hk & W)].
    + rewrite W. destruct B as [B|(i & j & Hi & Hj & B)]; [now left | right; exists i, j; repeat split; [lia..|easy]].
    + right. exists m, (S (m + k))%nat. repeat split; try lia. rewrite W, two_norm_dist. apply dist_sym.
Qed.
Lemma diameter_ok d n corner : (2 <= n)%nat -> is_diameter d n corner (diameter d n corner).
Proof.
  intros Hn. destruct (diameter_inv d n corner n) as (A & B). fold (diameter d n corner) in A, B. split.
  - intros i j Hi Hj. destruct (Nat.lt_trichotomy i j) as [L|[->|L]].
    + apply A; lia.
    + rewrite dist_self. eapply Rle_trans; [apply (dist_nonneg d (corner 0%nat) (corner 1%nat)) | apply A; lia].
    + rewrite dist_sym. apply A; lia.
  - destruct B as [B|(i & j & Hi & Hj & B)]; [|exists i, j; repeat split; [lia..|easy]].
    exfalso. specialize (A 0%nat 1%nat ltac:(lia) ltac:(lia)). rewrite B in A. pose proof (dist_nonneg d (corner 0%nat) (corner 1%nat)). lra.
Qed.
Lemma diameter_nonneg d n corner : (2 <= n)%nat -> 0 <= diameter d n corner.
Proof. intros Hn. destruct (diameter_ok d n corner Hn) as (_ & i & j & _ & _ & ->). apply dist_nonneg. Qed.

(** ** Assembly *)
Lemma acc_at r i v c : acc r i v c = r c + when (c =? i)%nat v.
Proof. unfold acc, when. destruct (c =? i)%nat; lra. Qed.
Lemma fold_sum {A} (g : A -> R) pts s : fold_left (fun s p => s + g p) pts s = s + lsum g pts.
Proof. revert s. induction pts as [|p pts IH]; intros; cbn; [lra | rewrite IH; lra]. Qed.
Lemma fold_sum2 {A} (f g : A -> R) pts s t : fold_left (fun '(s, t) p => (s + f p, t + g p)) pts (s, t) = (s + lsum f pts, t + lsum g pts).
Proof. revert s t. induction pts as [|p pts IH]; intros; cbn; [f_equal; lra | rewrite IH; f_equal; lra]. Qed.
Lemma fold_at {P} (f : vec -> P -> vec) g l r c : (forall r F, In F l -> f r F c = r c + g F) -> fold_left f l r c = r c + lsum g l.
Proof. intros H. apply (T_fold (fun r : vec => r c)). intros; now apply H. Qed.

Section grid.
Variables (vol : nat -> vec -> vec) (skel : vec -> esface -> vec) (bnd : vec -> esbound -> vec) (V : nat -> R) (S N : esface -> R) (B : esbound -> R).
Hypothesis Hv : forall c r, vol c r = acc r c (V c).
Lemma assembled n inner bound c : (c < n)%nat ->
  (forall r F c, In F inner -> skel r F c = r c + (when (c =? ef_s F)%nat (S F) + when (c =? ef_n F)%nat (N F))) ->
  (forall r F c, In F bound -> bnd r F c = r c + when (c =? eb_s F)%nat (B F)) ->
  fold_left bnd bound (fold_left skel inner (loop n vol (fun _ => 0))) c =
  V c + lsum (fun F => when (c =? ef_s F)%nat (S F) + when (c =? ef_n F)%nat (N F)) inner + lsum (fun F => when (c =? eb_s F)%nat (B F)) bound.
Proof.
  intros Hc Hs Hb. rewrite (fold_at bnd _ bound _ c (fun r F => Hb r F c)), (fold_at skel _ inner _ c (fun r F => Hs r F c)).
  assert (L : loop n vol (fun _ => 0) c = V c).
  { assert (E : forall m, loop m vol (fun _ => 0) c = when (c <? m)%nat (V c)).
    { induction m as [|m IH]; [now destruct (Nat.ltb_spec c 0); [lia|]|]. cbn [loop]. rewrite Hv, acc_at, IH. unfold when.
      destruct (Nat.ltb_spec c m), (Nat.ltb_spec c (Datatypes.S m)), (Nat.eqb_spec c m); subst; try lia; lra. }
    rewrite E. unfold when. now destruct (Nat.ltb_spec c n); [|lia]. }
  rewrite L. ring.
Qed.
End grid.

(** ** Symmetric tensors *)
Lemma sym_flux d A n w : symmetric d A -> inner d (apply d A n) w = normal_flux d n A w.
Proof.
  intros HA. unfold normal_flux. rewrite inner_apply_l. rewrite inner_comm. apply inner_ext; [easy|].
  intros k Hk. unfold apply. apply rsum_ext. intros l Hl. unfold transp. now rewrite HA.
Qed.
Lemma dot_flux d A n m x J js : symmetric d A -> dot d (mv d A n) (eval_grad m x (fun i => mv d J (js i))) = normal_flux d n A (grad_at m x (grads d J js)).
Proof.
  intros HA. rewrite dot_eval. rewrite <- sym_flux by easy. apply inner_ext; [|easy]. intros; apply mv_sum.
Qed.

(** ** The estimator for conforming elements *)
Section fem.
Variables (d : nat) (cells : nat -> escell) (constA : bool) (x : nat -> vec) (n : nat) (inner : list esface) (bound : list esbound).
Hypothesis (HS : tensors_symmetric d cells n inner bound).

Lemma fe_skeleton_at r F c : In F inner ->
  let v := Rmax (cell_diam d cells (ef_s F)) (cell_diam d cells (ef_n F)) * fnorm2 (ef_pts F) (fun p => flux_jump d cells x constA F p / 2) in
  fe_skeleton d cells constA x r F c = r c + (when (c =? ef_s F)%nat v + when (c =? ef_n F)%nat v).
Proof.
  intros HF v. unfold fe_skeleton. rewrite fold_sum, !acc_at.
  match goal with |- context [Rmax ?a ?b * (0 + lsum ?g ?l)] => assert (Rmax a b * (0 + lsum g l) = v) as -> end.
  { unfold v, fnorm2. f_equal. rewrite Rplus_0_l. apply lsum_ext. intros p Hp. unfold flux_jump.
    destruct HS as (H1 & H2 & _). destruct (H2 F p HF Hp) as (H3 & H4).
    destruct constA; rewrite !dot_flux by auto; unfold grad_in, grad_out; field. }
  ring.
Qed.
Lemma fe_boundary_at r F c : In F bound ->
  fe_boundary d cells constA x r F c = r c + when (c =? eb_s F)%nat
    match eb_bc F with Neumann => cell_diam d cells (eb_s F) * fnorm2 (eb_pts F) (flux_mismatch d cells x constA F) | _ => 0 end.
Proof.
  intros HF. unfold fe_boundary. destruct (eb_bc F); try (unfold when; destruct (c =? eb_s F)%nat; ring).
  rewrite fold_sum, acc_at. do 3 f_equal. rewrite Rplus_0_l. apply lsum_ext. intros p Hp.
  destruct HS as (H1 & _ & H3). specialize (H3 F p HF Hp). unfold flux_mismatch, grad_in. destruct constA; rewrite !dot_flux by auto; ring.
Qed.
Lemma fe_at c : (c < n)%nat -> fe_estimate d cells constA n inner bound x c =
  cell_diam d cells c ^ 2 * lsum (fun p => v_weight p * v_ie p * (v_f p ^ 2 - (v_c p * u_at cells x c p) ^ 2)) (ec_pts (cells c)) +
  fem_faces d cells x constA inner bound c.
Proof.
  intros Hc. unfold fe_estimate, fem_faces.
  set (V := fun c => cell_diam d cells c ^ 2 * lsum (fun p => v_weight p * v_ie p * (v_f p ^ 2 - (v_c p * u_at cells x c p) ^ 2)) (ec_pts (cells c))).
  assert (HV : forall c r, fe_volume d cells x c r = acc r c (V c)).
  { intros c' r. unfold fe_volume, V. rewrite fold_sum. f_equal. rewrite Rplus_0_l.
    replace (cell_diam d cells c' ^ 2) with (cell_diam d cells c' * cell_diam d cells c') by ring. f_equal. apply lsum_ext. intros p _. rewrite eval_u_sum. unfold u_at. ring. }
  pose proof (assembled _ (fe_skeleton d cells constA x) (fe_boundary d cells constA x) V _ _ _ HV n inner bound c Hc fe_skeleton_at fe_boundary_at) as E.
  cbn zeta in E. rewrite E. unfold V. ring.
Qed.
End fem.

Lemma when_nonneg b v : 0 <= v -> 0 <= when b v.
Proof. destruct b; cbn; lra. Qed.
Lemma sq_nonneg v : 0 <= v ^ 2.
Proof. rewrite <- Rsqr_pow2. apply Rle_0_sqr. Qed.
Lemma fnorm2_nonneg pts g : (forall p, In p pts -> 0 <= f_weight p * f_ie p) -> 0 <= fnorm2 pts g.
Proof. intros H. apply lsum_nonneg. intros p Hp. apply Rmult_le_pos; [now apply H | apply sq_nonneg]. Qed.
Lemma vnorm2_nonneg pts g : (forall p, In p pts -> 0 <= v_weight p * v_ie p) -> 0 <= vnorm2 pts g.
Proof. intros H. apply lsum_nonneg. intros p Hp. apply Rmult_le_pos; [now apply H | apply sq_nonneg]. Qed.

Lemma fem_faces_nonneg d cells x constA n inner bound c : grid_ok cells n inner bound -> weights_nonneg cells n inner bound ->
  0 <= fem_faces d cells x constA inner bound c.
Proof.
  intros (G1 & G2 & G3) (_ & W2 & W3). unfold fem_faces. apply Rplus_le_le_0_compat; apply lsum_nonneg; intros F HF.
  - destruct (G2 F HF) as (Gs & Gn & _). assert (0 <= Rmax (cell_diam d cells (ef_s F)) (cell_diam d cells (ef_n F))).
    { eapply Rle_trans; [|apply Rmax_l]. apply diameter_nonneg, G1, Gs. }
    apply Rplus_le_le_0_compat; apply when_nonneg, Rmult_le_pos; auto; apply fnorm2_nonneg; intros; eapply W2; eauto.
  - apply when_nonneg. destruct (eb_bc F); try lra. apply Rmult_le_pos; [apply diameter_nonneg, G1; now apply G3|].
    apply fnorm2_nonneg. intros; eapply W3; eauto.
Qed.
