(** Proofs about the error estimators: the indicator for discontinuous Galerkin, orientation, zero indicators, temporal estimators. *)
From Coq Require Import Lra Lia List.
Import ListNotations.
From Verif Require Import CommonFacts CdModel CdSpec CdProofs FlowProofs EstModel EstSpec EstProofs.
Local Open Scope R_scope.

Lemma small_diag_ok d A : d = 2%nat \/ d = 3%nat -> least_diag d A (small_diag d A).
Proof.
  intros [-> | ->]; cbn; unfold small_diag; cbn.
  - split; [intros [|[|k]] Hk; [apply Rmin_l | apply Rmin_r | lia]|]. destruct (Rle_dec (A 0%nat 0%nat) (A 1%nat 1%nat)); [exists 0%nat | exists 1%nat]; split; try lia;
      [apply Rmin_left | apply Rmin_right]; lra.
  - set (e := Rmin (A 0%nat 0%nat) (A 1%nat 1%nat)). split.
    + intros [|[|[|k]]] Hk; [| |apply Rmin_l|lia]; (eapply Rle_trans; [apply Rmin_r|]); [apply Rmin_l | apply Rmin_r].
    + destruct (Rle_dec (A 2%nat 2%nat) e); [exists 2%nat; split; [lia|]; now apply Rmin_left|].
      rewrite Rmin_right by lra. unfold e. destruct (Rle_dec (A 0%nat 0%nat) (A 1%nat 1%nat)); [exists 0%nat | exists 1%nat]; split; try lia; [apply Rmin_left | apply Rmin_right]; lra.
Qed.
Lemma least_diag_unique d A e e' : least_diag d A e -> least_diag d A e' -> e = e'.
Proof. intros (H & k & Hk & ->) (H' & k' & Hk' & ->). apply Rle_antisym; [now apply H | now apply H']. Qed.

Section dg.
Variables (d : nat) (cells : nat -> escell) (gamma : R) (x : nat -> vec) (n : nat) (inner : list esface) (bound : list esbound) (eps : nat -> R).
Hypothesis (HS : tensors_symmetric d cells n inner bound).
Hypothesis (Hd : d = 2%nat \/ d = 3%nat).
Hypothesis (He : forall c, least_diag d (ec_A (cells c)) (eps c)).

Lemma eps_is c : small_diag d (ec_A (cells c)) = eps c.
Proof. eapply least_diag_unique; [apply small_diag_ok, Hd | apply He]. Qed.
Definition dgf (F : esface) (s : nat) : R :=
  let h := face_diam d F in h / 2 * fnorm2 (ef_pts F) (dg_flux_jump d cells x F) + (gamma / h + h / eps s) / 2 * fnorm2 (ef_pts F) (u_jump cells x F).
Definition dgb (F : esbound) : R := match eb_bc F with
  | Dirichlet => (gamma / bound_diam d F + bound_diam d F / eps (eb_s F)) * fnorm2 (eb_pts F) (u_mismatch cells x F) | _ => 0 end.
Lemma dgi_skeleton_at r F c : In F inner ->
  dgi_skeleton d cells gamma x r F c = r c + (when (c =? ef_s F)%nat (dgf F (ef_s F)) + when (c =? ef_n F)%nat (dgf F (ef_n F))).
Proof.
  intros HF. unfold dgi_skeleton.
  rewrite (fold_sum2 (fun p => _) (fun p => _)). cbv beta iota zeta. rewrite !acc_at, !eps_is, !Rplus_0_l.
  match goal with |- context [_ * lsum ?g _ + _ * lsum ?k _] =>
    assert (E1 : lsum g (ef_pts F) = fnorm2 (ef_pts F) (dg_flux_jump d cells x F)); [|assert (E2 : lsum k (ef_pts F) = fnorm2 (ef_pts F) (u_jump cells x F))] end.
  - apply lsum_ext. intros p Hp. destruct HS as (_ & H2 & _). destruct (H2 F p HF Hp). rewrite !dot_flux by auto. unfold dg_flux_jump, grad_in, grad_out. ring.
  - apply lsum_ext. intros p Hp. rewrite !eval_u_sum. unfold u_jump, u_in, u_out. ring.
  - rewrite E1, E2. unfold dgf, face_diam. cbv zeta. rewrite Rplus_assoc. f_equal. f_equal; f_equal; unfold Rdiv; ring.
Qed.
Lemma dgi_boundary_at r F c : In F bound -> dgi_boundary d cells gamma x r F c = r c + when (c =? eb_s F)%nat (dgb F).
Proof.
  intros HF. unfold dgi_boundary, dgb. destruct (eb_bc F); try (unfold when; destruct (c =? eb_s F)%nat; ring).
  rewrite fold_sum, acc_at, eps_is. do 3 f_equal. rewrite Rplus_0_l. apply lsum_ext. intros p Hp. rewrite eval_u_sum. unfold u_mismatch, u_in. ring.
Qed.
Lemma dgi_at c : (c < n)%nat -> dgi_estimate d cells gamma n inner bound x c = dg_eta2 d cells x gamma eps inner bound c.
Proof.
  intros Hc. unfold dgi_estimate, dg_eta2.
  set (V := fun c => cell_diam d cells c ^ 2 / (INR (ec_order (cells c)) ^ 2 * eps c) * vnorm2 (ec_pts (cells c)) (residual d cells x c)).
  assert (HV : forall c r, dgi_volume d cells x c r = acc r c (V c)).
  { intros c' r. unfold dgi_volume, V. rewrite fold_sum, eps_is. f_equal. rewrite Rplus_0_l. f_equal.
    - unfold Rdiv. rewrite Rinv_mult. cbn [pow]. rewrite !Rinv_mult, !Rinv_1. ring.
    - apply lsum_ext. intros p _. cbv zeta. rewrite !dot_eval, !eval_u_sum. unfold residual, u_at, grad_u. ring. }
  exact (assembled _ (dgi_skeleton d cells gamma x) (dgi_boundary d cells gamma x) V (fun F => dgf F (ef_s F)) (fun F => dgf F (ef_n F)) dgb HV n inner bound c Hc dgi_skeleton_at dgi_boundary_at).
Qed.
End dg.

(** ** Signs and zeros *)
Lemma lsum_zero {A} (f : A -> R) l : (forall a, In a l -> 0 <= f a) -> lsum f l = 0 <-> forall a, In a l -> f a = 0.
Proof.
  intros H. split.
  - induction l as [|a l IH]; intros E b Hb; [easy|]. cbn in E.
    assert (0 <= f a) by (apply H; now left). assert (0 <= lsum f l) by (apply lsum_nonneg; intros; apply H; now right).
    destruct Hb as [<- | Hb]; [lra|]. apply IH; [intros; apply H; now right | lra | easy].
  - intros E. rewrite (lsum_ext _ (fun _ => 0)) by easy. apply lsum_0.
Qed.
Lemma sq_zero v : v ^ 2 = 0 <-> v = 0.
Proof. split; [|intros ->; ring]. intros H. rewrite <- Rsqr_pow2 in H. now apply Rsqr_0_uniq. Qed.
Lemma wsq_zero w v : 0 < w -> w * v ^ 2 = 0 <-> v = 0.
Proof.
  intros Hw. split; [|intros ->; ring]. intros H. apply Rmult_integral in H. destruct H as [H|H]; [lra|]. now apply sq_zero.
Qed.
Lemma pos_zero w v : 0 < w -> w * v = 0 <-> v = 0.
Proof. intros Hw. split; [|intros ->; ring]. intros H. apply Rmult_integral in H. destruct H; [lra|easy]. Qed.
Lemma fnorm2_zero pts g : (forall p, In p pts -> 0 < f_weight p * f_ie p) -> fnorm2 pts g = 0 <-> forall p, In p pts -> g p = 0.
Proof.
  intros H. unfold fnorm2. rewrite lsum_zero.
  - split; intros E p Hp; specialize (H p Hp); specialize (E p Hp); [now apply wsq_zero in E | now apply wsq_zero].
  - intros p Hp. apply Rmult_le_pos; [left; now apply H | apply sq_nonneg].
Qed.
Lemma vnorm2_zero pts g : (forall p, In p pts -> 0 < v_weight p * v_ie p) -> vnorm2 pts g = 0 <-> forall p, In p pts -> g p = 0.
Proof.
  intros H. unfold vnorm2. rewrite lsum_zero.
  - split; intros E p Hp; specialize (H p Hp); specialize (E p Hp); [now apply wsq_zero in E | now apply wsq_zero].
  - intros p Hp. apply Rmult_le_pos; [left; now apply H | apply sq_nonneg].
Qed.
Lemma when_zero b v : when b v = 0 <-> (b = true -> v = 0).
Proof. destruct b; cbn; [split; auto | split; [easy|reflexivity]]. Qed.
Lemma plus_zero a b : 0 <= a -> 0 <= b -> a + b = 0 <-> a = 0 /\ b = 0.
Proof. intros. split; [lra | intros (-> & ->); lra]. Qed.

Section signs.
Variables (d : nat) (cells : nat -> escell) (gamma : R) (x : nat -> vec) (n : nat) (inner : list esface) (bound : list esbound) (eps : nat -> R).
Hypothesis (G : grid_ok cells n inner bound) (Hg : 0 <= gamma) (He : forall c, (c < n)%nat -> 0 < eps c).

Lemma div_nonneg a b : 0 <= a -> 0 <= b -> 0 <= a / b.
Proof.
  intros Ha Hb. unfold Rdiv. apply Rmult_le_pos; [easy|]. destruct Hb as [Hb| <-]; [left; now apply Rinv_0_lt_compat | rewrite Rinv_0; lra].
Qed.
Lemma jump_coeff h e : 0 <= h -> 0 < e -> 0 <= gamma / h + h / e.
Proof. intros. apply Rplus_le_le_0_compat; apply div_nonneg; lra. Qed.
Lemma dgf_nonneg F s : weights_nonneg cells n inner bound -> In F inner -> (s < n)%nat -> 0 <= dgf d cells gamma x eps F s.
Proof.
  intros (_ & W & _) HF Hs. destruct G as (_ & G2 & _). destruct (G2 F HF) as (_ & _ & Hc).
  assert (0 <= face_diam d F) by now apply diameter_nonneg. unfold dgf. cbv zeta.
  apply Rplus_le_le_0_compat; apply Rmult_le_pos; try (apply fnorm2_nonneg; intros; eapply W; eauto); [lra|].
  pose proof (jump_coeff (face_diam d F) (eps s) ltac:(easy) (He s Hs)). lra.
Qed.
Lemma dgb_nonneg F : weights_nonneg cells n inner bound -> In F bound -> 0 <= dgb d cells gamma x eps F.
Proof.
  intros (_ & _ & W) HF. destruct G as (_ & _ & G3). destruct (G3 F HF) as (Hs & Hc).
  assert (0 <= bound_diam d F) by now apply diameter_nonneg. unfold dgb. destruct (eb_bc F); try lra.
  apply Rmult_le_pos; [apply jump_coeff; auto | apply fnorm2_nonneg; intros; eapply W; eauto].
Qed.
Lemma dg_eta2_unfold c : dg_eta2 d cells x gamma eps inner bound c =
  cell_diam d cells c ^ 2 / (INR (ec_order (cells c)) ^ 2 * eps c) * vnorm2 (ec_pts (cells c)) (residual d cells x c) +
  lsum (fun F => when (c =? ef_s F)%nat (dgf d cells gamma x eps F (ef_s F)) + when (c =? ef_n F)%nat (dgf d cells gamma x eps F (ef_n F))) inner +
  lsum (fun F => when (c =? eb_s F)%nat (dgb d cells gamma x eps F)) bound.
Proof. reflexivity. Qed.
Lemma parts_nonneg c : weights_nonneg cells n inner bound -> (c < n)%nat ->
  0 <= cell_diam d cells c ^ 2 / (INR (ec_order (cells c)) ^ 2 * eps c) * vnorm2 (ec_pts (cells c)) (residual d cells x c) /\
  0 <= lsum (fun F => when (c =? ef_s F)%nat (dgf d cells gamma x eps F (ef_s F)) + when (c =? ef_n F)%nat (dgf d cells gamma x eps F (ef_n F))) inner /\
  0 <= lsum (fun F => when (c =? eb_s F)%nat (dgb d cells gamma x eps F)) bound.
Proof.
  intros W Hc. split; [|split].
  - apply Rmult_le_pos; [apply div_nonneg; [apply sq_nonneg | apply Rmult_le_pos; [apply sq_nonneg | left; now apply He]]|].
    apply vnorm2_nonneg. intros. eapply (proj1 W); eauto.
  - apply lsum_nonneg. intros F HF. destruct (proj1 (proj2 G) F HF) as (? & ? & _). apply Rplus_le_le_0_compat; apply when_nonneg, dgf_nonneg; auto.
  - apply lsum_nonneg. intros F HF. apply when_nonneg, dgb_nonneg; auto.
Qed.
Lemma dg_eta2_nonneg c : weights_nonneg cells n inner bound -> (c < n)%nat -> 0 <= dg_eta2 d cells x gamma eps inner bound c.
Proof. intros W Hc. destruct (parts_nonneg c W Hc) as (A & B & C). rewrite dg_eta2_unfold. lra. Qed.

Hypothesis (W : weights_pos cells n inner bound).
Hypothesis (Hh : forall c, (c < n)%nat -> 0 < cell_diam d cells c /\ (1 <= ec_order (cells c))%nat).
Hypothesis (Hf : forall F, In F inner -> 0 < face_diam d F).
Hypothesis (Hb : forall F, In F bound -> 0 < bound_diam d F).
Lemma w_nonneg : weights_nonneg cells n inner bound.
Proof. destruct W as (W1 & W2 & W3). repeat split; intros; left; [eapply W1 | eapply W2 | eapply W3]; eauto. Qed.
Lemma dgf_zero F s : In F inner -> (s < n)%nat -> dgf d cells gamma x eps F s = 0 <-> forall p, In p (ef_pts F) -> dg_flux_jump d cells x F p = 0 /\ u_jump cells x F p = 0.
Proof.
  intros HF Hs. pose proof (Hf F HF). pose proof (He s Hs). destruct W as (_ & W2 & _). unfold dgf. cbv zeta.
  assert (0 < gamma / face_diam d F + face_diam d F / eps s).
  { assert (0 <= gamma / face_diam d F) by (apply div_nonneg; lra). assert (0 < face_diam d F / eps s) by now apply Rdiv_lt_0_compat. lra. }
  rewrite plus_zero.
  - rewrite !pos_zero by lra. rewrite !fnorm2_zero by (intros; eapply W2; eauto). firstorder.
  - apply Rmult_le_pos; [lra | apply fnorm2_nonneg; intros; left; eapply W2; eauto].
  - apply Rmult_le_pos; [lra | apply fnorm2_nonneg; intros; left; eapply W2; eauto].
Qed.
Lemma dgb_zero F : In F bound -> dgb d cells gamma x eps F = 0 <-> (eb_bc F = Dirichlet -> forall p, In p (eb_pts F) -> u_mismatch cells x F p = 0).
Proof.
  intros HF. pose proof (Hb F HF). destruct (proj2 (proj2 G) F HF) as (Hs & _). pose proof (He _ Hs). destruct W as (_ & _ & W3). unfold dgb.
  destruct (eb_bc F); try (split; [easy | reflexivity]).
  assert (0 < gamma / bound_diam d F + bound_diam d F / eps (eb_s F)).
  { assert (0 <= gamma / bound_diam d F) by (apply div_nonneg; lra). assert (0 < bound_diam d F / eps (eb_s F)) by now apply Rdiv_lt_0_compat. lra. }
  rewrite pos_zero by easy. rewrite fnorm2_zero by (intros; eapply W3; eauto). firstorder.
Qed.
Lemma dg_eta2_zero : (forall c, (c < n)%nat -> dg_eta2 d cells x gamma eps inner bound c = 0) <->
  (forall c p, (c < n)%nat -> In p (ec_pts (cells c)) -> residual d cells x c p = 0) /\
  (forall F p, In F inner -> In p (ef_pts F) -> dg_flux_jump d cells x F p = 0 /\ u_jump cells x F p = 0) /\
  (forall F p, In F bound -> eb_bc F = Dirichlet -> In p (eb_pts F) -> u_mismatch cells x F p = 0).
Proof.
  pose proof w_nonneg as WN. destruct G as (G1 & G2 & G3). split.
  - intros H. split; [|split].
    + intros c p Hc Hp. specialize (H c Hc). destruct (parts_nonneg c WN Hc) as (A & B & C). rewrite dg_eta2_unfold in H.
      assert (E : cell_diam d cells c ^ 2 / (INR (ec_order (cells c)) ^ 2 * eps c) * vnorm2 (ec_pts (cells c)) (residual d cells x c) = 0) by lra.
      destruct (Hh c Hc) as (Hd & Ho). pose proof (He c Hc). assert (0 < INR (ec_order (cells c))) by (apply lt_0_INR; lia).
      apply pos_zero in E; [|apply Rdiv_lt_0_compat; [now apply pow_lt | apply Rmult_lt_0_compat; [now apply pow_lt|easy]]].
      rewrite vnorm2_zero in E; [now apply E|]. intros. eapply (proj1 W); eauto.
    + intros F p HF. destruct (G2 F HF) as (Hs & Hn & _). specialize (H (ef_s F) Hs). destruct (parts_nonneg (ef_s F) WN Hs) as (A & B & C). rewrite dg_eta2_unfold in H.
      assert (E : lsum (fun F0 => when (ef_s F =? ef_s F0)%nat (dgf d cells gamma x eps F0 (ef_s F0)) + when (ef_s F =? ef_n F0)%nat (dgf d cells gamma x eps F0 (ef_n F0))) inner = 0) by lra.
      assert (NN : forall F', In F' inner -> 0 <= when (ef_s F =? ef_s F')%nat (dgf d cells gamma x eps F' (ef_s F')) /\ 0 <= when (ef_s F =? ef_n F')%nat (dgf d cells gamma x eps F' (ef_n F'))).
      { intros F' HF'. destruct (G2 F' HF') as (? & ? & _). split; apply when_nonneg, dgf_nonneg; auto. }
      rewrite lsum_zero in E by (intros F' HF'; destruct (NN F' HF'); lra).
      specialize (E F HF). destruct (NN F HF). rewrite plus_zero in E by easy. destruct E as (E & _). rewrite Nat.eqb_refl in E. cbn in E. revert p. now apply (dgf_zero F (ef_s F)).
    + intros F p HF HB. revert p. destruct (G3 F HF) as (Hs & _). specialize (H (eb_s F) Hs). destruct (parts_nonneg (eb_s F) WN Hs) as (A & B & C). rewrite dg_eta2_unfold in H.
      assert (E : lsum (fun F0 => when (eb_s F =? eb_s F0)%nat (dgb d cells gamma x eps F0)) bound = 0) by lra.
      rewrite lsum_zero in E by (intros; apply when_nonneg, dgb_nonneg; auto). specialize (E F HF). rewrite Nat.eqb_refl in E. cbn in E. now apply (proj1 (dgb_zero F HF) E HB).
  - intros (H1 & H2 & H3) c Hc. rewrite dg_eta2_unfold.
    assert (vnorm2 (ec_pts (cells c)) (residual d cells x c) = 0) as ->. { apply vnorm2_zero; [intros; eapply (proj1 W); eauto | intros; now apply (H1 c)]. }
    match goal with |- _ * 0 + lsum ?f inner + lsum ?g bound = 0 => assert (E1 : lsum f inner = 0); [|assert (E2 : lsum g bound = 0); [|rewrite E1, E2; ring]] end.
    + transitivity (lsum (fun _ : esface => 0) inner); [|apply lsum_0]. apply lsum_ext. intros F HF. destruct (G2 F HF) as (Hs & Hn & _).
      assert (E : forall s, (s < n)%nat -> dgf d cells gamma x eps F s = 0) by (intros; apply dgf_zero; auto; intros; now apply H2).
      rewrite !E by easy. unfold when. destruct (c =? ef_s F)%nat, (c =? ef_n F)%nat; ring.
    + transitivity (lsum (fun _ : esbound => 0) bound); [|apply lsum_0]. apply lsum_ext. intros F HF. apply when_zero. intros _. apply dgb_zero; [easy|]. intros; now apply (H3 F).
Qed.
End signs.

(** ** Orientation *)
Lemma fnorm2_flip pts g : fnorm2 (map flip_point pts) g = fnorm2 pts (fun p => g (flip_point p)).
Proof. unfold fnorm2. induction pts as [|p pts IH]; [reflexivity|]. cbn [map lsum]. rewrite IH. reflexivity. Qed.
Lemma normal_flux_opp d n A g : normal_flux d (opp n) A g = - normal_flux d n A g.
Proof. apply inner_opp_l. Qed.
Lemma fnorm2_ext pts f g : (forall p, In p pts -> f p ^ 2 = g p ^ 2) -> fnorm2 pts f = fnorm2 pts g.
Proof. intros H. apply lsum_ext. intros p Hp. now rewrite H. Qed.
Lemma lsum_app {A} (f : A -> R) l l' : lsum f (l ++ l') = lsum f l + lsum f l'.
Proof. induction l as [|a l IH]; cbn; [lra | rewrite IH; lra]. Qed.

Section orientation.
Variables (d : nat) (cells : nat -> escell) (x : nat -> vec).
Lemma fem_faces_reverse constA l1 l2 F bound c :
  fem_faces d cells x constA (l1 ++ F :: l2) bound c = fem_faces d cells x constA (l1 ++ reverse F :: l2) bound c.
Proof.
  unfold fem_faces. f_equal. rewrite !lsum_app. f_equal. cbn [lsum]. f_equal. cbn [reverse ef_s ef_n ef_pts].
  rewrite fnorm2_flip, (Rmax_comm (cell_diam d cells (ef_n F))).
  rewrite (fnorm2_ext _ (fun p => flux_jump d cells x constA (reverse F) (flip_point p) / 2) (fun p => flux_jump d cells x constA F p / 2)); [cbv zeta; ring|].
  intros p _. unfold flux_jump. destruct constA; cbn [reverse ef_normal ef_s ef_n flip_point f_normal fA_s fA_n]; rewrite !normal_flux_opp; unfold grad_in, grad_out; cbn; field.
Qed.
Lemma dg_eta2_reverse gamma eps l1 l2 F bound c :
  dg_eta2 d cells x gamma eps (l1 ++ F :: l2) bound c = dg_eta2 d cells x gamma eps (l1 ++ reverse F :: l2) bound c.
Proof.
  assert (E1 : fnorm2 (ef_pts (reverse F)) (dg_flux_jump d cells x (reverse F)) = fnorm2 (ef_pts F) (dg_flux_jump d cells x F)).
  { cbn [reverse ef_pts]. rewrite fnorm2_flip. apply fnorm2_ext. intros p _. unfold dg_flux_jump. cbn [reverse ef_normal ef_s ef_n flip_point f_normal fA_s fA_n]. rewrite !normal_flux_opp. unfold grad_in, grad_out. cbn. ring. }
  assert (E2 : fnorm2 (ef_pts (reverse F)) (u_jump cells x (reverse F)) = fnorm2 (ef_pts F) (u_jump cells x F)).
  { cbn [reverse ef_pts]. rewrite fnorm2_flip. apply fnorm2_ext. intros p _. unfold u_jump, u_in, u_out. cbn. ring. }
  unfold dg_eta2. f_equal. f_equal. rewrite !lsum_app. f_equal. cbn [lsum]. f_equal. rewrite E1, E2.
  change (face_diam d (reverse F)) with (face_diam d F). cbn [reverse ef_s ef_n]. cbv zeta. ring.
Qed.
Lemma sym_reverse n l1 l2 F bound : tensors_symmetric d cells n (l1 ++ F :: l2) bound -> tensors_symmetric d cells n (l1 ++ reverse F :: l2) bound.
Proof.
  intros (H1 & H2 & H3). split; [easy|]. split; [|easy]. intros F' p HF' Hp. apply in_app_iff in HF'. destruct HF' as [HF'|[<-|HF']].
  - apply (H2 F'); [apply in_app_iff; now left | easy].
  - cbn in Hp. apply in_map_iff in Hp. destruct Hp as (q & <- & Hq). destruct (H2 F q) as (A & B); [apply in_app_iff; right; now left | easy|]. now split.
  - apply (H2 F'); [apply in_app_iff; right; now right | easy].
Qed.
End orientation.
