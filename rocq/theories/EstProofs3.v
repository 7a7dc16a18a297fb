(** Proofs about the temporal error estimators. *)
From Coq Require Import Lra Lia List.
Import ListNotations.
From Verif Require Import CommonFacts CdModel CdSpec CdProofs FlowProofs EstModel EstSpec EstProofs EstProofs2.
Local Open Scope R_scope.

(** ** Simpson's rule *)
Lemma variation_nonneg g t dt : 0 <= variation g t dt.
Proof.
  unfold variation. set (m := simpson g t dt). unfold simpson at 1. cbv beta.
  pose proof (sq_nonneg (g t - m)). pose proof (sq_nonneg (g (t + dt / 2) - m)). pose proof (sq_nonneg (g (t + dt) - m)). lra.
Qed.
Lemma variation_zero g t dt : variation g t dt = 0 <-> g t = g (t + dt / 2) /\ g (t + dt) = g (t + dt / 2).
Proof.
  unfold variation. set (m := simpson g t dt). unfold simpson at 1. cbv beta.
  pose proof (sq_nonneg (g t - m)). pose proof (sq_nonneg (g (t + dt / 2) - m)). pose proof (sq_nonneg (g (t + dt) - m)). split.
  - intros E. assert (E1 : (g t - m) ^ 2 = 0) by lra. assert (E2 : (g (t + dt / 2) - m) ^ 2 = 0) by lra. assert (E3 : (g (t + dt) - m) ^ 2 = 0) by lra.
    apply (proj1 (sq_zero _)) in E1, E2, E3. split; lra.
  - intros (E1 & E2). assert (m = g (t + dt / 2)) by (unfold m, simpson; rewrite E1, E2; field). rewrite E1, E2, H2. field.
Qed.
Lemma half dt : / 2 * dt = dt / 2. Proof. field. Qed.

(** ** The first estimator *)
Section te.
Variables (d : nat) (t dt : R).
Definition w (p : tpt) : R := t_weight p * t_ie p.
Definition fmean (p : tpt) : R := 1 / 6 * t_f p t + 2 / 3 * t_f p (t + / 2 * dt) + 1 / 6 * t_f p (t + dt).
Lemma te1_fold C x pts t0 a b c e : fold_left (fun '(pt, (sum, (down, (mid, up)))) p =>
    let u := eval_u (tc_n C) x (t_phi p) in
    let factor := t_weight p * t_ie p in
    let sum := sum + u * u * factor in
    let pt := t in let f_down := t_f p pt in
    let pt := t + / 2 * dt in let f_mid := t_f p pt in
    let pt := t + dt in let f_up := t_f p pt in
    let f_average := 1 / 6 * f_down + 2 / 3 * f_mid + 1 / 6 * f_up in
    (pt, (sum, (down + (f_down - f_average) * (f_down - f_average) * factor,
               (mid + (f_mid - f_average) * (f_mid - f_average) * factor,
                up + (f_up - f_average) * (f_up - f_average) * factor))))) pts (t0, (a, (b, (c, e)))) =
  (match pts with [] => t0 | _ => t + dt end,
   (a + lsum (fun p => w p * jump_at C x p ^ 2) pts,
   (b + lsum (fun p => w p * (t_f p t - fmean p) ^ 2) pts,
   (c + lsum (fun p => w p * (t_f p (t + / 2 * dt) - fmean p) ^ 2) pts,
    e + lsum (fun p => w p * (t_f p (t + dt) - fmean p) ^ 2) pts)))).
Proof.
  revert t0 a b c e. induction pts as [|p pts IH]; intros; [cbn [fold_left lsum]; now rewrite !Rplus_0_r|].
  cbn [fold_left lsum]. cbv zeta. cbv zeta in IH. rewrite IH. f_equal; [destruct pts; reflexivity|].
  rewrite eval_u_sum. unfold jump_at, w, fmean.
  f_equal; [ring|]. f_equal; [ring|]. f_equal; ring.
Qed.
Lemma te1_volume_at C c x s : te1_volume t dt C c x s =
  mkts (match tc_pts C with [] => ts_time s | _ => t + dt end)
    (acc (acc (ts_r s) c (tc_h C * tc_h C / dt * tnorm2 (tc_pts C) (fun p => jump_at C x p ^ 2))) c (tc_h C ^ 2 * dt * tnorm2 (tc_pts C) (fun p => variation (t_f p) t dt))).
Proof.
  unfold te1_volume. rewrite te1_fold. f_equal. rewrite !Rplus_0_l. f_equal.
  rewrite <- !lsum_scal, <- !lsum_plus. replace (tc_h C ^ 2) with (tc_h C * tc_h C) by ring. f_equal. unfold tnorm2. apply lsum_ext.
  intros p _. unfold variation, simpson. assert (fmean p = (t_f p t + 4 * t_f p (t + dt / 2) + t_f p (t + dt)) / 6) as -> by (unfold fmean; rewrite half; field).
  rewrite !half. unfold w. field.
Qed.
Lemma te1_at cells n x t0 c : (c < n)%nat -> ts_r (te1_estimate t dt cells n x t0) c = te1_eta2 t dt (cells c) (x c).
Proof.
  intros Hc. unfold te1_estimate.
  assert (E : forall m, ts_r (loop m (fun c s => te1_volume t dt (cells c) c (x c) s) (mkts t0 (fun _ => 0))) c = when (c <? m)%nat (te1_eta2 t dt (cells c) (x c))).
  { induction m as [|m IH]; [now destruct (Nat.ltb_spec c 0); [lia|]|]. cbn [loop]. rewrite te1_volume_at. cbn [ts_r]. rewrite !acc_at, IH. unfold when, te1_eta2.
    destruct (Nat.ltb_spec c m), (Nat.ltb_spec c (S m)), (Nat.eqb_spec c m); subst; try lia; try lra. }
  rewrite E. unfold when. now destruct (Nat.ltb_spec c n); [|lia].
Qed.
Lemma te1_time cells n x t0 : (exists c, (c < n)%nat /\ tc_pts (cells c) <> []) -> ts_time (te1_estimate t dt cells n x t0) = t + dt.
Proof.
  intros (c & Hc & Hp). unfold te1_estimate. induction n as [|m IH]; [lia|]. cbn [loop]. rewrite te1_volume_at. cbn [ts_time].
  destruct (tc_pts (cells m)) eqn:E; [|reflexivity]. apply IH. destruct (Nat.eq_dec c m) as [->|]; [easy | lia].
Qed.

(** ** The second estimator *)
Definition smean (C : tcell) (i : nat) : R := 1 / 6 * tc_interp C t i + 2 / 3 * tc_interp C (t + / 2 * dt) i + 1 / 6 * tc_interp C (t + dt) i.
Definition dev2 (C : tcell) (p : tpt) (y : vec) : R :=
  rsum d (fun k => (grad_at (tc_n C) y (grads d (t_jac p) (t_js p)) k - grad_at (tc_n C) (smean C) (grads d (t_jac p) (t_js p)) k) ^ 2).
Lemma dot_dev C p y : dot d (fun k => eval_grad (tc_n C) y (fun i => mv d (t_jac p) (t_js p i)) k - eval_grad (tc_n C) (smean C) (fun i => mv d (t_jac p) (t_js p i)) k)
  (fun k => eval_grad (tc_n C) y (fun i => mv d (t_jac p) (t_js p i)) k - eval_grad (tc_n C) (smean C) (fun i => mv d (t_jac p) (t_js p i)) k) = dev2 C p y.
Proof.
  rewrite dot_sum. unfold inner, dev2. apply rsum_ext. intros k _. rewrite !eval_grad_sum.
  assert (E : forall z, grad_at (tc_n C) z (fun i => mv d (t_jac p) (t_js p i)) k = grad_at (tc_n C) z (grads d (t_jac p) (t_js p)) k).
  { intros z. unfold grad_at. apply rsum_ext. intros i _. now rewrite grads_mv. }
  rewrite !E. ring.
Qed.
Lemma dot_self C p x : dot d (eval_grad (tc_n C) x (fun i => mv d (t_jac p) (t_js p i))) (eval_grad (tc_n C) x (fun i => mv d (t_jac p) (t_js p i))) =
  inner d (jump_grad d C x p) (jump_grad d C x p).
Proof. rewrite dot_eval. apply inner_ext; [|easy]. intros k _. rewrite eval_grad_sum. unfold jump_grad, grad_at. apply rsum_ext. intros i _. now rewrite grads_mv. Qed.

Lemma te2_fold C x pts a b c e : fold_left (fun '(sum_grad, (down, (mid, up))) p =>
    let factor := t_weight p * t_ie p in
    let gradphi := fun i => mv d (t_jac p) (t_js p i) in
    let gradu := eval_grad (tc_n C) x gradphi in
    let sum_grad := sum_grad + dot d gradu gradu * factor in
    let gradf_average := eval_grad (tc_n C) (smean C) gradphi in
    let gd := fun k => eval_grad (tc_n C) (tc_interp C t) gradphi k - gradf_average k in
    let gm := fun k => eval_grad (tc_n C) (tc_interp C (t + / 2 * dt)) gradphi k - gradf_average k in
    let gu := fun k => eval_grad (tc_n C) (tc_interp C (t + dt)) gradphi k - gradf_average k in
    (sum_grad, (down + dot d gd gd * factor, (mid + dot d gm gm * factor, up + dot d gu gu * factor)))) pts (a, (b, (c, e))) =
  (a + lsum (fun p => w p * inner d (jump_grad d C x p) (jump_grad d C x p)) pts,
   (b + lsum (fun p => w p * dev2 C p (tc_interp C t)) pts,
   (c + lsum (fun p => w p * dev2 C p (tc_interp C (t + / 2 * dt))) pts,
    e + lsum (fun p => w p * dev2 C p (tc_interp C (t + dt))) pts))).
Proof.
  revert a b c e. induction pts as [|p pts IH]; intros; [cbn [fold_left lsum]; now rewrite !Rplus_0_r|].
  cbn [fold_left lsum]. cbv zeta. cbv zeta in IH. rewrite IH. rewrite dot_self, !dot_dev. unfold w.
  f_equal; [ring|]. f_equal; [ring|]. f_equal; ring.
Qed.
Lemma smean_grad C p k : grad_at (tc_n C) (smean C) (grads d (t_jac p) (t_js p)) k = simpson (fun s => source_grad d C p s k) t dt.
Proof.
  unfold simpson, source_grad, grad_at, smean. rewrite half. set (G := grads d (t_jac p) (t_js p)).
  rewrite (rsum_ext _ _ (fun i => / 6 * (tc_interp C t i * G i k + (4 * (tc_interp C (t + dt / 2) i * G i k) + tc_interp C (t + dt) i * G i k)))) by (intros; field).
  rewrite rsum_scal, !rsum_plus, rsum_scal. field.
Qed.
Lemma te2_volume_at C c x s : te2_volume d t dt C c x s =
  mkts (t + dt)
    (acc (acc (ts_r s) c (dt * tnorm2 (tc_pts C) (fun p => inner d (jump_grad d C x p) (jump_grad d C x p)))) c
       (dt ^ 3 * tnorm2 (tc_pts C) (fun p => rsum d (fun k => variation (fun s => source_grad d C p s k) t dt)))).
Proof.
  unfold te2_volume. change (fun i => 1 / 6 * tc_interp C t i + 2 / 3 * tc_interp C (t + / 2 * dt) i + 1 / 6 * tc_interp C (t + dt) i) with (smean C).
  cbv zeta. pose proof (te2_fold C x (tc_pts C) 0 0 0 0) as E. cbv zeta in E. rewrite E. f_equal. rewrite !Rplus_0_l. f_equal.
  rewrite <- !lsum_scal, <- !lsum_plus. replace (dt ^ 3) with (dt * dt * dt) by ring. f_equal. unfold tnorm2. apply lsum_ext.
  intros p _. unfold w. replace (t_weight p * t_ie p * rsum d (fun k => variation (fun s0 => source_grad d C p s0 k) t dt))
    with (1 / 6 * (t_weight p * t_ie p * dev2 C p (tc_interp C t)) + 2 / 3 * (t_weight p * t_ie p * dev2 C p (tc_interp C (t + / 2 * dt))) + 1 / 6 * (t_weight p * t_ie p * dev2 C p (tc_interp C (t + dt)))); [reflexivity|].
  unfold dev2. rewrite half.
  rewrite (rsum_ext _ (fun k => variation (fun s0 => source_grad d C p s0 k) t dt) (fun k => / 6 *
     ((grad_at (tc_n C) (tc_interp C t) (grads d (t_jac p) (t_js p)) k - grad_at (tc_n C) (smean C) (grads d (t_jac p) (t_js p)) k) ^ 2 +
     (4 * (grad_at (tc_n C) (tc_interp C (t + dt / 2)) (grads d (t_jac p) (t_js p)) k - grad_at (tc_n C) (smean C) (grads d (t_jac p) (t_js p)) k) ^ 2 +
      (grad_at (tc_n C) (tc_interp C (t + dt)) (grads d (t_jac p) (t_js p)) k - grad_at (tc_n C) (smean C) (grads d (t_jac p) (t_js p)) k) ^ 2)))).
  - rewrite rsum_scal, !rsum_plus, rsum_scal. field.
  - intros k _. rewrite smean_grad. unfold variation. set (m := simpson (fun s0 => source_grad d C p s0 k) t dt). unfold simpson. change (fun s0 => source_grad d C p s0 k) with (fun s0 => grad_at (tc_n C) (tc_interp C s0) (grads d (t_jac p) (t_js p)) k). unfold source_grad. field.
Qed.
Lemma te2_boundary_at h c btype pts s : te2_boundary t dt h c btype pts s =
  match btype with
  | Neumann => mkts (match pts with [] => ts_time s | _ => t + dt end) (acc (ts_r s) c ((h + dt ^ 2 / h) * dt * lsum (flux_change t dt) pts))
  | _ => s
  end.
Proof.
  unfold te2_boundary. destruct btype; try reflexivity.
  assert (E : forall pts t0 a b, fold_left (fun '(pt, (down, up)) p =>
      let pt := t in let j_down := tb_j p pt in
      let pt := t + / 2 * dt in let j_mid := tb_j p pt in
      let pt := t + dt in let j_up := tb_j p pt in
      let factor := tb_weight p * tb_ie p in
      (pt, (down + (j_down - j_mid) * (j_down - j_mid) * factor, up + (j_up - j_mid) * (j_up - j_mid) * factor))) pts (t0, (a, b)) =
    (match pts with [] => t0 | _ => t + dt end,
     (a + lsum (fun p => tb_weight p * tb_ie p * (tb_j p t - tb_j p (t + dt / 2)) ^ 2) pts, b + lsum (fun p => tb_weight p * tb_ie p * (tb_j p (t + dt) - tb_j p (t + dt / 2)) ^ 2) pts))).
  { clear pts. induction pts as [|p pts IH]; intros; [cbn [fold_left lsum]; now rewrite !Rplus_0_r|].
    cbn [fold_left lsum]. cbv zeta. cbv zeta in IH. rewrite IH, half. f_equal; [destruct pts; reflexivity|]. f_equal; ring. }
  rewrite E. f_equal. f_equal. rewrite !Rplus_0_l, <- lsum_plus. replace (dt * dt) with (dt ^ 2) by ring.
  rewrite (Rmult_assoc _ (/ 2)). f_equal. rewrite <- lsum_scal. apply lsum_ext. intros p _. unfold flux_change. field.
Qed.
Lemma te2_at cells n bound x t0 c : (c < n)%nat -> ts_r (te2_estimate d t dt cells n bound x t0) c =
  te2_eta2 d t dt (cells c) (x c) +
  lsum (fun b => when (c =? tbd_c b)%nat match tbd_bc b with Neumann => (tc_h (cells (tbd_c b)) + dt ^ 2 / tc_h (cells (tbd_c b))) * dt * lsum (flux_change t dt) (tbd_pts b) | _ => 0 end) bound.
Proof.
  intros Hc. unfold te2_estimate. rewrite (T_fold (fun s => ts_r s c)
    _ (fun b => when (c =? tbd_c b)%nat match tbd_bc b with Neumann => (tc_h (cells (tbd_c b)) + dt ^ 2 / tc_h (cells (tbd_c b))) * dt * lsum (flux_change t dt) (tbd_pts b) | _ => 0 end)).
  - f_equal.
    assert (E : forall m, ts_r (loop m (fun c s => te2_volume d t dt (cells c) c (x c) s) (mkts t0 (fun _ => 0))) c = when (c <? m)%nat (te2_eta2 d t dt (cells c) (x c))).
    { induction m as [|m IH]; [now destruct (Nat.ltb_spec c 0); [lia|]|]. cbn [loop]. rewrite te2_volume_at. cbn [ts_r]. rewrite !acc_at, IH. unfold when, te2_eta2.
      destruct (Nat.ltb_spec c m), (Nat.ltb_spec c (S m)), (Nat.eqb_spec c m); subst; try lia; try lra. }
    rewrite E. unfold when. now destruct (Nat.ltb_spec c n); [|lia].
  - intros b s _. rewrite te2_boundary_at. destruct (tbd_bc b); try (unfold when; destruct (c =? tbd_c b)%nat; lra).
    cbn [ts_r]. apply acc_at.
Qed.
Lemma te2_time cells n bound x t0 : (0 < n)%nat -> ts_time (te2_estimate d t dt cells n bound x t0) = t + dt.
Proof.
  intros Hn. unfold te2_estimate. assert (E : ts_time (loop n (fun c s => te2_volume d t dt (cells c) c (x c) s) (mkts t0 (fun _ => 0))) = t + dt).
  { destruct n as [|m]; [lia|]. cbn [loop]. now rewrite te2_volume_at. }
  revert E. generalize (loop n (fun c s => te2_volume d t dt (cells c) c (x c) s) (mkts t0 (fun _ => 0))). induction bound as [|b bound IH]; intros s E; [exact E|].
  cbn [fold_left]. apply IH. rewrite te2_boundary_at. destruct (tbd_bc b); auto. cbn. now destruct (tbd_pts b).
Qed.
End te.
