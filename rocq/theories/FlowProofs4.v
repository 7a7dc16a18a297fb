(** Derivatives, symmetry, energies, kernels. *)
From Verif Require Import Common CdModel CdSpec CdProofs WaveModel FlowModel FlowSpec FlowProofs FlowProofs2 FlowProofs3.
From Coq Require Import Reals Lra Lia FunctionalExtensionality.
Open Scope R_scope.
Local Arguments rsum : simpl never.

(** Fields depend linearly on the coefficients. *)
Lemma fun_move n (x z phi : vec) t : fun_at n (fun i => x i + t * z i) phi = fun_at n x phi + t * fun_at n z phi.
Proof. unfold fun_at. rewrite <- rsum_scal, <- rsum_plus. apply rsum_ext; intros; ring. Qed.
Lemma grad_move n (x z : vec) G t : grad_at n (fun i => x i + t * z i) G = fun k => grad_at n x G k + t * grad_at n z G k.
Proof. apply functional_extensionality; intros. unfold grad_at. rewrite <- rsum_scal, <- rsum_plus. apply rsum_ext; intros; ring. Qed.
Lemma field_move n x z phi t : field n (move x t z) phi = fun d => field n x phi d + t * field n z phi d.
Proof. apply functional_extensionality; intros. apply fun_move. Qed.
Lemma field_grad_move n x z G t : field_grad n (move x t z) G = fun d k => field_grad n x G d k + t * field_grad n z G d k.
Proof. apply functional_extensionality; intros. apply grad_move. Qed.

Lemma inner_lin_l d a b v t : inner d (fun k => a k + t * b k) v = inner d a v + t * inner d b v.
Proof. unfold inner. rewrite <- rsum_scal, <- rsum_plus. apply rsum_ext; intros; ring. Qed.
Lemma inner_lin_r d a b v t : inner d v (fun k => a k + t * b k) = inner d v a + t * inner d v b.
Proof. unfold inner. rewrite <- rsum_scal, <- rsum_plus. apply rsum_ext; intros; ring. Qed.
Lemma inner_ext_l d a b v : (forall k, a k = b k) -> inner d a v = inner d b v.
Proof. intros H. unfold inner. apply rsum_ext; intros. now rewrite H. Qed.
Lemma ddot_lin d A B V t : ddot d (fun k l => A k l + t * B k l) V = ddot d A V + t * ddot d B V.
Proof. unfold ddot. rewrite <- rsum_scal, <- rsum_plus. apply rsum_ext; intros. apply inner_lin_l. Qed.
Lemma trace_lin d A B t : trace d (fun k l => A k l + t * B k l) = trace d A + t * trace d B.
Proof. unfold trace. rewrite <- rsum_scal, <- rsum_plus. apply rsum_ext; intros; ring. Qed.

(** The quadratic part of the convection term *)
Definition ns_quad (navier : bool) (dim : nat) (rho : R) (z : vec) (gz : mat) (v : vec) : R :=
  if navier then rho * inner dim (fun d => inner dim z (gz d)) v else 0.
Lemma ns_form_move navier full dim mu rho u gu p z gz s v gv q t :
  ns_form navier full dim mu rho (fun d => u d + t * z d) (fun d k => gu d k + t * gz d k) (p + t * s) v gv q =
  ns_form navier full dim mu rho u gu p v gv q + t * ns_form' navier full dim mu rho u gu z gz s v gv q + t * t * ns_quad navier dim rho z gz v.
Proof.
  unfold ns_form, ns_form', ns_quad. rewrite ddot_lin, trace_lin.
  assert (Ht : ddot dim (transposed (fun d k => gu d k + t * gz d k)) gv = ddot dim (transposed gu) gv + t * ddot dim (transposed gz) gv).
  { unfold transposed. apply (ddot_lin dim (fun k l => gu l k) (fun k l => gz l k)). }
  assert (Hn : inner dim (fun d => inner dim (fun d0 => u d0 + t * z d0) (fun k => gu d k + t * gz d k)) v =
               inner dim (fun d => inner dim u (gu d)) v + t * inner dim (fun d => inner dim z (gu d) + inner dim u (gz d)) v + t * t * inner dim (fun d => inner dim z (gz d)) v).
  { rewrite (inner_ext_l dim _ (fun d => (inner dim u (gu d) + t * (inner dim z (gu d) + inner dim u (gz d))) + (t * t) * inner dim z (gz d))).
    - rewrite (inner_lin_l dim (fun d => inner dim u (gu d) + t * (inner dim z (gu d) + inner dim u (gz d)))), inner_lin_l. ring.
    - intros i. rewrite inner_lin_l, !(inner_lin_r dim (gu i) (gz i)). ring. }
  rewrite Ht, Hn. destruct navier, full; ring.
Qed.

Lemma poly_derivative (f : R -> R) A B C : (forall t, f t = A + t * B + t * t * C) -> derivable_pt_lim f 0 B.
Proof.
  intros H eps He.
  assert (Hd : 0 < eps / (Rabs C + 1)).
  { apply Rdiv_lt_0_compat; [lra|]. pose proof (Rabs_pos C). lra. }
  exists (mkposreal _ Hd). intros h Hh Hl. cbn in Hl. rewrite !H.
  replace ((A + (0 + h) * B + (0 + h) * (0 + h) * C - (A + 0 * B + 0 * 0 * C)) / h - B) with (h * C) by (field; easy).
  rewrite Rabs_mult. pose proof (Rabs_pos C).
  apply Rle_lt_trans with (Rabs h * (Rabs C + 1)).
  - apply Rmult_le_compat_l; [apply Rabs_pos|lra].
  - apply Rmult_lt_reg_r with (/ (Rabs C + 1)); [apply Rinv_0_lt_compat; lra|].
    replace (Rabs h * (Rabs C + 1) * / (Rabs C + 1)) with (Rabs h) by (field; lra). exact Hl.
Qed.

(** Elasticity *)
Lemma el_form_move dim mu la gu gz gv t : el_form dim mu la (fun d k => gu d k + t * gz d k) gv = el_form dim mu la gu gv + t * el_form dim mu la gz gv.
Proof.
  unfold el_form. rewrite trace_lin.
  replace (sym_part (fun d k => gu d k + t * gz d k)) with (fun d k => sym_part gu d k + t * sym_part gz d k).
  2:{ do 2 (apply functional_extensionality; intros). unfold sym_part. field. }
  rewrite ddot_lin. ring.
Qed.
Lemma ddot_comm d A B : ddot d A B = ddot d B A.
Proof. unfold ddot. apply rsum_ext; intros. apply inner_comm. Qed.
Lemma el_form_comm dim mu la gu gv : el_form dim mu la gu gv = el_form dim mu la gv gu.
Proof. unfold el_form. rewrite ddot_comm. ring. Qed.
Lemma ddot_nonneg d A : 0 <= ddot d A A.
Proof. unfold ddot, inner. apply rsum_nonneg; intros. apply rsum_nonneg; intros. apply Rle_0_sqr. Qed.
Lemma el_form_skew dim mu la gu gv : (forall k l, (k < dim)%nat -> (l < dim)%nat -> gu k l = - gu l k) -> el_form dim mu la gu gv = 0.
Proof.
  intros H. unfold el_form.
  assert (H1 : ddot dim (sym_part gu) (sym_part gv) = 0).
  { unfold ddot, inner. rewrite (rsum_ext dim _ (fun _ => 0)); [apply rsum_0|]. intros k Hk.
    rewrite (rsum_ext dim _ (fun _ => 0)); [apply rsum_0|]. intros l Hl. unfold sym_part. rewrite (H k l Hk Hl). field. }
  assert (H2 : trace dim gu = 0).
  { unfold trace. rewrite (rsum_ext dim _ (fun _ => 0)); [apply rsum_0|]. intros k Hk. pose proof (H k k Hk Hk). lra. }
  rewrite H1, H2. ring.
Qed.

(** ** Consequences for the operators *)
Section th.
Variables (full : bool) (dim vsize psize : nat).
Let sz := th_size dim vsize psize.
Lemma th_u_move p x t z : th_u vsize p (move x t z) = fun d => th_u vsize p x d + t * th_u vsize p z d.
Proof. apply field_move. Qed.
Lemma th_gu_move p x t z : th_gu dim vsize p (move x t z) = fun d k => th_gu dim vsize p x d k + t * th_gu dim vsize p z d k.
Proof. apply field_grad_move. Qed.
Lemma th_p_move p x t z : th_p dim psize p (move x t z) = th_p dim psize p x + t * th_p dim psize p z.
Proof. apply fun_move. Qed.

Lemma th_expansion navier pts x z y t :
  tested (S dim) sz y (th_alpha_volume navier full dim vsize psize pts (move x t z) zerom) =
  tested (S dim) sz y (th_alpha_volume navier full dim vsize psize pts x zerom)
  + t * tested (S dim) sz y (times (S dim) sz (th_jacobian_volume navier full dim vsize psize pts x zeroT) z)
  + t * t * (if navier then lsum (fun p => th_vol p * (fl_rho p * inner dim (fun d => inner dim (th_u vsize p z) (th_gu dim vsize p z d)) (th_u vsize p y))) pts else 0).
Proof.
  pose proof (th_jacobian_eq navier full dim vsize psize pts x y z zeroT) as HJ. unfold tested2 in HJ. fold sz in HJ.
  rewrite HJ, tested_times_0. unfold sz. rewrite !th_residual_eq, !tested_0. clear HJ.
  replace (if navier then lsum (fun p => th_vol p * (fl_rho p * inner dim (fun d => inner dim (th_u vsize p z) (th_gu dim vsize p z d)) (th_u vsize p y))) pts else 0)
    with (lsum (fun p => th_vol p * ns_quad navier dim (fl_rho p) (th_u vsize p z) (th_gu dim vsize p z) (th_u vsize p y)) pts).
  2:{ unfold ns_quad. destruct navier; [reflexivity|]. transitivity (lsum (fun _ : flpt => 0) pts); [|apply lsum_0]. apply lsum_ext. intros; ring. }
  rewrite !Rplus_0_l, <- !lsum_scal, <- !lsum_plus. apply lsum_ext. intros p _.
  rewrite th_u_move, th_gu_move, th_p_move, ns_form_move. ring.
Qed.

Lemma stokes_symmetric_proof pts x z y :
  tested (S dim) sz y (times (S dim) sz (th_jacobian_volume false full dim vsize psize pts x zeroT) z) =
  tested (S dim) sz z (times (S dim) sz (th_jacobian_volume false full dim vsize psize pts x zeroT) y).
Proof.
  pose proof (th_jacobian_eq false full dim vsize psize pts x y z zeroT) as H1.
  pose proof (th_jacobian_eq false full dim vsize psize pts x z y zeroT) as H2. unfold tested2 in *.
  unfold sz. rewrite H1, H2, !tested_times_0. f_equal. apply lsum_ext. intros p _. unfold ns_form'.
  rewrite (ddot_comm dim (th_gu dim vsize p z)), (ddot_comm dim (transposed (th_gu dim vsize p z))), ddot_transposed. ring.
Qed.

Lemma ddot_ext d A B A' B' : (forall k l, (k < d)%nat -> A k l = A' k l) -> (forall k l, (k < d)%nat -> B k l = B' k l) -> ddot d A B = ddot d A' B'.
Proof. intros H1 H2. unfold ddot, inner. apply rsum_ext; intros. apply rsum_ext; intros. now rewrite H1, H2. Qed.
Lemma stokes_energy_proof pts x :
  tested (S dim) sz (flip dim x) (th_alpha_volume false full dim vsize psize pts x zerom) =
  lsum (fun p => th_vol p * (fl_mu p * (ddot dim (th_gu dim vsize p x) (th_gu dim vsize p x)
                                       + (if full then ddot dim (transposed (th_gu dim vsize p x)) (th_gu dim vsize p x) else 0)))) pts.
Proof.
  unfold sz. rewrite th_residual_eq, tested_0, Rplus_0_l. apply lsum_ext. intros p _. unfold ns_form.
  assert (HG : forall k l, (k < dim)%nat -> th_gu dim vsize p (flip dim x) k l = th_gu dim vsize p x k l).
  { intros k l Hk. unfold th_gu, field_grad, flip. destruct (Nat.ltb_spec k dim); [reflexivity|lia]. }
  rewrite (ddot_ext dim (th_gu dim vsize p x) (th_gu dim vsize p (flip dim x)) (th_gu dim vsize p x) (th_gu dim vsize p x)) by (try reflexivity; assumption).
  rewrite (ddot_ext dim (transposed (th_gu dim vsize p x)) (th_gu dim vsize p (flip dim x)) (transposed (th_gu dim vsize p x)) (th_gu dim vsize p x)) by (try reflexivity; assumption).
  assert (HT : trace dim (th_gu dim vsize p (flip dim x)) = trace dim (th_gu dim vsize p x)).
  { unfold trace. apply rsum_ext. intros. now apply HG. }
  assert (HP : th_p dim psize p (flip dim x) = - th_p dim psize p x).
  { unfold th_p, fun_at, flip. destruct (Nat.ltb_spec dim dim); [lia|]. rewrite <- rsum_opp. apply rsum_ext; intros; ring. }
  rewrite HT, HP. destruct full; ring.
Qed.
Lemma dissipation_nonneg A : 0 <= ddot dim A A + (if full then ddot dim (transposed A) A else 0).
Proof. destruct full; [rewrite <- sym_ddot|]; [pose proof (ddot_nonneg dim (sym_part A))|pose proof (ddot_nonneg dim A)]; lra. Qed.
End th.

Section rigid.
Variables (dim n : nat).
Lemma el_rigid_proof pts (a : vec) (W : mat) (X : nat -> vec) x y :
  (forall k l, (k < dim)%nat -> (l < dim)%nat -> W k l = - W l k) ->
  (forall p, In p pts -> forall l, (l < dim)%nat -> rsum n (fun i => grads dim (el_jac p) (el_js p) i l) = 0) ->
  (forall p, In p pts -> forall k l, (k < dim)%nat -> (l < dim)%nat -> rsum n (fun i => X i k * grads dim (el_jac p) (el_js p) i l) = if (k =? l)%nat then 1 else 0) ->
  (forall d i, (d < dim)%nat -> (i < n)%nat -> x d i = a d + inner dim (W d) (X i)) ->
  tested dim (alike n) y (el_alpha_volume dim n pts x zerom) = 0.
Proof.
  intros HW H0 H1 Hx. rewrite el_residual_eq, tested_0.
  transitivity (0 + lsum (fun _ : elpt => 0) pts); [|rewrite lsum_0; ring]. f_equal.
  apply lsum_ext. intros p Hp. rewrite el_form_skew; [ring|].
  assert (HG : forall k l, (k < dim)%nat -> (l < dim)%nat -> el_gu dim n p x k l = W k l).
  { intros k l Hk Hl. unfold el_gu, field_grad, grad_at.
    rewrite (rsum_ext n _ (fun i => a k * grads dim (el_jac p) (el_js p) i l + rsum dim (fun m => W k m * (X i m * grads dim (el_jac p) (el_js p) i l)))).
    2:{ intros i Hi. rewrite Hx by easy. unfold inner. rewrite Rmult_plus_distr_r, <- rsum_scal_r. f_equal. apply rsum_ext; intros; ring. }
    rewrite rsum_plus, rsum_scal, H0, rsum_swap by easy.
    rewrite (rsum_ext dim _ (fun m => if (m =? l)%nat then W k m else 0)).
    - rewrite rsum_pick by easy. ring.
    - intros m Hm. rewrite rsum_scal, H1 by easy. destruct (m =? l)%nat; ring. }
  intros k l Hk Hl. rewrite !HG by easy. now apply HW.
Qed.
End rigid.

(** ** Mass operators *)
Lemma ns_mass_eq m k n pts x y r : (k <= m)%nat ->
  tested m n y (ns_mass k n pts x r) = tested m n y r +
  rsum k (fun d => lsum (fun p => ms_weight p * ms_ie p * ms_rho p * (fun_at (n d) (x d) (ms_phi p) * fun_at (n d) (y d) (ms_phi p))) (pts d)).
Proof.
  intros Hk. unfold ns_mass. apply (@T_loop (nat -> nat -> R) (tested m n y)). intros d s Hd. apply scalar_mass_eq. lia.
Qed.
Lemma ns_mass_jacobian_eq m k n pts y z M : (k <= m)%nat ->
  tested2 m n y z (ns_mass_jacobian k n pts M) = tested2 m n y z M +
  rsum k (fun d => lsum (fun p => ms_weight p * ms_ie p * ms_rho p * (fun_at (n d) (z d) (ms_phi p) * fun_at (n d) (y d) (ms_phi p))) (pts d)).
Proof.
  intros Hk. unfold ns_mass_jacobian. apply (@T_loop (nat -> nat -> nat -> nat -> R) (tested2 m n y z)). intros d s Hd. apply scalar_mass_jacobian_eq. lia.
Qed.
Lemma l2_eq sc m k n pts x y r : (k <= m)%nat ->
  tested m n y (l2_alpha_volume sc k n pts x r) = tested m n y r +
  rsum k (fun d => lsum (fun p => sc * (ms_weight p * ms_ie p * (fun_at (n d) (x d) (ms_phi p) * fun_at (n d) (y d) (ms_phi p)))) (pts d)).
Proof.
  intros Hk. unfold l2_alpha_volume. apply (@T_loop (nat -> nat -> R) (tested m n y)). intros d s Hd. apply scalar_l2_eq. lia.
Qed.
Lemma l2_jacobian_eq sc m k n pts y z M : (k <= m)%nat ->
  tested2 m n y z (l2_jacobian_volume sc k n pts M) = tested2 m n y z M +
  rsum k (fun d => lsum (fun p => sc * (ms_weight p * ms_ie p * (fun_at (n d) (z d) (ms_phi p) * fun_at (n d) (y d) (ms_phi p)))) (pts d)).
Proof.
  intros Hk. unfold l2_jacobian_volume. apply (@T_loop (nat -> nat -> nat -> nat -> R) (tested2 m n y z)). intros d s Hd. apply scalar_l2_jacobian_eq. lia.
Qed.
