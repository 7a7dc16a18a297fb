(** The operator with vector-valued basis functions computes the forms of the interior penalty method. *)
From Verif Require Import Common CdModel CdSpec CdProofs WaveModel FlowModel FlowSpec FlowProofs FlowProofs2 DgnsModel DgnsSpec DgnsProofs VvModel VvSpec.
From Coq Require Import Reals Lra Lia FunctionalExtensionality.
Open Scope R_scope.
Local Arguments rsum : simpl never.

Lemma loop_sum n f s : loop n (fun k s => s + f k) s = s + rsum n f.
Proof. induction n as [|n IH]; cbn [loop]; [unfold rsum; ring|]. rewrite rsum_S, IH. ring. Qed.
Lemma loop_ext {S} n (f g : nat -> S -> S) s : (forall k s, f k s = g k s) -> loop n f s = loop n g s.
Proof. intros H. induction n as [|n IH]; cbn [loop]; [reflexivity|]. rewrite IH. apply H. Qed.
Lemma F_contraction dim a b : contraction dim a b = ddot dim a b.
Proof.
  unfold contraction, ddot, inner. rewrite (loop_ext dim _ (fun r v => v + rsum dim (fun c => a r c * b r c))) by (intros; apply loop_sum). rewrite loop_sum. ring.
Qed.
Lemma F_diverg dim J : diverg dim J = trace dim J. Proof. unfold diverg, trace. rewrite loop_sum. ring. Qed.
Lemma F_flux dim du n : flux dim du n = traction false dim n du.
Proof. apply functional_extensionality. intros r. unfold flux, add_flux, traction, inner. rewrite (loop_sum dim (fun c => du r c * n c)). ring. Qed.
Lemma F_add_flux dim du n w : add_flux dim du n w = fun r => w r + traction false dim n du r.
Proof. apply functional_extensionality. intros r. unfold add_flux, traction, inner. rewrite (loop_sum dim (fun c => du r c * n c)). ring. Qed.
Lemma F_vec n x phi : eval_vec n x phi = vfield n x phi.
Proof. unfold eval_vec. rewrite F_grad. reflexivity. Qed.
Lemma F_mat dim n x geo lj : eval_mat n x (vv_jac dim geo lj) = vgrad dim n x geo lj.
Proof.
  unfold eval_mat, vgrad, vv_jac. rewrite F_mv. assert (E : forall k, loop k (fun i A => fun r c => A r c + x i * apply dim geo (lj i r) c) (fun _ _ => 0) = fun r c => rsum k (fun i => x i * apply dim geo (lj i r) c)).
  { induction k as [|k IH]; cbn [loop]; apply functional_extensionality; intros r; apply functional_extensionality; intros c; [reflexivity|]. rewrite IH, rsum_S. reflexivity. }
  apply E.
Qed.
Lemma F_jac dim geo lj : vv_jac dim geo lj = fun i r => apply dim geo (lj i r).
Proof. unfold vv_jac. rewrite F_mv. reflexivity. Qed.
Lemma F_div n (x : vec) dim J : loop n (fun i s => s + x i * diverg dim (J i)) 0 = rsum n (fun i => x i * trace dim (J i)).
Proof. rewrite (loop_sum n (fun i => x i * diverg dim (J i))). rewrite Rplus_0_l. apply rsum_ext. intros. rewrite F_diverg. reflexivity. Qed.
Lemma G_flux : flux = fun dim du n => traction false dim n du. Proof. do 3 (apply functional_extensionality; intros). apply F_flux. Qed.
Lemma G_contraction : contraction = ddot. Proof. do 3 (apply functional_extensionality; intros). apply F_contraction. Qed.
Lemma G_diverg : diverg = trace. Proof. do 2 (apply functional_extensionality; intros). apply F_diverg. Qed.
Ltac vv_functions := rewrite ?F_div; rewrite ?F_mat; rewrite ?F_jac; rewrite ?F_vec; spec_functions; rewrite ?F_add_flux; rewrite ?G_contraction, ?G_diverg, ?G_flux; cbv beta.

(** Linear functionals of a field are sums over the basis. *)
Section lin.
Variables (dim n : nat) (x : vec) (phi : nat -> vec) (geo : mat) (lj : nat -> mat).
Notation J := (fun (i : nat) (r : nat) => apply dim geo (lj i r)).
Notation gx := (vgrad dim n x geo lj).
Lemma L_inner a : inner dim a (vfield n x phi) = rsum n (fun i => x i * inner dim a (phi i)).
Proof.
  unfold inner, vfield. rewrite (rsum_ext dim _ (fun k => rsum n (fun i => x i * (a k * phi i k)))) by (intros; rewrite <- rsum_scal; apply rsum_ext; intros; ring).
  rewrite rsum_swap. apply rsum_ext. intros. rewrite rsum_scal. reflexivity.
Qed.
Lemma L_inner' a : inner dim (vfield n x phi) a = rsum n (fun i => x i * inner dim (phi i) a).
Proof.
  unfold inner, vfield. rewrite (rsum_ext dim _ (fun k => rsum n (fun i => x i * (phi i k * a k)))) by (intros; rewrite <- rsum_scal_r; apply rsum_ext; intros; ring).
  rewrite rsum_swap. apply rsum_ext. intros. rewrite rsum_scal. reflexivity.
Qed.
Lemma L_row r a : inner dim (gx r) a = rsum n (fun i => x i * inner dim (J i r) a).
Proof.
  unfold inner, vgrad. rewrite (rsum_ext dim _ (fun k => rsum n (fun i => x i * (apply dim geo (lj i r) k * a k)))) by (intros; rewrite <- rsum_scal_r; apply rsum_ext; intros; ring).
  rewrite rsum_swap. apply rsum_ext. intros. rewrite rsum_scal. reflexivity.
Qed.
Lemma L_ddot A : ddot dim A gx = rsum n (fun i => x i * ddot dim A (J i)).
Proof.
  unfold ddot. rewrite (rsum_ext dim _ (fun r => rsum n (fun i => x i * inner dim (A r) (J i r)))).
  - rewrite rsum_swap. apply rsum_ext. intros. rewrite rsum_scal. reflexivity.
  - intros r _. transitivity (inner dim (gx r) (A r)); [unfold inner; apply rsum_ext; intros; ring|]. rewrite L_row. apply rsum_ext. intros. f_equal. unfold inner; apply rsum_ext; intros; ring.
Qed.
Lemma L_ddot' A : ddot dim gx A = rsum n (fun i => x i * ddot dim (J i) A).
Proof.
  unfold ddot. rewrite (rsum_ext dim _ (fun r => rsum n (fun i => x i * inner dim (J i r) (A r)))).
  - rewrite rsum_swap. apply rsum_ext. intros. rewrite rsum_scal. reflexivity.
  - intros r _. apply L_row.
Qed.
Lemma L_trace : trace dim gx = rsum n (fun i => x i * trace dim (J i)).
Proof. unfold trace, vgrad. rewrite rsum_swap. apply rsum_ext. intros. rewrite rsum_scal. reflexivity. Qed.
Lemma L_traction nu a : inner dim (traction false dim nu gx) a = rsum n (fun i => x i * inner dim (traction false dim nu (J i)) a).
Proof.
  unfold inner at 1. unfold traction at 1. rewrite (rsum_ext dim _ (fun k => rsum n (fun i => x i * (traction false dim nu (J i) k * a k)))).
  - rewrite rsum_swap. apply rsum_ext. intros. unfold inner. rewrite rsum_scal. reflexivity.
  - intros k _. rewrite L_row. rewrite Rplus_0_r. rewrite <- rsum_scal_r. apply rsum_ext. intros. unfold traction. ring.
Qed.
Lemma L_conv g a : inner dim (fun d => inner dim (vfield n x phi) (g d)) a = rsum n (fun i => x i * inner dim (fun d => inner dim (phi i) (g d)) a).
Proof.
  unfold inner at 1. rewrite (rsum_ext dim _ (fun k => rsum n (fun i => x i * (inner dim (phi i) (g k) * a k)))).
  - rewrite rsum_swap. apply rsum_ext. intros. unfold inner at 2. rewrite rsum_scal. reflexivity.
  - intros k _. rewrite L_inner'. rewrite <- rsum_scal_r. apply rsum_ext. intros. ring.
Qed.
Lemma L_conv' w a : inner dim (fun d => inner dim w (gx d)) a = rsum n (fun i => x i * inner dim (fun d => inner dim w (J i d)) a).
Proof.
  unfold inner at 1. rewrite (rsum_ext dim _ (fun k => rsum n (fun i => x i * (inner dim w (J i k) * a k)))).
  - rewrite rsum_swap. apply rsum_ext. intros. unfold inner at 2. rewrite rsum_scal. reflexivity.
  - intros k _. transitivity (inner dim (gx k) w * a k); [f_equal; unfold inner; apply rsum_ext; intros; ring|]. rewrite L_row, <- rsum_scal_r. apply rsum_ext. intros. rewrite Rmult_assoc. f_equal. f_equal. unfold inner; apply rsum_ext; intros; ring.
Qed.
End lin.
Lemma inner_sym d a b : inner d a b = inner d b a. Proof. unfold inner. apply rsum_ext. intros. ring. Qed.
Lemma apply_inner d A w : apply d A w = fun k => inner d w (A k).
Proof. apply functional_extensionality. intros k. unfold apply, inner. apply rsum_ext. intros. ring. Qed.

Lemma G_apply : apply = fun d A w k => inner d w (A k).
Proof. do 3 (apply functional_extensionality; intros). apply apply_inner. Qed.
Lemma traction_inner d A w : traction false d w A = fun k => inner d w (A k).
Proof. apply functional_extensionality. intros k. unfold traction. rewrite inner_sym. ring. Qed.

Lemma jump_r d a b c : inner d a (jump b c) = inner d a b - inner d a c.
Proof. rewrite inner_sym, inner_jump_l, !(inner_sym d a). reflexivity. Qed.
Lemma mean_l d a b c : inner d (mean a b) c = (inner d a c + inner d b c) / 2.
Proof. unfold Rdiv. rewrite <- inner_plus_l. unfold inner. rewrite <- rsum_scal_r. apply rsum_ext. intros. unfold mean. field. Qed.
Lemma half_l d a b c : inner d (fun k => (a k + b k) * (1/2)) c = (inner d a c + inner d b c) / 2.
Proof. rewrite <- mean_l. unfold inner. apply rsum_ext. intros. unfold mean. field. Qed.
Lemma minus_l d a b c : inner d (fun k => a k - b k) c = inner d a c - inner d b c. Proof. apply inner_jump_l. Qed.
Lemma minus_r d a b c : inner d c (fun k => a k - b k) = inner d c a - inner d c b. Proof. apply jump_r. Qed.

(** Bilinear ones *)
Section bilin.
Variables (dim n n' : nat) (x y : vec) (phi psi : nat -> vec) (geo geo' : mat) (lj lj' : nat -> mat) (nu : vec).
Notation J := (fun (i : nat) (r : nat) => apply dim geo (lj i r)).
Notation J' := (fun (i : nat) (r : nat) => apply dim geo' (lj' i r)).
Lemma B_vv : inner dim (vfield n x phi) (vfield n' y psi) = rsum n' (fun i => y i * rsum n (fun j => x j * inner dim (phi j) (psi i))).
Proof. rewrite L_inner. apply rsum_ext. intros. rewrite L_inner'. reflexivity. Qed.
Lemma B_tv : inner dim (traction false dim nu (vgrad dim n x geo lj)) (vfield n' y psi) = rsum n' (fun i => y i * rsum n (fun j => x j * inner dim (traction false dim nu (J j)) (psi i))).
Proof. rewrite L_inner. apply rsum_ext. intros. rewrite L_traction. reflexivity. Qed.
Lemma B_vt : inner dim (traction false dim nu (vgrad dim n' y geo' lj')) (vfield n x phi) = rsum n' (fun i => y i * rsum n (fun j => x j * inner dim (traction false dim nu (J' i)) (phi j))).
Proof. rewrite L_traction. apply rsum_ext. intros. rewrite L_inner. reflexivity. Qed.
Lemma B_gg : ddot dim (vgrad dim n x geo lj) (vgrad dim n' y geo' lj') = rsum n' (fun i => y i * rsum n (fun j => x j * ddot dim (J j) (J' i))).
Proof. rewrite L_ddot. apply rsum_ext. intros. rewrite L_ddot'. reflexivity. Qed.
Lemma B_c g : inner dim (fun d => inner dim (vfield n x phi) (g d)) (vfield n' y psi) = rsum n' (fun i => y i * rsum n (fun j => x j * inner dim (fun d => inner dim (phi j) (g d)) (psi i))).
Proof. rewrite L_inner. apply rsum_ext. intros. rewrite L_conv. reflexivity. Qed.
Lemma B_c' w : inner dim (fun d => inner dim w (vgrad dim n x geo lj d)) (vfield n' y psi) = rsum n' (fun i => y i * rsum n (fun j => x j * inner dim (fun d => inner dim w (J j d)) (psi i))).
Proof. rewrite L_inner. apply rsum_ext. intros. rewrite L_conv'. reflexivity. Qed.
End bilin.

Lemma dbl_plus n n' (y z : vec) f g :
  rsum n (fun i => y i * rsum n' (fun j => z j * (f i j + g i j))) = rsum n (fun i => y i * rsum n' (fun j => z j * f i j)) + rsum n (fun i => y i * rsum n' (fun j => z j * g i j)).
Proof. rewrite <- rsum_plus. apply rsum_ext. intros. rewrite <- Rmult_plus_distr_l, <- rsum_plus. f_equal. apply rsum_ext. intros. ring. Qed.

Section vv.
Variables (navier full : bool) (eps pen sc : R) (dim vsize psize : nat).
Notation sz := (mx_size vsize psize).
Ltac sd := solve [lia | unfold mx_size; cbn; lia].
Ltac acc1 := repeat first [ rewrite tested_macc by sd | rewrite tf_s by sd | rewrite tf_n by sd ].

Lemma vv_volume_eq pts x y r :
  tested 2 sz y (vv_alpha_volume navier full sc dim vsize psize pts x r) = tested 2 sz y r +
  lsum (fun p => vp_vol p * cell_form navier false dim sc (vp_mu p) (vp_rho p) (vv_cell dim vsize psize p x) (vv_cell dim vsize psize p y)) pts.
Proof.
  unfold vv_alpha_volume. apply (T_fold (tested 2 sz y)). intros p r0 _. cbv zeta. vv_functions.
  set (u := vv_cell dim vsize psize p x). set (v := vv_cell dim vsize psize p y).
  rewrite (T_loop (tested 2 sz y) psize _ (fun i => y 1%nat i * (- trace dim (s_gu u) * vp_psi p i * sc * vp_vol p))).
  2:{ intros k s Hk. acc1. unfold u, vv_cell. cbn [s_gu]. rewrite L_trace. reflexivity. }
  rewrite (T_loop (tested 2 sz y) vsize _ (fun i => y 0%nat i * (vp_vol p * (vp_mu p * ddot dim (s_gu u) (fun r => apply dim (vp_geo p) (vp_lj p i r)) - trace dim (fun r => apply dim (vp_geo p) (vp_lj p i r)) * s_p u
     + (if navier then vp_rho p * inner dim (fun d => inner dim (s_u u) (s_gu u d)) (vp_phi p i) else 0))))).
  2:{ intros k s Hk. destruct navier; acc1; rewrite ?F_contraction, ?F_diverg; unfold vp_vol, u, vv_cell; cbn [s_gu s_u s_p]; [rewrite ?apply_inner, ?traction_inner|]; ring. }
  unfold cell_form, ns_form. cbn [s_gu s_u s_p]. subst v. unfold vv_cell at 1 2 3 4. cbn [s_gu s_u s_p].
  rewrite L_ddot, L_trace, L_inner. unfold vv_cell. cbn [s_gu s_u s_p]. unfold fun_at. rewrite Rplus_assoc. apply f_equal.
  rewrite (rsum_ext vsize _ (fun i => vp_vol p * vp_mu p * (y 0%nat i * ddot dim (s_gu u) (fun r => apply dim (vp_geo p) (vp_lj p i r))) + - (vp_vol p * s_p u) * (y 0%nat i * trace dim (fun r => apply dim (vp_geo p) (vp_lj p i r)))
     + (if navier then vp_vol p * vp_rho p else 0) * (y 0%nat i * inner dim (fun d => inner dim (s_u u) (s_gu u d)) (vp_phi p i)))) by (intros; destruct navier; ring).
  rewrite (rsum_ext psize _ (fun i => - (trace dim (s_gu u) * sc * vp_vol p) * (y 1%nat i * vp_psi p i))) by (intros; ring).
  rewrite !rsum_plus, !rsum_scal. destruct navier; ring.
Qed.

Ltac unstate := unfold vv_s, vv_n, vv_b, vv_cell; cbn [s_gu s_u s_p].
Lemma vv_skeleton_eq pts xs xn ys yn r :
  tested_face 2 sz ys yn (vv_alpha_skeleton eps pen sc dim vsize psize pts xs xn r) = tested_face 2 sz ys yn r +
  lsum (fun p => vf_vol p * face_form false dim eps pen sc (vf_mu p) (vf_normal p) (vv_s dim vsize psize p xs) (vv_n dim vsize psize p xn)
                                      (vv_s dim vsize psize p ys) (vv_n dim vsize psize p yn)) pts.
Proof.
  unfold vv_alpha_skeleton. apply (T_fold (tested_face 2 sz ys yn)). intros p r0 _. cbv zeta. vv_functions.
  match goal with |- ?A = ?T0 + ?B => eassert (HH : A = T0 + _) by g_go end.
  rewrite HH; clear HH; apply f_equal. unfold face_form. cbv zeta. unstate. unfold mean1, vf_vol.
  set (us := vfield vsize (xs 0%nat) (vf_phi_s p)). set (un := vfield vsize (xn 0%nat) (vf_phi_n p)).
  set (gs := vgrad dim vsize (xs 0%nat) (vf_geo_s p) (vf_lj_s p)). set (gn := vgrad dim vsize (xn 0%nat) (vf_geo_n p) (vf_lj_n p)).
  change (fun k => us k - un k) with (jump us un). set (ju := jump us un).
  replace (fun k => (traction false dim (vf_normal p) gs k + traction false dim (vf_normal p) gn k) * (1 / 2)) with (mean (traction false dim (vf_normal p) gs) (traction false dim (vf_normal p) gn))
    by (apply functional_extensionality; intros; unfold mean; field).
  set (mt := mean (traction false dim (vf_normal p) gs) (traction false dim (vf_normal p) gn)).
  rewrite !jump_r, !mean_l, !inner_jump_l, !L_traction, !L_inner, !L_inner'. pulls. unfold fun_at. field.
Qed.

Lemma vv_jacobian_skeleton_eq pts ys yn zs zn M :
  tested_product 2 sz ys yn zs zn (vv_jacobian_skeleton eps pen sc dim vsize psize pts M) = tested_product 2 sz ys yn zs zn M +
  lsum (fun p => vf_vol p * face_form false dim eps pen sc (vf_mu p) (vf_normal p) (vv_s dim vsize psize p zs) (vv_n dim vsize psize p zn)
                                      (vv_s dim vsize psize p ys) (vv_n dim vsize psize p yn)) pts.
Proof.
  unfold vv_jacobian_skeleton. apply (T_fold (tested_product 2 sz ys yn zs zn)). intros p M0 _. cbv zeta. vv_functions.
  match goal with |- ?A = ?T0 + ?B => eassert (HH : A = T0 + _) by g_go end.
  rewrite HH; clear HH; apply f_equal. unfold face_form. cbv zeta. unstate. unfold mean1, vf_vol.
  rewrite !jump_r, !mean_l, !inner_jump_l, !(B_tv dim _ _ _ (ys 0%nat)), !(B_tv dim _ _ _ (yn 0%nat)), !(B_vt dim _ _ _ (ys 0%nat)), !(B_vt dim _ _ _ (yn 0%nat)), !B_vv, !L_inner'.
  pulls. unfold fun_at. field.
Qed.

Lemma vv_boundary_eq pts x y r :
  tested 2 sz y (vv_alpha_boundary eps pen sc dim vsize psize pts x r) = tested 2 sz y r +
  lsum (fun p => vb_vol p * (vb_form dim eps pen sc p (vv_b dim vsize psize p x) (vv_b dim vsize psize p y) + vb_load dim eps pen sc p (vv_b dim vsize psize p y))) pts.
Proof.
  unfold vv_alpha_boundary. apply (T_fold (tested 2 sz y)). intros p r0 _. cbv zeta. vv_functions. unfold vb_form, vb_load.
  destruct (vb_bc p); cbn [is_velocity is_stress].
  all: try (rewrite Rplus_0_r, Rmult_0_r, Rplus_0_r; reflexivity).
  all: match goal with |- ?A = ?T0 + ?B => eassert (HH : A = T0 + _) by g_go end.
  all: rewrite HH; clear HH; apply f_equal; unfold noslip_form, wall_form; unstate; unfold vb_vol.
  - set (u := vfield vsize (x 0%nat) (vb_phi p)). set (gu := vgrad dim vsize (x 0%nat) (vb_geo p) (vb_lj p)).
    change (fun k => u k - vb_g p k) with (jump u (vb_g p)). set (ju := jump u (vb_g p)).
    assert (U1 : forall w, inner dim u w = inner dim ju w + inner dim (vb_g p) w) by (intros; unfold ju; rewrite inner_jump_l; ring).
    assert (U2 : forall w, inner dim w u = inner dim w ju + inner dim w (vb_g p)) by (intros; unfold ju; rewrite jump_r; ring).
    rewrite !U1, !U2. clearbody u.
    rewrite !L_traction, !L_inner, !L_inner'. pulls. unfold fun_at. field.
  - rewrite !L_inner. pulls. field.
Qed.

Lemma vv_jacobian_boundary_eq pts y z M :
  tested2 2 sz y z (vv_jacobian_boundary eps pen sc dim vsize psize pts M) = tested2 2 sz y z M +
  lsum (fun p => vb_vol p * vb_form dim eps pen sc p (vv_b dim vsize psize p z) (vv_b dim vsize psize p y)) pts.
Proof.
  unfold vv_jacobian_boundary. apply (T_fold (tested2 2 sz y z)). intros p M0 _. cbv zeta. vv_functions. unfold vb_form.
  destruct (vb_bc p); cbn [is_velocity is_stress].
  all: try (rewrite Rmult_0_r, Rplus_0_r; reflexivity).
  match goal with |- ?A = ?T0 + ?B => eassert (HH : A = T0 + _) by g_go end.
  rewrite HH; clear HH; apply f_equal; unfold noslip_form, wall_form; unstate; unfold vb_vol.
  rewrite !(B_tv dim _ _ _ (y 0%nat)), !(B_vt dim _ _ _ (y 0%nat)), !B_vv, !L_inner'. pulls. unfold fun_at. field.
Qed.

Lemma vv_jacobian_volume_eq pts x y z M :
  tested2 2 sz y z (vv_jacobian_volume navier full sc dim vsize psize pts x M) = tested2 2 sz y z M +
  lsum (fun p => let u := vv_cell dim vsize psize p x in let d := vv_cell dim vsize psize p z in let v := vv_cell dim vsize psize p y in
                 vp_vol p * ns_form' navier false dim (vp_mu p) (vp_rho p) (s_u u) (s_gu u) (s_u d) (s_gu d) (s_p d) (s_u v) (s_gu v) (sc * s_p v)) pts.
Proof.
  unfold vv_jacobian_volume. apply (T_fold (tested2 2 sz y z)). intros p M0 _. cbv zeta. vv_functions.
  destruct navier.
  all: match goal with |- ?A = ?T0 + ?B => eassert (HH : A = T0 + _) by g_go end.
  all: rewrite HH; clear HH; apply f_equal; unfold ns_form'; unstate; unfold vp_vol.
  - set (u := vfield vsize (x 0%nat) (vp_phi p)). set (gu := vgrad dim vsize (x 0%nat) (vp_geo p) (vp_lj p)).
    rewrite inner_plus_l, B_c, B_c', B_gg, !L_trace. rewrite G_apply; cbv beta. pulls. unfold fun_at. rewrite (dbl_plus vsize vsize (y 0%nat) (z 0%nat)). field.
  - rewrite B_gg, !L_trace. pulls. unfold fun_at. field.
Qed.
Lemma vv_lambda_eq pts y r :
  tested 2 sz y (vv_lambda_volume dim vsize pts r) = tested 2 sz y r + lsum (fun p => - (vp_vol p * inner dim (vp_f p) (s_u (vv_cell dim vsize psize p y)))) pts.
Proof.
  unfold vv_lambda_volume. apply (T_fold (tested 2 sz y)). intros p M0 _. cbv zeta. vv_functions.
  match goal with |- ?A = ?T0 + ?B => eassert (HH : A = T0 + _) by g_go end.
  rewrite HH; clear HH; apply f_equal. unstate. unfold vp_vol. rewrite L_inner. pulls. ring.
Qed.
End vv.
