(** Loads, mass, elasticity, mixed and nonlinear diffusion. *)
From Verif Require Import Common CdModel CdSpec CdProofs WaveModel FlowModel FlowSpec FlowProofs FlowProofs2.
From Coq Require Import Reals Lra Lia FunctionalExtensionality.
Open Scope R_scope.
Local Arguments rsum : simpl never.

Ltac t_sum tac := match goal with |- ?A = ?T0 + ?B => let HH := fresh in eassert (HH : A = T0 + _) by t_go tac; rewrite HH; clear HH; apply f_equal; o_sums end.

(** ** Taylor-Hood: loads *)
Lemma th_lambda_eq dim vsize psize pts y r :
  tested (S dim) (th_size dim vsize psize) y (th_lambda_volume dim vsize psize pts r) = tested (S dim) (th_size dim vsize psize) y r +
  lsum (fun p => th_vol p * (- inner dim (fl_f p) (th_u vsize p y) + fl_g2 p * th_p dim psize p y)) pts.
Proof.
  unfold th_lambda_volume. apply (T_fold (tested (S dim) (th_size dim vsize psize) y)). intros p r0 _. t_sum p_sums.
  unfold th_vol, th_u, th_p, field, inner, fun_at.
  rewrite <- rsum_opp. rewrite (rsum_ext dim _ (fun k => - (fl_f p k * rsum vsize (fun i => y k i * fl_phi p i)))) by (intros; ring). ring.
Qed.
Lemma th_boundary_eq dim vsize psize pts y r :
  tested (S dim) (th_size dim vsize psize) y (th_lambda_boundary dim vsize pts r) = tested (S dim) (th_size dim vsize psize) y r +
  lsum (fun p => if is_neumann (fb_bc p) then fb_weight p * fb_ie p * inner dim (fb_j p) (field vsize y (fb_phi p)) else 0) pts.
Proof.
  unfold th_lambda_boundary. apply (T_fold (tested (S dim) (th_size dim vsize psize) y)). intros p r0 _.
  destruct (is_neumann (fb_bc p)); cbn [negb]; [|ring]. t_sum p_sums. reflexivity.
Qed.

(** ** Mass *)
Lemma scalar_mass_eq m n d pts x y r : (d < m)%nat ->
  tested m n y (scalar_mass d (n d) pts x r) = tested m n y r +
  lsum (fun p => ms_weight p * ms_ie p * ms_rho p * (fun_at (n d) (x d) (ms_phi p) * fun_at (n d) (y d) (ms_phi p))) pts.
Proof.
  intros Hd. unfold scalar_mass. spec_functions. apply (T_fold (tested m n y)). intros p r0 _. t_sum p_sums. unfold fun_at; ring.
Qed.
Lemma E4 n (y g : vec) a F z : rsum n (fun j => y j * (a * g j * F) * z) = a * fun_at n y g * F * z.
Proof. unfold fun_at. rewrite <- rsum_scal, <- !rsum_scal_r. apply rsum_ext; intros; ring. Qed.
Lemma M2 n (z phi : vec) c F : rsum n (fun j => phi j * c * F * z j) = F * (c * fun_at n z phi).
Proof. unfold fun_at. rewrite <- !rsum_scal. apply rsum_ext; intros; ring. Qed.
Ltac m_sums := repeat match goal with
  | |- context [rsum ?n (fun i => @?f i + @?g i)] => rw (rsum_plus n f g)
  | |- context [rsum ?n (fun j => @?y j * (?a * @?g j * ?F) * ?z)] => rw (E4 n y g a F z)
  | |- context [rsum ?n (fun j => @?phi j * ?c * ?F * @?z j)] => rw (M2 n z phi c F)
  end.
Lemma scalar_mass_jacobian_eq m n d pts y z M : (d < m)%nat ->
  tested2 m n y z (scalar_mass_jacobian d (n d) pts M) = tested2 m n y z M +
  lsum (fun p => ms_weight p * ms_ie p * ms_rho p * (fun_at (n d) (z d) (ms_phi p) * fun_at (n d) (y d) (ms_phi p))) pts.
Proof.
  intros Hd. unfold scalar_mass_jacobian. apply (T_fold (tested2 m n y z)). intros p M0 _. t_sum m_sums. unfold fun_at; ring.
Qed.
Lemma scalar_l2_eq sc m n d pts x y r : (d < m)%nat ->
  tested m n y (scalar_l2 sc d (n d) pts x r) = tested m n y r +
  lsum (fun p => sc * (ms_weight p * ms_ie p * (fun_at (n d) (x d) (ms_phi p) * fun_at (n d) (y d) (ms_phi p)))) pts.
Proof.
  intros Hd. unfold scalar_l2. spec_functions. apply (T_fold (tested m n y)). intros p r0 _. t_sum p_sums. unfold fun_at; ring.
Qed.
Lemma scalar_l2_jacobian_eq sc m n d pts y z M : (d < m)%nat ->
  tested2 m n y z (scalar_l2_jacobian sc d (n d) pts M) = tested2 m n y z M +
  lsum (fun p => sc * (ms_weight p * ms_ie p * (fun_at (n d) (z d) (ms_phi p) * fun_at (n d) (y d) (ms_phi p)))) pts.
Proof.
  intros Hd. unfold scalar_l2_jacobian. apply (T_fold (tested2 m n y z)). intros p M0 _. t_sum m_sums. unfold fun_at; ring.
Qed.

(** ** Elasticity *)
Lemma E1 dim y (a h : vec) mu F : rsum dim (fun k => y * (mu * a k * h k * F)) = y * (mu * inner dim a h * F).
Proof. unfold inner. rewrite <- rsum_scal, <- rsum_scal_r, <- rsum_scal. apply rsum_ext; intros; ring. Qed.
Lemma E2 dim n (Y A : nat -> nat -> R) (a : vec) mu F :
  rsum n (fun i => rsum dim (fun k => Y i k * (mu * a k * A i k * F))) = F * (mu * inner dim a (fun k => rsum n (fun i => Y i k * A i k))).
Proof.
  rewrite rsum_swap. unfold inner. rewrite <- !rsum_scal. apply rsum_ext; intros. rewrite <- !rsum_scal. apply rsum_ext; intros; ring.
Qed.
Lemma E3 dim n (Y A : nat -> nat -> R) c mu F :
  rsum n (fun i => rsum dim (fun k => Y i k * (mu * c * A i k * F))) = F * (mu * (c * rsum dim (fun k => rsum n (fun i => Y i k * A i k)))).
Proof.
  rewrite rsum_swap. rewrite <- !rsum_scal. apply rsum_ext; intros. rewrite <- !rsum_scal. apply rsum_ext; intros; ring.
Qed.
Ltac e_sums := repeat match goal with
  | |- context [rsum ?n (fun i => @?f i + @?g i)] => rw (rsum_plus n f g)
  | |- context [rsum ?n (fun i => rsum ?dim (fun k => @?Y i k * (?mu * ?c * @?A i k * ?F)))] => rw (E3 dim n Y A c mu F)
  | |- context [rsum ?n (fun i => rsum ?dim (fun k => @?Y i k * (?mu * @?a k * @?A i k * ?F)))] => rw (E2 dim n Y A a mu F)
  | |- context [rsum ?n (fun k => ?y * (?mu * @?a k * @?h k * ?F))] => rw (E1 n y a h mu F)
  | |- context [rsum ?n (fun i => @?y i * (?al * inner ?dim ?a (@?G i) * ?F))] => rw (P1 dim n y G a al F)
  end.
Lemma sym_ddot d A B : 2 * ddot d (sym_part A) (sym_part B) = ddot d A B + ddot d (transposed A) B.
Proof.
  unfold ddot, sym_part, transposed, inner.
  assert (H : forall f : nat -> nat -> R, rsum d (fun k => rsum d (fun l => f k l)) = rsum d (fun k => rsum d (fun l => f l k))) by (intros; apply rsum_swap).
  rewrite <- rsum_scal.
  rewrite (rsum_ext d _ (fun k => rsum d (fun l => (A k l * B k l + A l k * B k l) / 2) + rsum d (fun l => (A k l * B l k + A l k * B l k) / 2))).
  2:{ intros. rewrite <- rsum_scal, <- rsum_plus. apply rsum_ext; intros; field. }
  rewrite rsum_plus, (H (fun k l => (A k l * B l k + A l k * B l k) / 2)), <- !rsum_plus.
  apply rsum_ext; intros. rewrite <- !rsum_plus. apply rsum_ext; intros; field.
Qed.
Lemma ddot_transposed d A B : ddot d A (transposed B) = ddot d (transposed A) B.
Proof. unfold ddot, transposed, inner. rewrite rsum_swap. reflexivity. Qed.
Lemma el_residual_eq dim n pts x y r :
  tested dim (alike n) y (el_alpha_volume dim n pts x r) = tested dim (alike n) y r +
  lsum (fun p => el_weight p * el_ie p * el_form dim (el_mu p) (el_lambda p) (el_gu dim n p x) (el_gu dim n p y)) pts.
Proof.
  unfold el_alpha_volume. spec_functions. apply (T_fold (tested dim (alike n) y)). intros p r0 _. t_sum e_sums.
  unfold el_form. replace (2 * el_mu p * ddot dim (sym_part (el_gu dim n p x)) (sym_part (el_gu dim n p y)))
    with (el_mu p * (2 * ddot dim (sym_part (el_gu dim n p x)) (sym_part (el_gu dim n p y)))) by ring.
  rewrite sym_ddot, <- ddot_transposed.
  unfold el_gu, ddot, trace, transposed, field_grad, grads, grad_at. ring.
Qed.

Lemma E5 dim n (A Z : nat -> nat -> R) (v : vec) mu F :
  rsum n (fun i => rsum dim (fun k => mu * A i k * v k * F * Z i k)) = F * (mu * inner dim (fun k => rsum n (fun i => Z i k * A i k)) v).
Proof.
  rewrite rsum_swap. unfold inner. rewrite <- !rsum_scal. apply rsum_ext; intros. rewrite <- rsum_scal_r, <- !rsum_scal. apply rsum_ext; intros; ring.
Qed.
Ltac ej_sums := repeat match goal with
  | |- context [rsum ?n (fun i => @?f i + @?g i)] => rw (rsum_plus n f g)
  | |- context [rsum ?n (fun j => @?y j * (?a * @?g j * ?F) * ?z)] => rw (E4 n y g a F z)
  | |- context [rsum ?n (fun i => rsum ?dim (fun k => ?mu * @?A i k * @?v k * ?F * @?Z i k))] => rw (E5 dim n A Z v mu F)
  end.
Lemma el_jacobian_eq dim n pts y z M :
  tested2 dim (alike n) y z (el_jacobian_volume dim n pts M) = tested2 dim (alike n) y z M +
  lsum (fun p => el_weight p * el_ie p * el_form dim (el_mu p) (el_lambda p) (el_gu dim n p z) (el_gu dim n p y)) pts.
Proof.
  unfold el_jacobian_volume. spec_functions. apply (T_fold (tested2 dim (alike n) y z)). intros p r0 _. t_sum ej_sums.
  unfold el_form. replace (2 * el_mu p * ddot dim (sym_part (el_gu dim n p z)) (sym_part (el_gu dim n p y)))
    with (el_mu p * (2 * ddot dim (sym_part (el_gu dim n p z)) (sym_part (el_gu dim n p y)))) by ring.
  rewrite sym_ddot, <- ddot_transposed.
  unfold el_gu, ddot, trace, transposed, field_grad, grads, grad_at, fun_at, inner; cbv beta.
  rewrite (rsum_swap dim dim (fun k l => rsum n (fun i => z k i * apply dim (el_jac p) (el_js p i) l) * rsum n (fun i => y k i * apply dim (el_jac p) (el_js p i) l))).
  set (gz := fun d => rsum n (fun i => z d i * apply dim (el_jac p) (el_js p i) d)).
  set (gy := fun d => rsum n (fun i => y d i * apply dim (el_jac p) (el_js p i) d)).
  assert (H3 : rsum dim (fun k => rsum dim (fun k0 => gz k * gy k0)) = rsum dim gz * rsum dim gy).
  { rewrite (rsum_ext dim _ (fun k => gz k * rsum dim gy)) by (intros; apply rsum_scal). apply rsum_scal_r. }
  unfold gz, gy in *. rewrite H3. ring.
Qed.
Lemma lsum_opp {A} (f : A -> R) l : - lsum f l = lsum (fun a => - f a) l.
Proof. induction l; cbn [lsum]; [ring|]. rewrite <- IHl. ring. Qed.
Lemma el_lambda_eq dim n pts y r :
  tested dim (alike n) y (el_lambda_volume dim n pts r) = tested dim (alike n) y r -
  lsum (fun p => el_weight p * el_ie p * inner dim (el_f p) (field n y (el_phi p))) pts.
Proof.
  unfold el_lambda_volume. unfold Rminus.
  replace (- lsum (fun p => el_weight p * el_ie p * inner dim (el_f p) (field n y (el_phi p))) pts)
    with (lsum (fun p => - (el_weight p * el_ie p * inner dim (el_f p) (field n y (el_phi p)))) pts).
  2:{ symmetry. apply lsum_opp. }
  apply (T_fold (tested dim (alike n) y)). intros p r0 _. t_sum p_sums.
  unfold field, inner, fun_at.
  rewrite (rsum_ext dim _ (fun k => - (el_f p k * rsum n (fun i => y k i * el_phi p i)))) by (intros; ring). rewrite rsum_opp. ring.
Qed.
Lemma el_boundary_eq dim n pts y r : tested dim (alike n) y (el_lambda_boundary dim n pts r) = tested dim (alike n) y r.
Proof.
  unfold el_lambda_boundary. rewrite (T_fold (tested dim (alike n) y) _ (fun _ => 0)); [rewrite lsum_0; ring|].
  intros p r0 _. destruct (eb_dirichlet p); [ring|]. t_sum p_sums. ring.
Qed.

(** ** Mixed diffusion *)
Lemma mtv_J dim C v : mtv dim (mx_jac C) v = apply dim (mx_J C) v.
Proof. apply functional_extensionality; intros k. unfold mtv. rewrite dot_sum. reflexivity. Qed.
Lemma F_div : ref_divergence = trace.
Proof. do 2 (apply functional_extensionality; intros). apply loop_sum. Qed.
Lemma grad_div n x (G : nat -> vec) c : grad_at n x (fun i k => G i k / c) = fun k => grad_at n x G k / c.
Proof. apply functional_extensionality; intros k. unfold grad_at, Rdiv. rewrite <- rsum_scal_r. apply rsum_ext; intros; ring. Qed.
Lemma fun_div n x (g : vec) c : fun_at n x (fun i => g i / c) = fun_at n x g / c.
Proof. unfold fun_at, Rdiv. rewrite <- rsum_scal_r. apply rsum_ext; intros; ring. Qed.
Lemma inner_div dim A (s t : vec) c : inner dim (apply dim A (fun k => s k / c)) (fun k => t k / c) = inner dim (apply dim A s) t / c / c.
Proof.
  unfold inner, Rdiv. rewrite <- !rsum_scal_r. apply rsum_ext; intros. unfold apply.
  rewrite (rsum_ext dim _ (fun l => A i l * s l * / c)) by (intros; ring). rewrite rsum_scal_r. ring.
Qed.
Lemma mx_alpha_eq dim nv np C vpts ppts x y r : mx_det C <> 0 ->
  tested 2 (mx_size nv np) y (mx_alpha_volume dim nv np C vpts ppts x r) = tested 2 (mx_size nv np) y r +
  (lsum (fun p => mxv_weight p * mx_det C * inner dim (apply dim (mx_Kinv C) (mx_sigma dim nv C p x)) (mx_sigma dim nv C p y)) vpts
   + lsum (fun p => mxp_weight p * mx_det C * (- mx_u np p x * mx_div dim nv C p y - mx_u np p y * mx_div dim nv C p x)
                    - mxp_weight p * (mxp_c p * mx_u np p x * mx_u np p y)) ppts).
Proof.
  intros Hdet. unfold mx_alpha_volume. spec_functions.
  rewrite (T_fold (tested 2 (mx_size nv np) y) _ (fun p => mxp_weight p * mx_det C * (- mx_u np p x * mx_div dim nv C p y - mx_u np p y * mx_div dim nv C p x)
                    - mxp_weight p * (mxp_c p * mx_u np p x * mx_u np p y))).
  - rewrite (T_fold (tested 2 (mx_size nv np) y) _ (fun p => mxv_weight p * mx_det C * inner dim (apply dim (mx_Kinv C) (mx_sigma dim nv C p x)) (mx_sigma dim nv C p y))); [ring|].
    intros p r0 _. t_sum p_sums. unfold mx_sigma, piola. rewrite !grad_div, inner_div.
    rewrite inner_grad. unfold Rdiv.
    transitivity (rsum nv (fun i => y 0%nat i * inner dim (apply dim (mx_Kinv C) (grad_at nv (x 0%nat) (fun i => apply dim (mx_J C) (mxv_basis p i)))) (apply dim (mx_J C) (mxv_basis p i))) * (mxv_weight p * / mx_det C)).
    + rewrite <- rsum_scal_r. apply rsum_ext; intros. 
      replace (fun i0 => mtv dim (mx_jac C) (mxv_basis p i0)) with (fun i0 => apply dim (mx_J C) (mxv_basis p i0)) by (apply functional_extensionality; intros; now rewrite mtv_J).
      rewrite mtv_J. ring.
    + unfold grad_at, inner, apply. field. easy.
  - intros p r0 _. rewrite F_div.
    t_sum p_sums. unfold mx_div, mx_u, piola_div. rewrite !fun_div. 
    unfold fun_at. field. easy.
Qed.
Lemma mx_lambda_eq nv np ppts y r :
  tested 2 (mx_size nv np) y (mx_lambda_volume np ppts r) = tested 2 (mx_size nv np) y r + lsum (fun p => mxp_weight p * mxp_ie p * (mxp_f p * mx_u np p y)) ppts.
Proof.
  unfold mx_lambda_volume. apply (T_fold (tested 2 (mx_size nv np) y)). intros p r0 _. t_sum p_sums. unfold mx_u, fun_at. ring.
Qed.
Lemma mx_boundary_eq dim nv np C pts y r : mx_det C <> 0 ->
  tested 2 (mx_size nv np) y (mx_lambda_boundary dim nv C pts r) = tested 2 (mx_size nv np) y r +
  lsum (fun p => if mxb_neumann p then 0 else
    mxb_weight p * mxb_ie p * (mxb_g p * inner dim (grad_at nv (y 0%nat) (fun i => piola dim C (mxb_basis p i))) (mxb_normal p))) pts.
Proof.
  intros Hdet. unfold mx_lambda_boundary. spec_functions. apply (T_fold (tested 2 (mx_size nv np) y)). intros p r0 _.
  destruct (mxb_neumann p); [ring|]. t_sum p_sums. unfold piola. rewrite grad_div.
  rewrite (inner_comm dim _ (mxb_normal p)).
  transitivity (mxb_weight p * mxb_ie p * (mxb_g p * (inner dim (mxb_normal p) (grad_at nv (y 0%nat) (fun i => apply dim (mx_J C) (mxb_basis p i))) / mx_det C))).
  2:{ do 2 f_equal. unfold inner, grad_at, Rdiv. rewrite <- rsum_scal_r. apply rsum_ext; intros. ring. }
  rewrite inner_grad. unfold fun_at.
  rewrite (rsum_ext nv _ (fun i => y 0%nat i * inner dim (mxb_normal p) (apply dim (mx_J C) (mxb_basis p i)))).
  - field. easy.
  - intros. rewrite mtv_J, inner_comm. reflexivity.
Qed.

(** ** Nonlinear convection and diffusion *)
Lemma tested1_acc n y r a v : (a < n)%nat -> tested1 n y (acc r a v) = tested1 n y r + y a * v.
Proof.
  intros Ha. unfold tested1, inner. rewrite (rsum_ext n _ (fun i => y i * r i + (if (i =? a)%nat then y a * v else 0))).
  - now rewrite rsum_plus, (rsum_pick n (fun _ => y a * v)).
  - intros i Hi. unfold acc. destruct (Nat.eqb_spec i a) as [->|]; ring.
Qed.
Lemma nl_alpha_eq dim n D w pts x y r :
  tested1 n y (nl_alpha_volume dim n D w pts x r) = tested1 n y r +
  lsum (fun p => nl_weight p * nl_ie p *
    nl_form dim D (nl_f p) (nl_q p) (nl_v p) (fun_at n (fun i => w (x i)) (nl_phi p)) (grad_at n (fun i => w (x i)) (grads dim (nl_jac p) (nl_js p)))
            (fun_at n y (nl_phi p)) (grad_at n y (grads dim (nl_jac p) (nl_js p)))) pts.
Proof.
  unfold nl_alpha_volume. spec_functions. apply (T_fold (tested1 n y)). intros p r0 _.
  rewrite (T_loop (tested1 n y) n _ (fun i => y i * ((inner dim (apply dim D (fun k => grad_at n (fun i => w (x i)) (grads dim (nl_jac p) (nl_js p)) k * nl_v p (fun_at n (fun i => w (x i)) (nl_phi p)))) (grads dim (nl_jac p) (nl_js p) i)
       - inner dim (nl_q p (fun_at n (fun i => w (x i)) (nl_phi p))) (grads dim (nl_jac p) (nl_js p) i)
       - nl_f p (fun_at n (fun i => w (x i)) (nl_phi p)) * nl_phi p i) * (nl_weight p * nl_ie p)))).
  2:{ intros k s Hk. rewrite tested1_acc by easy. reflexivity. }
  apply f_equal. unfold nl_form. rewrite !inner_grad.
  set (u := fun_at n (fun i => w (x i)) (nl_phi p)). set (G := grads dim (nl_jac p) (nl_js p)).
  rewrite (rsum_ext n _ (fun i => nl_weight p * nl_ie p * (y i * inner dim (apply dim D (fun k => grad_at n (fun i => w (x i)) G k * nl_v p u)) (G i)
     - y i * inner dim (nl_q p u) (G i) - nl_f p u * (y i * nl_phi p i)))) by (intros; ring).
  rewrite rsum_scal, !rsum_minus, rsum_scal. 
  replace (fun k => grad_at n (fun i => w (x i)) G k * nl_v p u) with (fun k => nl_v p u * grad_at n (fun i => w (x i)) G k) by (apply functional_extensionality; intros; ring).
  reflexivity.
Qed.
Lemma nl_boundary_eq n w pts x y r :
  tested1 n y (nl_alpha_boundary n w pts x r) = tested1 n y r +
  lsum (fun p => if nb_dirichlet p then 0 else nb_weight p * nb_ie p * (nb_j p (fun_at n (fun i => w (x i)) (nb_phi p)) * fun_at n y (nb_phi p))) pts.
Proof.
  unfold nl_alpha_boundary. spec_functions. apply (T_fold (tested1 n y)). intros p r0 _.
  destruct (nb_dirichlet p); [ring|].
  rewrite (T_loop (tested1 n y) n _ (fun i => y i * (nb_j p (fun_at n (fun i => w (x i)) (nb_phi p)) * nb_phi p i * (nb_weight p * nb_ie p)))).
  2:{ intros k s Hk. rewrite tested1_acc by easy. reflexivity. }
  rewrite P6. ring.
Qed.
(** ** Vector valued velocity basis *)
Lemma velvec_eq dim n pts x y r :
  tested1 n y (velvec_mass dim n pts x r) = tested1 n y r +
  lsum (fun p => vm_weight p * vm_ie p * vm_rho p * inner dim (grad_at n x (vm_phi p)) (grad_at n y (vm_phi p))) pts.
Proof.
  unfold velvec_mass. spec_functions. apply (T_fold (tested1 n y)). intros p r0 _.
  rewrite (T_loop (tested1 n y) n _ (fun i => y i * (inner dim (grad_at n x (vm_phi p)) (vm_phi p i) * (vm_weight p * vm_rho p * vm_ie p)))).
  2:{ intros k s Hk. rewrite tested1_acc by easy. reflexivity. }
  rewrite inner_grad. rewrite (rsum_ext n _ (fun i => (vm_weight p * vm_rho p * vm_ie p) * (y i * inner dim (grad_at n x (vm_phi p)) (vm_phi p i)))) by (intros; ring).
  rewrite rsum_scal. ring.
Qed.
Lemma loop_madd n (f : nat -> mat -> mat) (g : nat -> nat -> nat -> R) m i j : (forall k r i j, f k r i j = r i j + g k i j) -> loop n f m i j = m i j + rsum n (fun k => g k i j).
Proof. intros H. induction n; cbn [loop]; [unfold rsum; ring|]. rewrite H, IHn, rsum_S. ring. Qed.
Lemma velvec_jacobian_eq dim n pts m i j : (i < n)%nat -> (j < n)%nat ->
  velvec_mass_jacobian dim n pts m i j = m i j + lsum (fun p => vm_weight p * vm_ie p * vm_rho p * inner dim (vm_phi p j) (vm_phi p i)) pts.
Proof.
  intros Hi Hj. unfold velvec_mass_jacobian. spec_functions. apply (T_fold (fun m : mat => m i j)). intros p r0 _. cbv zeta.
  rewrite (loop_madd n _ (fun i' i j => rsum n (fun j' => if ((i =? i') && (j =? j'))%nat then inner dim (vm_phi p j') (vm_phi p i') * (vm_weight p * vm_rho p * vm_ie p) else 0))).
  2:{ intros. rewrite (loop_madd n _ (fun j' i j => if ((i =? k) && (j =? j'))%nat then inner dim (vm_phi p j') (vm_phi p k) * (vm_weight p * vm_rho p * vm_ie p) else 0)); [reflexivity|].
      intros. apply macc_at. }
  apply f_equal.
  rewrite (rsum_ext n _ (fun k => if (k =? i)%nat then inner dim (vm_phi p j) (vm_phi p k) * (vm_weight p * vm_rho p * vm_ie p) else 0)).
  - rewrite (rsum_pick n (fun k => inner dim (vm_phi p j) (vm_phi p k) * (vm_weight p * vm_rho p * vm_ie p))) by easy. ring.
  - intros k Hk. rewrite (Nat.eqb_sym i k). destruct (Nat.eqb_spec k i) as [->|]; cbn [andb].
    + rewrite (rsum_ext n _ (fun l => if (l =? j)%nat then inner dim (vm_phi p l) (vm_phi p i) * (vm_weight p * vm_rho p * vm_ie p) else 0)).
      * apply (rsum_pick n (fun l => inner dim (vm_phi p l) (vm_phi p i) * (vm_weight p * vm_rho p * vm_ie p))). easy.
      * intros l Hl. now rewrite (Nat.eqb_sym j l).
    + apply rsum_0.
Qed.
