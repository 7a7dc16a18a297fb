(** Properties of the Navier-Stokes operator with vector-valued velocity basis functions: C159-C161. *)
From Verif Require Import Common CommonFacts CdModel CdSpec CdProofs WaveModel FlowModel FlowSpec FlowProofs FlowProofs2 FlowProofs4
  DgnsModel DgnsSpec DgnsProofs DgnsProofs2 DgnsProofs3 DgnsProps VvModel VvSpec VvProofs VvProofs2.
From Coq Require Import Reals Lra Lia FunctionalExtensionality.
Open Scope R_scope.
Local Notation testedv vsize psize := (tested 2 (mx_size vsize psize)).
Local Notation timesv vsize psize := (times 2 (mx_size vsize psize)).
Local Notation tested_facev vsize psize := (tested_face 2 (mx_size vsize psize)).
Local Notation productv vsize psize := (tested_product 2 (mx_size vsize psize)).

(** ** C159: the residuals are the interior penalty forms *)
Theorem c159_cells : forall navier flag sc dim vsize psize pts x y r,
  testedv vsize psize y (vv_alpha_volume navier flag sc dim vsize psize pts x r) = testedv vsize psize y r +
  lsum (fun p => vp_vol p * cell_form navier false dim sc (vp_mu p) (vp_rho p) (vv_cell dim vsize psize p x) (vv_cell dim vsize psize p y)) pts.
Proof. intros. apply vv_volume_eq. Qed.
Print Assumptions c159_cells.

Theorem c159_faces : forall eps pen sc dim vsize psize pts xs xn ys yn r,
  tested_facev vsize psize ys yn (vv_alpha_skeleton eps pen sc dim vsize psize pts xs xn r) = tested_facev vsize psize ys yn r +
  lsum (fun p => vf_vol p * face_form false dim eps pen sc (vf_mu p) (vf_normal p) (vv_s dim vsize psize p xs) (vv_n dim vsize psize p xn)
                                      (vv_s dim vsize psize p ys) (vv_n dim vsize psize p yn)) pts.
Proof. intros. apply vv_skeleton_eq. Qed.
Print Assumptions c159_faces.

Theorem c159_boundary : forall eps pen sc dim vsize psize pts x y r,
  testedv vsize psize y (vv_alpha_boundary eps pen sc dim vsize psize pts x r) = testedv vsize psize y r +
  lsum (fun p => vb_vol p * (vb_form dim eps pen sc p (vv_b dim vsize psize p x) (vv_b dim vsize psize p y) + vb_load dim eps pen sc p (vv_b dim vsize psize p y))) pts.
Proof. intros. apply vv_boundary_eq. Qed.
Print Assumptions c159_boundary.

Theorem c159_force : forall dim vsize psize pts y r,
  testedv vsize psize y (vv_lambda_volume dim vsize pts r) = testedv vsize psize y r + lsum (fun p => - (vp_vol p * inner dim (vp_f p) (vfield vsize (y 0%nat) (vp_phi p)))) pts.
Proof. intros. apply vv_lambda_eq. Qed.
Print Assumptions c159_force.

(** One vector-valued basis function (y, x) on the unit square, at the point (1/2, 1/2); mu = 3, rho = 5 *)
Definition vv_pt : vvpt :=
  mkvv 1 1 (fun _ _ => 1/2) (fun _ => 1) (fun _ r c => if (r =? c)%nat then 0 else 1) (fun r c => if (r =? c)%nat then 1 else 0) 3 5 (fun k => if (k =? 0)%nat then 2 else 4).
Definition vv_x : mat := fun c _ => if (c =? 0)%nat then 2 else 7.
(** u = 2 (y, x) = (1, 1), grad u = [[0, 2], [2, 0]], div u = 0: mu grad u : grad phi + rho (u . grad) u . phi = 3 * 4 + 5 * 2 *)
Ltac ev := repeat split; cbv [vv_alpha_volume vv_jacobian_volume vv_lambda_volume vv_alpha_skeleton vv_jacobian_skeleton vv_alpha_boundary fold_left loop macc tacc racc_s racc_n acc_ss acc_sn acc_ns acc_nn contraction
  diverg flux add_flux eval_vec eval_mat eval_u eval_grad axpy vv_jac mv dot zerom zeroT zeroS zerof fst snd m_ss m_sn m_ns m_nn
  vp_weight vp_ie vp_phi vp_psi vp_lj vp_geo vp_mu vp_rho vp_f vf_weight vf_ie vf_normal vf_phi_s vf_phi_n vf_psi_s vf_psi_n vf_lj_s vf_lj_n vf_geo_s vf_geo_n vf_mu
  vb_weight vb_ie vb_normal vb_phi vb_psi vb_lj vb_geo vb_mu vb_bc vb_g vb_j is_velocity is_stress Nat.eqb Nat.div Nat.modulo Nat.divmod Nat.sub andb negb];
  first [field | lra | idtac].
Example c159_example :
  vv_alpha_volume true false 1 2 1 1 [vv_pt] vv_x zerom 0%nat 0%nat = 22 /\
  vv_alpha_volume false false 1 2 1 1 [vv_pt] vv_x zerom 0%nat 0%nat = 12 /\
  vv_jacobian_volume true false 1 2 1 1 [vv_pt] vv_x zeroT 0%nat 0%nat 0%nat 0%nat = 6 + 10 /\
  vv_lambda_volume 2 1 [vv_pt] zerom 0%nat 0%nat = - 3.
Proof. unfold vv_pt, vv_x. ev. Qed.

(** The constructor takes the flag full_tensor, which asks for mu (grad u + (grad u)^T); it has no effect. *)
Theorem c159_full_tensor_refuted : exists navier sc dim vsize psize pts x y,
  testedv vsize psize y (vv_alpha_volume navier true sc dim vsize psize pts x zerom) <>
  lsum (fun p => vp_vol p * cell_form navier true dim sc (vp_mu p) (vp_rho p) (vv_cell dim vsize psize p x) (vv_cell dim vsize psize p y)) pts.
Proof.
  exists false, 1, 2%nat, 1%nat, 0%nat, [vv_pt], vv_x, vv_x. rewrite c159_cells, tested_0, Rplus_0_l.
  cbv [lsum vp_vol cell_form ns_form vv_cell vv_pt vv_x vfield vgrad apply ddot transposed trace inner rsum fun_at vp_weight vp_ie vp_phi vp_psi vp_lj vp_geo vp_mu vp_rho s_u s_gu s_p Nat.eqb]. lra.
Qed.
Print Assumptions c159_full_tensor_refuted.
Theorem c159_flag_without_effect : forall navier flag flag' sc dim vsize psize pts x r M,
  vv_alpha_volume navier flag sc dim vsize psize pts x r = vv_alpha_volume navier flag' sc dim vsize psize pts x r /\
  vv_jacobian_volume navier flag sc dim vsize psize pts x M = vv_jacobian_volume navier flag' sc dim vsize psize pts x M.
Proof. intros. split; reflexivity. Qed.
Print Assumptions c159_flag_without_effect.

(** ** C160: the Jacobians are the derivatives of the residuals *)
Theorem c160_faces : forall eps pen sc dim vsize psize pts xs xn zs zn ys yn t M,
  let alpha us un := tested_facev vsize psize ys yn (vv_alpha_skeleton eps pen sc dim vsize psize pts us un zerof) in
  let product M := productv vsize psize ys yn zs zn M in
  alpha (move xs t zs) (move xn t zn) = alpha xs xn + t * product (vv_jacobian_skeleton eps pen sc dim vsize psize pts zeroS) /\
  product (vv_jacobian_skeleton eps pen sc dim vsize psize pts M) = product M + product (vv_jacobian_skeleton eps pen sc dim vsize psize pts zeroS).
Proof.
  intros. assert (E : product (vv_jacobian_skeleton eps pen sc dim vsize psize pts zeroS) = alpha zs zn).
  { unfold product, alpha. rewrite vv_jacobian_skeleton_eq, vv_skeleton_eq. apply f_equal2; [|reflexivity].
    unfold tested_product, zeroS, tested_face, zerof; cbn [m_ss m_sn m_ns m_nn fst snd]. rewrite !tested_times_0, !tested_0. ring. }
  split.
  - rewrite E. unfold alpha. rewrite !vv_skeleton_eq.
    assert (Z : tested_facev vsize psize ys yn zerof = 0) by (unfold tested_face, zerof; cbn [fst snd]; rewrite !tested_0; ring).
    rewrite Z, !Rplus_0_l, <- lsum_scal, <- lsum_plus. apply lsum_ext. intros p _. rewrite vv_s_move, vv_n_move, face_form_move. ring.
  - unfold product. rewrite !vv_jacobian_skeleton_eq. unfold tested_product at 3; unfold zeroS; cbn [m_ss m_sn m_ns m_nn]. rewrite !tested_times_0. ring.
Qed.
Print Assumptions c160_faces.

Theorem c160_boundary : forall eps pen sc dim vsize psize pts x z y t M,
  let alpha u := testedv vsize psize y (vv_alpha_boundary eps pen sc dim vsize psize pts u zerom) in
  let product M := testedv vsize psize y (timesv vsize psize M z) in
  alpha (move x t z) = alpha x + t * product (vv_jacobian_boundary eps pen sc dim vsize psize pts zeroT) /\
  product (vv_jacobian_boundary eps pen sc dim vsize psize pts M) = product M + product (vv_jacobian_boundary eps pen sc dim vsize psize pts zeroT).
Proof.
  intros. assert (HJ := fun M => vv_jacobian_boundary_eq eps pen sc dim vsize psize pts y z M). unfold tested2 in HJ. split.
  - unfold product, alpha. rewrite HJ, !vv_boundary_eq, tested_times_0, tested_0, !Rplus_0_l, <- lsum_scal, <- lsum_plus.
    apply lsum_ext. intros p _. rewrite vv_b_move, vb_form_move. ring.
  - unfold product. rewrite !HJ, tested_times_0. ring.
Qed.
Print Assumptions c160_boundary.

Theorem c160_cells : forall navier flag sc dim vsize psize pts x z y t,
  testedv vsize psize y (vv_alpha_volume navier flag sc dim vsize psize pts (move x t z) zerom) =
  testedv vsize psize y (vv_alpha_volume navier flag sc dim vsize psize pts x zerom)
  + t * testedv vsize psize y (timesv vsize psize (vv_jacobian_volume navier flag sc dim vsize psize pts x zeroT) z)
  + t * t * lsum (fun p => vp_vol p * ns_quad navier dim (vp_rho p) (vfield vsize (z 0%nat) (vp_phi p)) (vgrad dim vsize (z 0%nat) (vp_geo p) (vp_lj p)) (vfield vsize (y 0%nat) (vp_phi p))) pts.
Proof.
  intros. pose proof (vv_jacobian_volume_eq navier flag sc dim vsize psize pts x y z zeroT) as HJ. unfold tested2 in HJ.
  rewrite HJ, tested_times_0, !vv_volume_eq, !tested_0, !Rplus_0_l, <- !lsum_scal, <- !lsum_plus. apply lsum_ext. intros p _.
  rewrite vv_cell_move. unfold cell_form, moves, vv_cell; cbn [s_u s_gu s_p]. rewrite ns_form_move. ring.
Qed.
Print Assumptions c160_cells.

Theorem c160_cells_derivative : forall navier flag sc dim vsize psize pts x z y M,
  derivable_pt_lim (fun t => testedv vsize psize y (vv_alpha_volume navier flag sc dim vsize psize pts (move x t z) zerom)) 0
    (testedv vsize psize y (timesv vsize psize (vv_jacobian_volume navier flag sc dim vsize psize pts x zeroT) z)) /\
  testedv vsize psize y (timesv vsize psize (vv_jacobian_volume navier flag sc dim vsize psize pts x M) z) =
  testedv vsize psize y (timesv vsize psize M z) + testedv vsize psize y (timesv vsize psize (vv_jacobian_volume navier flag sc dim vsize psize pts x zeroT) z).
Proof.
  intros. split; [eapply poly_derivative; intros t; apply c160_cells|].
  pose proof (vv_jacobian_volume_eq navier flag sc dim vsize psize pts x y z) as HJ. unfold tested2 in HJ. rewrite !HJ, tested_times_0. ring.
Qed.
Print Assumptions c160_cells_derivative.
(** the face between two unit squares, normal (1, 0), one basis function (1, xi) on each side *)
Definition vv_face : vfpt :=
  mkvf 1 1 (fun k => if (k =? 0)%nat then 1 else 0) (fun _ k => 1) (fun _ k => if (k =? 0)%nat then 1 else 0) (fun _ => 1) (fun _ => 1)
    (fun _ r c => if (r =? 1)%nat && (c =? 0)%nat then 1 else 0) (fun _ r c => if (r =? 1)%nat && (c =? 0)%nat then 1 else 0)
    (fun r c => if (r =? c)%nat then 1 else 0) (fun r c => if (r =? c)%nat then 1 else 0) 3.
(** u_s = 2 (1, 1), u_n = 4 (1, 0), grad u n = (0, 2) and (0, 4): - mu {grad u n} . phi + eps mu/2 (grad phi n) . [u] + mu pen [u] . phi + {p} phi . n *)
Example c160_example :
  let xn : mat := fun c _ => if (c =? 0)%nat then 4 else 9 in
  fst (vv_alpha_skeleton (-1) 10 1 2 1 1 [vv_face] vv_x xn zerof) 0%nat 0%nat = - 3 * 3 + -1 * 3 * (1/2) * 2 + 3 * 10 * 0 + 8 /\
  snd (vv_alpha_skeleton (-1) 10 1 2 1 1 [vv_face] vv_x xn zerof) 1%nat 0%nat = - 1 /\
  m_sn (vv_jacobian_skeleton (-1) 10 1 2 1 1 [vv_face] zeroS) 0%nat 0%nat 0%nat 0%nat = - (1/2) * 3 * 1 - -1 * (1/2) * 3 * 0 - 10 * 3 * 1.
Proof. cbv zeta. unfold vv_face, vv_x. ev. Qed.

(** ** C161: the two discretizations agree on product bases; orientation, symmetry, energy *)
Theorem c161_agrees_cells : forall navier flag sc dim n psize pts x y r r',
  testedv (dim * n) psize (prod_coeff dim n y) r' = tested (S dim) (th_size dim n psize) y r ->
  testedv (dim * n) psize (prod_coeff dim n y) (vv_alpha_volume navier flag sc dim (dim * n) psize (map (prod_pt n) pts) (prod_coeff dim n x) r') =
  tested (S dim) (th_size dim n psize) y (dgns_alpha_volume navier false sc dim n psize pts x r).
Proof.
  intros. rewrite c159_cells, c138_cells, H, lsum_map. apply f_equal. apply lsum_ext. intros p _.
  rewrite (cell_form_ext _ _ _ _ _ _ _ _ _ _ (prod_cell _ _ _ _ _) (prod_cell _ _ _ _ _)). reflexivity.
Qed.
Print Assumptions c161_agrees_cells.
Theorem c161_agrees_faces : forall eps pen sc dim n psize pts xs xn ys yn,
  tested_facev (dim * n) psize (prod_coeff dim n ys) (prod_coeff dim n yn)
    (vv_alpha_skeleton eps pen sc dim (dim * n) psize (map (prod_face n) pts) (prod_coeff dim n xs) (prod_coeff dim n xn) zerof) =
  tested_face (S dim) (th_size dim n psize) ys yn (dgns_alpha_skeleton false eps pen sc dim n psize pts xs xn zerof).
Proof.
  intros. rewrite c159_faces, c138_faces. apply f_equal2.
  - unfold tested_face, zerof; cbn [fst snd]. rewrite !tested_0. reflexivity.
  - rewrite lsum_map. apply lsum_ext. intros p _. cbn [prod_face vf_mu vf_normal]. fold (prod_face n p).
    rewrite (face_form_ext _ _ _ _ _ _ _ _ _ _ _ _ _ _ _ (prod_s _ _ _ _ _) (prod_n _ _ _ _ _) (prod_s _ _ _ _ _) (prod_n _ _ _ _ _)). reflexivity.
Qed.
Print Assumptions c161_agrees_faces.
(** At the boundary the velocity and stress data are part of alpha here, of lambda there; slip walls are missing here. *)
Theorem c161_agrees_boundary : forall eps pen sc dim n psize pts x y,
  (forall p, In p pts -> db_bc p <> SlipVelocity) ->
  testedv (dim * n) psize (prod_coeff dim n y) (vv_alpha_boundary eps pen sc dim (dim * n) psize (map (prod_wall n) pts) (prod_coeff dim n x) zerom) =
  tested (S dim) (th_size dim n psize) y (dgns_lambda_boundary false eps pen sc dim n psize pts (dgns_alpha_boundary false eps pen sc dim n psize pts x zerom)).
Proof.
  intros eps pen sc dim n psize pts x y H. destruct (c138_loads false eps pen sc dim n psize [] pts y (dgns_alpha_boundary false eps pen sc dim n psize pts x zerom)) as [_ L].
  rewrite L, c159_boundary, c138_boundary, !tested_0, !Rplus_0_l, lsum_map, <- lsum_plus. apply lsum_ext. intros p Hp.
  rewrite vb_as_db, vb_load_as_db. replace (is_slip (vb_bc (prod_wall n p))) with false by (specialize (H p Hp); cbn; destruct (db_bc p); cbn; congruence).
  rewrite (boundary_form_ext _ _ _ _ _ _ _ _ _ _ (prod_b _ _ _ _ _) (prod_b _ _ _ _ _)), (boundary_load_ext _ _ _ _ _ _ _ _ (prod_b _ _ _ _ _)).
  assert (D : db_bc p <> SlipVelocity) by auto.
  assert (B : forall u v, boundary_form false dim eps pen sc (as_db (prod_wall n p)) u v = boundary_form false dim eps pen sc p u v)
    by (intros; unfold boundary_form; cbn [as_db prod_wall db_bc db_mu db_normal vb_bc vb_mu vb_normal]; destruct (db_bc p); congruence).
  rewrite B. change (boundary_load false dim eps pen sc (as_db (prod_wall n p))) with (boundary_load false dim eps pen sc p).
  change (vb_vol (prod_wall n p)) with (db_vol p). ring.
Qed.
Print Assumptions c161_agrees_boundary.
Theorem c161_slip_refuted : exists eps pen sc dim n psize pts x y,
  testedv (dim * n) psize (prod_coeff dim n y) (vv_alpha_boundary eps pen sc dim (dim * n) psize (map (prod_wall n) pts) (prod_coeff dim n x) zerom) <>
  tested (S dim) (th_size dim n psize) y (dgns_lambda_boundary false eps pen sc dim n psize pts (dgns_alpha_boundary false eps pen sc dim n psize pts x zerom)).
Proof.
  exists (-1), 10, 1, 1%nat, 2%nat, 1%nat, [dg_wall SlipVelocity], dg_s, (fun c i => if (c =? 1)%nat then 1 else 0).
  destruct (c138_loads false (-1) 10 1 1 2 1 [] [dg_wall SlipVelocity] (fun c i => if (c =? 1)%nat then 1 else 0) (dgns_alpha_boundary false (-1) 10 1 1 2 1 [dg_wall SlipVelocity] dg_s zerom)) as [_ L].
  rewrite L, c159_boundary, c138_boundary, !tested_0, !Rplus_0_l.
  cbv [lsum map vb_vol db_vol vb_form vb_load boundary_form boundary_load dg_wall prod_wall vb_bc db_bc vb_weight vb_ie db_weight db_ie noslip_form slip_form wall_form state_b traction inner rsum field field_grad grad_at grads apply
       fun_at s_u s_gu s_p db_mu db_normal db_phi db_psi db_js db_jac db_slip dg_s Nat.eqb]. lra.
Qed.
Print Assumptions c161_slip_refuted.

Theorem c161_orientation : forall eps pen sc dim vsize psize pts xs xn ys yn,
  tested_facev vsize psize yn ys (vv_alpha_skeleton eps pen sc dim vsize psize (map turn_vface pts) xn xs zerof) =
  tested_facev vsize psize ys yn (vv_alpha_skeleton eps pen sc dim vsize psize pts xs xn zerof).
Proof.
  intros. rewrite !c159_faces. unfold tested_face, zerof; cbn [fst snd]. rewrite !tested_0. apply f_equal.
  rewrite lsum_map. apply lsum_ext. intros p _. apply f_equal2; [reflexivity|].
  change (vv_s dim vsize psize (turn_vface p)) with (vv_n dim vsize psize p). change (vv_n dim vsize psize (turn_vface p)) with (vv_s dim vsize psize p).
  cbn [turn_vface vf_mu vf_normal]. set (us := vv_s dim vsize psize p xs). set (un := vv_n dim vsize psize p xn).
  set (vs := vv_s dim vsize psize p ys). set (vn := vv_n dim vsize psize p yn). unfold face_form. cbv zeta.
  assert (TO : forall g, traction false dim (opp (vf_normal p)) g = opp (traction false dim (vf_normal p) g)).
  { intros g. extensionality d. unfold traction, opp, inner. rewrite (rsum_ext dim (fun k => g d k * - vf_normal p k) (fun k => - (g d k * vf_normal p k))) by (intros; ring). rewrite !rsum_opp. ring. }
  assert (JO : forall a b, jump a b = opp (jump b a)) by (intros; extensionality k; unfold jump, opp; ring).
  assert (MO : forall a b, mean (opp a) (opp b) = opp (mean b a)) by (intros; extensionality k; unfold mean, opp; field).
  assert (IO : forall a b, inner dim (opp a) (opp b) = inner dim a b) by (intros; apply rsum_ext; intros; unfold opp; ring).
  rewrite !TO, !MO, (JO (s_u un)), (JO (s_u vn)), !IO. unfold mean1. field.
Qed.
Print Assumptions c161_orientation.

Theorem c161_symmetric : forall flag pen dim vsize psize pts fpts x y z ys yn zs zn,
  testedv vsize psize y (timesv vsize psize (vv_jacobian_volume false flag 1 dim vsize psize pts x zeroT) z) =
  testedv vsize psize z (timesv vsize psize (vv_jacobian_volume false flag 1 dim vsize psize pts x zeroT) y) /\
  productv vsize psize ys yn zs zn (vv_jacobian_skeleton (-1) pen 1 dim vsize psize fpts zeroS) =
  productv vsize psize zs zn ys yn (vv_jacobian_skeleton (-1) pen 1 dim vsize psize fpts zeroS).
Proof.
  intros. split.
  - pose proof (vv_jacobian_volume_eq false flag 1 dim vsize psize pts x) as HJ. unfold tested2 in HJ. rewrite !HJ, !tested_times_0. apply f_equal. apply lsum_ext. intros p _. cbv zeta. apply f_equal.
    pose proof (cell_form_sym false dim (vp_mu p) (vp_rho p) (vv_cell dim vsize psize p z) (vv_cell dim vsize psize p y)) as E. unfold cell_form, ns_form in E. unfold ns_form'. exact E.
  - rewrite !vv_jacobian_skeleton_eq. unfold tested_product, zeroS; cbn [m_ss m_sn m_ns m_nn]. rewrite !tested_times_0. apply f_equal. apply lsum_ext. intros p _. now rewrite face_form_sym.
Qed.
Print Assumptions c161_symmetric.

(** The nonsymmetric method (eps = 1) tested with its own velocity and the pressure - p / sc leaves the dissipation of the cells and the jumps. *)
Theorem c161_energy : forall flag pen sc dim vsize psize pts fpts x xs xn, sc <> 0 ->
  testedv vsize psize (with_p (-1 / sc) x) (vv_alpha_volume false flag sc dim vsize psize pts x zerom) =
    lsum (fun p => let g := vgrad dim vsize (x 0%nat) (vp_geo p) (vp_lj p) in vp_vol p * (vp_mu p * ddot dim g g)) pts /\
  tested_facev vsize psize (with_p (-1 / sc) xs) (with_p (-1 / sc) xn) (vv_alpha_skeleton 1 pen sc dim vsize psize fpts xs xn zerof) =
    lsum (fun p => let ju := jump (vfield vsize (xs 0%nat) (vf_phi_s p)) (vfield vsize (xn 0%nat) (vf_phi_n p)) in vf_vol p * (vf_mu p * (pen * inner dim ju ju))) fpts.
Proof.
  intros. split.
  - rewrite c159_cells, tested_0, Rplus_0_l. apply lsum_ext. intros p _. rewrite wp_c, cell_energy by easy. cbv zeta. unfold vv_cell; cbn [s_gu]. ring.
  - rewrite c159_faces. unfold tested_face at 1, zerof; cbn [fst snd]. rewrite !tested_0, Rplus_0_r, Rplus_0_l. apply lsum_ext. intros p _.
    rewrite wp_s, wp_n, face_energy by easy. reflexivity.
Qed.
Print Assumptions c161_energy.
(** the product basis of the two interval functions, and the same numbers as in c138_boundary_example and c161_slip_refuted *)
Example c161_example :
  vv_alpha_boundary (-1) 10 1 1 2 1 [prod_wall 2 (dg_wall VelocityDirichlet)] (prod_coeff 1 2 dg_s) zerom 0%nat 0%nat
    = (3 * 2 + -1 * 3 * 2 * 1 + 3 * 10 * 1 - 4) + - (-1 * 3 * 2 * 3 + 3 * 10 * 3) /\
  vv_alpha_boundary (-1) 10 1 1 2 1 [prod_wall 2 (dg_wall SlipVelocity)] (prod_coeff 1 2 dg_s) zerom 0%nat 0%nat = 0.
Proof.
  unfold prod_wall, prod_phi, prod_jac, prod_coeff, dg_wall, dg_s; cbn [db_weight db_ie db_normal db_phi db_psi db_js db_jac db_mu db_bc db_slip db_g db_j]. ev.
Qed.
