(** Properties of the discontinuous Galerkin discretization of the Navier-Stokes equations: C138-C142. *)
From Verif Require Import Common CommonFacts CdModel CdSpec CdProofs WaveModel FlowModel FlowSpec FlowProofs FlowProofs2 FlowProofs3 FlowProofs4
  DgnsModel DgnsSpec DgnsProofs DgnsProofs2 DgnsProofs3.
From Coq Require Import Reals Lra Lia FunctionalExtensionality.
Open Scope R_scope.
Local Notation testedn dim vsize psize := (tested (S dim) (th_size dim vsize psize)).
Local Notation timesn dim vsize psize := (times (S dim) (th_size dim vsize psize)).

(** ** C138: the residuals are the interior penalty forms *)

Theorem c138_cells : forall navier full sc dim vsize psize pts x y r,
  testedn dim vsize psize y (dgns_alpha_volume navier full sc dim vsize psize pts x r) = testedn dim vsize psize y r +
  lsum (fun p => th_vol p * cell_form navier full dim sc (fl_mu p) (fl_rho p) (cell_state dim vsize psize p x) (cell_state dim vsize psize p y)) pts.
Proof. intros. apply alpha_volume_eq. Qed.
Print Assumptions c138_cells.

Theorem c138_faces : forall full eps pen sc dim vsize psize pts xs xn ys yn r,
  tested_face (S dim) (th_size dim vsize psize) ys yn (dgns_alpha_skeleton full eps pen sc dim vsize psize pts xs xn r) =
  tested_face (S dim) (th_size dim vsize psize) ys yn r +
  lsum (fun p => nf_vol p * face_form full dim eps pen sc (nf_mu p) (nf_normal p) (state_s dim vsize psize p xs) (state_n dim vsize psize p xn)
                                      (state_s dim vsize psize p ys) (state_n dim vsize psize p yn)) pts.
Proof. intros. apply alpha_skeleton_eq. Qed.
Print Assumptions c138_faces.

Theorem c138_boundary : forall full eps pen sc dim vsize psize pts x y r,
  testedn dim vsize psize y (dgns_alpha_boundary full eps pen sc dim vsize psize pts x r) = testedn dim vsize psize y r +
  lsum (fun p => db_vol p * boundary_form full dim eps pen sc p (state_b dim vsize psize p x) (state_b dim vsize psize p y)) pts.
Proof. intros. apply alpha_boundary_eq. Qed.
Print Assumptions c138_boundary.

(** The loads: force and mass source of the cells, velocities and stresses given at the boundary *)
Theorem c138_loads : forall full eps pen sc dim vsize psize pts bpts y r,
  testedn dim vsize psize y (dgns_lambda_volume dim vsize psize pts r) = testedn dim vsize psize y r +
    lsum (fun p => th_vol p * (- inner dim (fl_f p) (th_u vsize p y) + fl_g2 p * th_p dim psize p y)) pts /\
  testedn dim vsize psize y (dgns_lambda_boundary full eps pen sc dim vsize psize bpts r) = testedn dim vsize psize y r +
    lsum (fun p => db_vol p * boundary_load full dim eps pen sc p (state_b dim vsize psize p y)) bpts.
Proof. intros. split; [apply lambda_volume_eq|apply lambda_boundary_eq]. Qed.
Print Assumptions c138_loads.

(** With the scaling 1 the cell terms are those of the Taylor-Hood operator. *)
Theorem c138_agrees_with_taylor_hood : forall navier full dim vsize psize pts x y r,
  testedn dim vsize psize y (dgns_alpha_volume navier full 1 dim vsize psize pts x r) =
  testedn dim vsize psize y (th_alpha_volume navier full dim vsize psize pts x r) /\
  testedn dim vsize psize y (dgns_lambda_volume dim vsize psize pts r) = testedn dim vsize psize y (th_lambda_volume dim vsize psize pts r).
Proof.
  intros. split; [|now rewrite lambda_volume_eq, th_lambda_eq]. rewrite alpha_volume_eq, th_residual_eq. apply f_equal. apply lsum_ext. intros p _.
  unfold cell_form, cell_state; cbn [s_u s_gu s_p]. now rewrite Rmult_1_l.
Qed.
Print Assumptions c138_agrees_with_taylor_hood.

(** Two neighbouring intervals of length 1/2 that meet at the point of the face; basis 1 - xi, xi, pressures piecewise constant *)
Definition dg_face : nfpt :=
  mknf 1 1 (fun _ => 1) (fun i => match i with 0 => 0 | _ => 1 end) (fun i => match i with 0 => 1 | _ => 0 end) (fun _ => 1) (fun _ => 1)
       (fun i _ => match i with 0 => -1 | _ => 1 end) (fun i _ => match i with 0 => -1 | _ => 1 end) (fun _ _ => 2) (fun _ _ => 2) 3.
Definition dg_s : mat := fun d i => match d, i with 0, 0 => 1 | 0, _ => 2 | _, _ => 4 end.
Definition dg_n : mat := fun d i => match d, i with 0, 0 => 5 | 0, _ => 7 | _, _ => 6 end.
(** u jumps by 2 - 5, u' is 2 and 4, the mean pressure is 5: the entry of the inside velocity that belongs to the face is
    - mu {u'} + eps mu (1/2) 2 [u] + mu pen [u] + {p} with mu = 3, eps = -1, pen = 10 *)
Example c138_faces_example :
  fst (dgns_alpha_skeleton false (-1) 10 1 1 2 1 [dg_face] dg_s dg_n zerof) 0%nat 1%nat = - 3 * 3 + -1 * 3 * 1 * -3 + 3 * 10 * -3 + 5 /\
  snd (dgns_alpha_skeleton false (-1) 10 1 1 2 1 [dg_face] dg_s dg_n zerof) 1%nat 0%nat = -3 / 2 /\
  m_sn (dgns_jacobian_skeleton false (-1) 10 1 1 2 1 [dg_face] zeroS) 0%nat 1%nat 0%nat 0%nat = - 3 * (1/2 * -2) + -1 * 3 * 1 * -1 + 3 * 10 * -1 /\
  m_ns (dgns_jacobian_skeleton false (-1) 10 1 1 2 1 [dg_face] zeroS) 1%nat 0%nat 0%nat 1%nat = 1/2.
Proof.
  repeat split; cbn; unfold macc, tacc, mv, dot, eval_u, eval_grad, axpy, zerom, zeroT, dg_s, dg_n; cbn; field.
Qed.
(** the left end of the left interval: the velocity 3 is given, u = 1, u' = 2, p = 4, normal -1 *)
Definition dg_wall (bc : stokes_bc) : dbpt :=
  mkdb 1 1 (fun _ => -1) (fun i => match i with 0 => 1 | _ => 0 end) (fun _ => 1) (fun i _ => match i with 0 => -1 | _ => 1 end) (fun _ _ => 2) 3 bc (1/2) (fun _ => 3) (fun _ => 11).
Example c138_boundary_example :
  dgns_alpha_boundary false (-1) 10 1 1 2 1 [dg_wall VelocityDirichlet] dg_s zerom 0%nat 0%nat = 3 * 2 + -1 * 3 * 2 * 1 + 3 * 10 * 1 - 4 /\
  dgns_lambda_boundary false (-1) 10 1 1 2 1 [dg_wall VelocityDirichlet] zerom 0%nat 0%nat = - (-1 * 3 * 2 * 3 + 3 * 10 * 3) /\
  dgns_lambda_boundary false (-1) 10 1 1 2 1 [dg_wall StressNeumann] zerom 0%nat 0%nat = 11 /\
  dgns_alpha_boundary false (-1) 10 1 1 2 1 [dg_wall DoNothing] dg_s zerom 0%nat 0%nat = 0.
Proof.
  repeat split; cbn; unfold slip_factor, macc, tacc, mv, dot, eval_u, eval_grad, axpy, zerom, zeroT, dg_s, dg_n; cbn; field.
Qed.

(** ** C139: the Jacobians are the derivatives of the residuals *)

(** On faces the residual is linear, and the four matrices are its matrix. *)
Theorem c139_faces : forall full eps pen sc dim vsize psize pts xs xn zs zn ys yn t M,
  let alpha us un := tested_face (S dim) (th_size dim vsize psize) ys yn (dgns_alpha_skeleton full eps pen sc dim vsize psize pts us un zerof) in
  let product M := tested_product (S dim) (th_size dim vsize psize) ys yn zs zn M in
  alpha (move xs t zs) (move xn t zn) = alpha xs xn + t * product (dgns_jacobian_skeleton full eps pen sc dim vsize psize pts zeroS) /\
  product (dgns_jacobian_skeleton full eps pen sc dim vsize psize pts zeroS) = alpha zs zn /\
  product (dgns_jacobian_skeleton full eps pen sc dim vsize psize pts M) = product M + product (dgns_jacobian_skeleton full eps pen sc dim vsize psize pts zeroS).
Proof.
  intros. assert (E : product (dgns_jacobian_skeleton full eps pen sc dim vsize psize pts zeroS) = alpha zs zn).
  { unfold product, alpha. rewrite jacobian_skeleton_eq, alpha_skeleton_eq. apply f_equal2; [|reflexivity].
    unfold tested_product, zeroS, tested_face, zerof; cbn [m_ss m_sn m_ns m_nn fst snd]. rewrite !tested_times_0, !tested_0. ring. }
  split; [|split]; [|exact E|].
  - rewrite E. unfold alpha. rewrite !alpha_skeleton_eq.
    assert (Z : tested_face (S dim) (th_size dim vsize psize) ys yn zerof = 0) by (unfold tested_face, zerof; cbn [fst snd]; rewrite !tested_0; ring).
    rewrite Z, !Rplus_0_l, <- lsum_scal, <- lsum_plus. apply lsum_ext. intros p _. rewrite state_s_move, state_n_move, face_form_move. ring.
  - unfold product. rewrite !jacobian_skeleton_eq. unfold tested_product at 3; unfold zeroS; cbn [m_ss m_sn m_ns m_nn]. rewrite !tested_times_0. ring.
Qed.
Print Assumptions c139_faces.

Theorem c139_boundary : forall full eps pen sc dim vsize psize pts x z y t M,
  let alpha u := testedn dim vsize psize y (dgns_alpha_boundary full eps pen sc dim vsize psize pts u zerom) in
  let product M := testedn dim vsize psize y (timesn dim vsize psize M z) in
  alpha (move x t z) = alpha x + t * product (dgns_jacobian_boundary full eps pen sc dim vsize psize pts zeroT) /\
  product (dgns_jacobian_boundary full eps pen sc dim vsize psize pts zeroT) = alpha z /\
  product (dgns_jacobian_boundary full eps pen sc dim vsize psize pts M) = product M + product (dgns_jacobian_boundary full eps pen sc dim vsize psize pts zeroT).
Proof.
  intros. pose proof (jacobian_boundary_eq full eps pen sc dim vsize psize pts y z) as HJ. unfold tested2 in HJ.
  assert (E : product (dgns_jacobian_boundary full eps pen sc dim vsize psize pts zeroT) = alpha z).
  { unfold product, alpha. rewrite HJ, alpha_boundary_eq, tested_times_0, tested_0. reflexivity. }
  split; [|split]; [|exact E|].
  - rewrite E. unfold alpha. rewrite !alpha_boundary_eq, !tested_0, !Rplus_0_l, <- lsum_scal, <- lsum_plus. apply lsum_ext. intros p _.
    rewrite state_b_move, boundary_form_move. ring.
  - unfold product. rewrite !HJ, tested_times_0. ring.
Qed.
Print Assumptions c139_boundary.

(** In cells the convection of the increment by itself is left over, times t^2. *)
Theorem c139_cells : forall navier full sc dim vsize psize pts x z y t,
  testedn dim vsize psize y (dgns_alpha_volume navier full sc dim vsize psize pts (move x t z) zerom) =
  testedn dim vsize psize y (dgns_alpha_volume navier full sc dim vsize psize pts x zerom)
  + t * testedn dim vsize psize y (timesn dim vsize psize (dgns_jacobian_volume navier full sc dim vsize psize pts x zeroT) z)
  + t * t * (if navier then lsum (fun p => th_vol p * (fl_rho p * inner dim (fun d => inner dim (th_u vsize p z) (th_gu dim vsize p z d)) (th_u vsize p y))) pts else 0).
Proof.
  intros. pose proof (jacobian_volume_eq full sc dim vsize psize navier pts x y z zeroT) as HJ. unfold tested2 in HJ.
  rewrite HJ, tested_times_0, !alpha_volume_eq, !tested_0.
  replace (if navier then lsum (fun p => th_vol p * (fl_rho p * inner dim (fun d => inner dim (th_u vsize p z) (th_gu dim vsize p z d)) (th_u vsize p y))) pts else 0)
    with (lsum (fun p => th_vol p * ns_quad navier dim (fl_rho p) (th_u vsize p z) (th_gu dim vsize p z) (th_u vsize p y)) pts).
  2:{ unfold ns_quad. destruct navier; [reflexivity|]. transitivity (lsum (fun _ : flpt => 0) pts); [|apply lsum_0]. apply lsum_ext. intros; ring. }
  rewrite !Rplus_0_l, <- !lsum_scal, <- !lsum_plus. apply lsum_ext. intros p _.
  rewrite cell_state_move. unfold cell_form, moves, cell_state; cbn [s_u s_gu s_p]. rewrite ns_form_move. ring.
Qed.
Print Assumptions c139_cells.

Theorem c139_cells_derivative : forall navier full sc dim vsize psize pts x z y M,
  derivable_pt_lim (fun t => testedn dim vsize psize y (dgns_alpha_volume navier full sc dim vsize psize pts (move x t z) zerom)) 0
    (testedn dim vsize psize y (timesn dim vsize psize (dgns_jacobian_volume navier full sc dim vsize psize pts x zeroT) z)) /\
  testedn dim vsize psize y (timesn dim vsize psize (dgns_jacobian_volume navier full sc dim vsize psize pts x M) z) =
  testedn dim vsize psize y (timesn dim vsize psize M z) + testedn dim vsize psize y (timesn dim vsize psize (dgns_jacobian_volume navier full sc dim vsize psize pts x zeroT) z).
Proof.
  intros. split; [eapply poly_derivative; intros t; apply c139_cells|].
  pose proof (jacobian_volume_eq full sc dim vsize psize navier pts x y z) as HJ. unfold tested2 in HJ. rewrite !HJ, tested_times_0. ring.
Qed.
Print Assumptions c139_cells_derivative.
Definition dg_point : flpt :=
  mkfl 1 (1/2) (fun _ => 1/2) (fun _ => 1) (fun i _ => match i with 0 => -1 | _ => 1 end) (fun _ _ => 2) 3 5 (fun _ => 0) 2.
(** u = 3/2, u' = 2, p = 4, sc = 8 *)
Example c139_example :
  dgns_alpha_volume true true 8 1 2 1 [dg_point] dg_s zerom 0%nat 1%nat = (24 - 8 + 15/2) / 2 /\
  dgns_alpha_volume true true 8 1 2 1 [dg_point] dg_s zerom 1%nat 0%nat = -8 /\
  dgns_jacobian_volume true true 8 1 2 1 [dg_point] dg_s zeroT 0%nat 1%nat 0%nat 1%nat = (24 + 5 * (1/2 * 2 * (1/2)) + 5 * (3/2 * 2 * (1/2))) / 2 /\
  dgns_jacobian_volume true true 8 1 2 1 [dg_point] dg_s zeroT 1%nat 0%nat 0%nat 1%nat = -8.
Proof.
  repeat split; cbn; unfold macc, tacc, mv, dot, eval_u, eval_grad, axpy, zerom, zeroT, dg_s; cbn; field.
Qed.

(** ** C140: structure of the Stokes problem *)

(** The symmetric method (eps = -1) with the scaling 1 has symmetric matrices. *)
Theorem c140_symmetric : forall full pen dim vsize psize pts fpts bpts x y z ys yn zs zn,
  testedn dim vsize psize y (timesn dim vsize psize (dgns_jacobian_volume false full 1 dim vsize psize pts x zeroT) z) =
  testedn dim vsize psize z (timesn dim vsize psize (dgns_jacobian_volume false full 1 dim vsize psize pts x zeroT) y) /\
  tested_product (S dim) (th_size dim vsize psize) ys yn zs zn (dgns_jacobian_skeleton full (-1) pen 1 dim vsize psize fpts zeroS) =
  tested_product (S dim) (th_size dim vsize psize) zs zn ys yn (dgns_jacobian_skeleton full (-1) pen 1 dim vsize psize fpts zeroS) /\
  testedn dim vsize psize y (timesn dim vsize psize (dgns_jacobian_boundary full (-1) pen 1 dim vsize psize bpts zeroT) z) =
  testedn dim vsize psize z (timesn dim vsize psize (dgns_jacobian_boundary full (-1) pen 1 dim vsize psize bpts zeroT) y).
Proof.
  intros. split; [|split].
  - pose proof (jacobian_volume_eq full 1 dim vsize psize false pts x) as HJ. unfold tested2 in HJ. rewrite !HJ, !tested_times_0. apply f_equal.
    apply lsum_ext. intros p _. apply f_equal.
    pose proof (cell_form_sym full dim (fl_mu p) (fl_rho p) (cell_state dim vsize psize p z) (cell_state dim vsize psize p y)) as E.
    unfold cell_form, ns_form, cell_state in E; cbn [s_u s_gu s_p] in E. unfold ns_form'. lra.
  - rewrite !jacobian_skeleton_eq. unfold tested_product, zeroS; cbn [m_ss m_sn m_ns m_nn]. rewrite !tested_times_0. apply f_equal. apply lsum_ext. intros p _. now rewrite face_form_sym.
  - pose proof (jacobian_boundary_eq full (-1) pen 1 dim vsize psize bpts) as HJ. unfold tested2 in HJ. rewrite !HJ, !tested_times_0. apply f_equal.
    apply lsum_ext. intros p _. now rewrite boundary_form_sym.
Qed.
Print Assumptions c140_symmetric.

(** The nonsymmetric method (eps = 1) tested with its own velocity and the pressure - p / sc: pressures and tractions cancel, dissipation and
    penalties are left. *)
Theorem c140_energy_faces : forall full pen sc dim vsize psize pts xs xn, sc <> 0 ->
  tested_face (S dim) (th_size dim vsize psize) (with_pressure dim (-1 / sc) xs) (with_pressure dim (-1 / sc) xn)
    (dgns_alpha_skeleton full 1 pen sc dim vsize psize pts xs xn zerof) =
  lsum (fun p => let ju := jump (field vsize xs (nf_phi_s p)) (field vsize xn (nf_phi_n p)) in nf_vol p * (nf_mu p * (pen * inner dim ju ju))) pts.
Proof.
  intros. rewrite alpha_skeleton_eq. unfold tested_face at 1, zerof; cbn [fst snd]. rewrite !tested_0, Rplus_0_r, Rplus_0_l. apply lsum_ext. intros p _.
  rewrite (face_form_ext _ _ _ _ _ _ _ _ _ _ _ _ _ _ _ (peq_refl _ _) (peq_refl _ _) (wp_state_s _ _ _ _ _ _) (wp_state_n _ _ _ _ _ _)).
  now rewrite face_energy.
Qed.
Print Assumptions c140_energy_faces.

(** Nothing that the operator does creates energy: without forces, sources and data, on every mesh *)
Theorem c140_stable : forall full pen sc dim vsize psize T X, sc <> 0 -> 0 <= pen ->
  (forall c p, In c (m_cells T) -> In p (snd c) -> 0 <= th_vol p /\ 0 <= fl_mu p /\ (forall d, (d < dim)%nat -> fl_f p d = 0) /\ fl_g2 p = 0) ->
  (forall f p, In f (m_faces T) -> In p (snd f) -> 0 <= nf_vol p /\ 0 <= nf_mu p) ->
  (forall w p, In w (m_walls T) -> In p (snd w) -> 0 <= db_vol p /\ 0 <= db_mu p /\ 0 <= db_slip p <= 1 /\
                                                  (forall d, (d < dim)%nat -> db_g p d = 0 /\ db_j p d = 0)) ->
  0 <= assembled false full 1 pen sc dim vsize psize T X (fun c => with_pressure dim (-1 / sc) (X c)).
Proof.
  intros full pen sc dim vsize psize T X Hsc Hpen HC HF HW. unfold assembled. cbv zeta.
  assert (SQ : forall a : vec, 0 <= inner dim a a) by (intros; apply rsum_nonneg; intros; apply Rle_0_sqr).
  assert (I0 : forall a b, (forall d, (d < dim)%nat -> a d = 0) -> inner dim a b = 0)
    by (intros a b Ha; transitivity (inner dim (fun _ => 0) b); [apply inner_ext; auto|apply inner_0_l]).
  apply Rplus_le_le_0_compat; [apply Rplus_le_le_0_compat|]; apply lsum_nonneg.
  - intros c Hc. rewrite lambda_volume_eq, alpha_volume_eq, tested_0, Rplus_0_l.
    replace (lsum _ (snd c)) with (lsum (fun p => th_vol p * (fl_mu p * (ddot dim (th_gu dim vsize p (X (fst c))) (th_gu dim vsize p (X (fst c)))
      + (if full then ddot dim (transposed (th_gu dim vsize p (X (fst c)))) (th_gu dim vsize p (X (fst c))) else 0)))) (snd c)) at 1.
    2:{ apply lsum_ext. intros p _. rewrite (cell_form_ext _ _ _ _ _ _ _ _ _ _ (peq_refl _ _) (wp_cell _ _ _ _ _ _)). now rewrite cell_energy. }
    rewrite <- lsum_plus. apply lsum_nonneg. intros p Hp. destruct (HC c p Hc Hp) as (H1 & H2 & H3 & H4).
    rewrite H4, (I0 _ _ H3). pose proof (dissipation_nonneg full dim (th_gu dim vsize p (X (fst c)))).
    assert (0 <= th_vol p * (fl_mu p * (ddot dim (th_gu dim vsize p (X (fst c))) (th_gu dim vsize p (X (fst c)))
      + (if full then ddot dim (transposed (th_gu dim vsize p (X (fst c)))) (th_gu dim vsize p (X (fst c))) else 0)))) by (apply Rmult_le_pos; [easy|]; now apply Rmult_le_pos).
    lra.
  - intros f Hf. rewrite c140_energy_faces by easy. apply lsum_nonneg. intros p Hp. destruct (HF f p Hf Hp). cbv zeta.
    apply Rmult_le_pos; [easy|]. apply Rmult_le_pos; [easy|]. now apply Rmult_le_pos.
  - intros w Hw. rewrite lambda_boundary_eq, alpha_boundary_eq, tested_0, Rplus_0_l, <- lsum_plus. apply lsum_nonneg.
    intros p Hp. destruct (HW w p Hw Hp) as (H1 & H2 & H3 & H4).
    rewrite (boundary_form_ext _ _ _ _ _ _ _ _ _ _ (peq_refl _ _) (wp_state_b _ _ _ _ _ _)), boundary_energy by easy.
    set (u := s_u (state_b dim vsize psize p (X (fst w)))). set (v := state_b dim vsize psize p (with_pressure dim (-1 / sc) (X (fst w)))).
    assert (L : boundary_load full dim 1 pen sc p v = 0).
    { unfold boundary_load. rewrite (inner_comm dim _ (db_g p)), !(I0 (db_g p)), (I0 (db_j p)) by (intros d Hd; now destruct (H4 d Hd)). destruct (db_bc p); ring. }
    rewrite L, Rmult_0_r, Rplus_0_r. apply Rmult_le_pos; [easy|].
    assert (0 <= db_mu p * (pen * inner dim u u)) by (apply Rmult_le_pos; [easy|]; now apply Rmult_le_pos).
    assert (0 <= db_mu p * (pen * (inner dim u (db_normal p) * inner dim u (db_normal p)))) by (apply Rmult_le_pos; [easy|]; apply Rmult_le_pos; [easy|]; apply Rle_0_sqr).
    destruct (db_bc p); try lra; try easy.
    apply Rplus_le_le_0_compat; apply Rmult_le_pos; lra || easy.
Qed.
Print Assumptions c140_stable.

(** A mesh of two intervals with a wall at the left end, without forces *)
Definition dg_still : flpt := mkfl 1 (1/2) (fun _ => 1/2) (fun _ => 1) (fun i _ => match i with 0 => -1 | _ => 1 end) (fun _ _ => 2) 3 5 (fun _ => 0) 0.
Definition dg_rest : dbpt :=
  mkdb 1 1 (fun _ => -1) (fun i => match i with 0 => 1 | _ => 0 end) (fun _ => 1) (fun i _ => match i with 0 => -1 | _ => 1 end) (fun _ _ => 2) 3 SlipVelocity (1/2) (fun _ => 0) (fun _ => 0).
Definition dg_mesh : mesh := mkmesh [(0%nat, [dg_still]); (1%nat, [dg_still])] [((0%nat, 1%nat), [dg_face])] [(0%nat, [dg_rest])].
Definition dg_X : nat -> mat := fun c => match c with 0 => dg_s | _ => dg_n end.
(** dissipation 6 + 24, penalty 3 * 10 * 9 on the face and 3 * 10 * 1 at the wall *)
Example c140_example :
  (forall c p, In c (m_cells dg_mesh) -> In p (snd c) -> 0 <= th_vol p /\ 0 <= fl_mu p /\ (forall d, (d < 1)%nat -> fl_f p d = 0) /\ fl_g2 p = 0) /\
  (forall f p, In f (m_faces dg_mesh) -> In p (snd f) -> 0 <= nf_vol p /\ 0 <= nf_mu p) /\
  (forall w p, In w (m_walls dg_mesh) -> In p (snd w) -> 0 <= db_vol p /\ 0 <= db_mu p /\ 0 <= db_slip p <= 1 /\ (forall d, (d < 1)%nat -> db_g p d = 0 /\ db_j p d = 0)) /\
  assembled false false 1 10 2 1 2 1 dg_mesh dg_X (fun c => with_pressure 1 (-1 / 2) (dg_X c)) = 6 + 24 + 270 + 30.
Proof.
  split; [|split; [|split]].
  - intros c p [<-|[<-|[]]] [<-|[]]; unfold th_vol; cbn; (split; [lra|split; [lra|split; [reflexivity|lra]]]).
  - intros c p [<-|[]] [<-|[]]; unfold nf_vol; cbn; lra.
  - intros c p [<-|[]] [<-|[]]; unfold db_vol; cbn. split; [lra|split; [lra|split; [lra|intros; lra]]].
  - unfold assembled, tested, tested_face, zerof, with_pressure, th_size, Nat.ltb. cbn.
    unfold slip_factor, macc, tacc, mv, dot, eval_u, eval_grad, axpy, zerom, zeroT, dg_X, dg_s, dg_n; cbn. field.
Qed.

(** ** C141: orientation, conservation, consistency *)

(** Which of the two cells of a face is the inside does not matter. *)
Theorem c141_orientation : forall full eps pen sc dim vsize psize pts xs xn ys yn,
  tested_face (S dim) (th_size dim vsize psize) yn ys (dgns_alpha_skeleton full eps pen sc dim vsize psize (map turn_face pts) xn xs zerof) =
  tested_face (S dim) (th_size dim vsize psize) ys yn (dgns_alpha_skeleton full eps pen sc dim vsize psize pts xs xn zerof).
Proof.
  intros. rewrite !alpha_skeleton_eq. unfold tested_face, zerof; cbn [fst snd]. rewrite !tested_0. apply f_equal.
  rewrite <- (map_id pts) at 2. assert (LM : forall (f : nfpt -> R) (g : nfpt -> nfpt) l, lsum f (map g l) = lsum (fun p => f (g p)) l) by (induction l; cbn; congruence).
  rewrite !LM. apply lsum_ext. intros p _. apply f_equal2; [reflexivity|].
  change (state_s dim vsize psize (turn_face p)) with (state_n dim vsize psize p). change (state_n dim vsize psize (turn_face p)) with (state_s dim vsize psize p).
  cbn [turn_face nf_mu nf_normal]. set (us := state_s dim vsize psize p xs). set (un := state_n dim vsize psize p xn).
  set (vs := state_s dim vsize psize p ys). set (vn := state_n dim vsize psize p yn). unfold face_form. cbv zeta.
  assert (TO : forall g, traction full dim (opp (nf_normal p)) g = opp (traction full dim (nf_normal p) g)).
  { intros g. extensionality d. unfold traction, opp, inner. rewrite (rsum_ext dim (fun k => g d k * - nf_normal p k) (fun k => - (g d k * nf_normal p k))) by (intros; ring).
    rewrite (rsum_ext dim (fun k => g k d * - nf_normal p k) (fun k => - (g k d * nf_normal p k))) by (intros; ring). rewrite !rsum_opp. destruct full; ring. }
  assert (JO : forall a b, jump a b = opp (jump b a)) by (intros; extensionality k; unfold jump, opp; ring).
  assert (MO : forall a b, mean (opp a) (opp b) = opp (mean b a)) by (intros; extensionality k; unfold mean, opp; field).
  assert (IO : forall a b, inner dim (opp a) (opp b) = inner dim a b) by (intros; apply rsum_ext; intros; unfold opp; ring).
  rewrite !TO, !MO, (JO (s_u un)), (JO (s_u vn)), !IO. unfold mean1. field.
Qed.
Print Assumptions c141_orientation.

(** The faces conserve momentum: what one cell gains the other loses, if the basis functions add up to one in both cells. *)
Theorem c141_momentum_conserved : forall full eps pen sc dim vsize psize pts xs xn (a : vec),
  (forall p, In p pts -> rsum vsize (nf_phi_s p) = 1 /\ rsum vsize (nf_phi_n p) = 1 /\
     forall k, (k < dim)%nat -> rsum vsize (fun i => grads dim (nf_jac_s p) (nf_js_s p) i k) = 0 /\ rsum vsize (fun i => grads dim (nf_jac_n p) (nf_js_n p) i k) = 0) ->
  let one : mat := fun d _ => if (d <? dim)%nat then a d else 0 in
  tested_face (S dim) (th_size dim vsize psize) one one (dgns_alpha_skeleton full eps pen sc dim vsize psize pts xs xn zerof) = 0.
Proof.
  intros full eps pen sc dim vsize psize pts xs xn a H one. rewrite alpha_skeleton_eq. unfold tested_face at 1, zerof; cbn [fst snd].
  rewrite !tested_0, Rplus_0_r, Rplus_0_l. transitivity (lsum (fun _ : nfpt => 0) pts); [|apply lsum_0]. apply lsum_ext. intros p Hp. destruct (H p Hp) as (S1 & S2 & G).
  assert (F1 : forall phi, rsum vsize phi = 1 -> forall d, (d < dim)%nat -> fun_at vsize (one d) phi = a d).
  { intros phi E d Hd. unfold fun_at, one. destruct (Nat.ltb_spec d dim); [|lia]. rewrite rsum_scal, E. ring. }
  assert (F2 : forall D, (forall k, (k < dim)%nat -> rsum vsize (fun i => D i k) = 0) -> forall d k, (d < dim)%nat -> (k < dim)%nat -> grad_at vsize (one d) D k = 0).
  { intros D E d k Hd Hk. unfold grad_at, one. rewrite rsum_scal, E by easy. ring. }
  assert (F3 : forall psi, fun_at psize (one dim) psi = 0).
  { intros psi. unfold fun_at, one. rewrite Nat.ltb_irrefl, rsum_scal. ring. }
  rewrite (face_form_ext full dim eps pen sc (nf_mu p) (nf_normal p) _ _ _ _ (state_s dim vsize psize p xs) (state_n dim vsize psize p xn) (mkps a zerom 0) (mkps a zerom 0) (peq_refl _ _) (peq_refl _ _)).
  - unfold face_form. cbn [s_u s_gu s_p]. cbv zeta.
    assert (J : jump a a = fun _ => 0) by (extensionality k; unfold jump; ring). rewrite J.
    rewrite inner_0_l, !(inner_comm dim _ (fun _ => 0)), !inner_0_l.
    assert (Z : forall n d, traction full dim n zerom d = 0).
    { intros n d. unfold traction. rewrite (inner_ext dim (zerom d) n (fun _ => 0) n), inner_0_l by reflexivity. destruct full; [|ring].
      rewrite (rsum_ext dim _ (fun _ => 0 * 0)) by (intros; unfold zerom; ring). rewrite rsum_scal. ring. }
    rewrite (inner_ext dim (mean _ _) (jump _ _) (fun _ => 0) (jump (s_u (state_s dim vsize psize p xs)) (s_u (state_n dim vsize psize p xn)))), inner_0_l
      by (intros; try reflexivity; unfold mean; rewrite !Z; field). unfold mean1. field.
  - unfold peq, state_s; cbn [s_u s_gu s_p]. split; [|split].
    + intros. now apply F1.
    + intros. apply F2; auto. intros. now apply G.
    + apply F3.
  - unfold peq, state_n; cbn [s_u s_gu s_p]. split; [|split].
    + intros. now apply F1.
    + intros. apply F2; auto. intros. now apply G.
    + apply F3.
Qed.
Print Assumptions c141_momentum_conserved.

(** Where the velocity is continuous neither penalty nor eps nor the scaling of the incompressibility has an effect: only the mean
    traction acts on the jump of the test functions. *)
Theorem c141_continuous_velocity : forall full eps pen sc dim vsize psize pts xs xn ys yn,
  (forall p, In p pts -> forall d, (d < dim)%nat -> field vsize xs (nf_phi_s p) d = field vsize xn (nf_phi_n p) d) ->
  tested_face (S dim) (th_size dim vsize psize) ys yn (dgns_alpha_skeleton full eps pen sc dim vsize psize pts xs xn zerof) =
  lsum (fun p => let us := state_s dim vsize psize p xs in let un := state_n dim vsize psize p xn in
    let jv := jump (field vsize ys (nf_phi_s p)) (field vsize yn (nf_phi_n p)) in
    nf_vol p * (- (nf_mu p * inner dim (mean (traction full dim (nf_normal p) (s_gu us)) (traction full dim (nf_normal p) (s_gu un))) jv)
                + mean1 (s_p us) (s_p un) * inner dim jv (nf_normal p))) pts.
Proof.
  intros full eps pen sc dim vsize psize pts xs xn ys yn H. rewrite alpha_skeleton_eq. unfold tested_face at 1, zerof; cbn [fst snd].
  rewrite !tested_0, Rplus_0_r, Rplus_0_l. apply lsum_ext. intros p Hp. cbv zeta. apply f_equal. unfold face_form. cbv zeta.
  assert (J : forall d, (d < dim)%nat -> jump (s_u (state_s dim vsize psize p xs)) (s_u (state_n dim vsize psize p xn)) d = 0).
  { intros d Hd. unfold jump, state_s, state_n; cbn [s_u]. rewrite (H p Hp d Hd). ring. }
  assert (I0 : forall b, inner dim (jump (s_u (state_s dim vsize psize p xs)) (s_u (state_n dim vsize psize p xn))) b = 0)
    by (intros b; transitivity (inner dim (fun _ => 0) b); [apply inner_ext; auto|apply inner_0_l]).
  rewrite (inner_comm dim _ (jump (s_u (state_s dim vsize psize p xs)) (s_u (state_n dim vsize psize p xn)))), !I0.
  change (field vsize ys (nf_phi_s p)) with (s_u (state_s dim vsize psize p ys)). change (field vsize yn (nf_phi_n p)) with (s_u (state_n dim vsize psize p yn)). ring.
Qed.
Print Assumptions c141_continuous_velocity.

(** Where the velocity takes the value given at the wall, residual and load together are the traction at the wall. *)
Theorem c141_wall : forall full eps pen sc dim vsize psize pts x y,
  (forall p, In p pts -> db_bc p = VelocityDirichlet /\ forall d, (d < dim)%nat -> field vsize x (db_phi p) d = db_g p d) ->
  testedn dim vsize psize y (dgns_lambda_boundary full eps pen sc dim vsize psize pts (dgns_alpha_boundary full eps pen sc dim vsize psize pts x zerom)) =
  lsum (fun p => let u := state_b dim vsize psize p x in let v := field vsize y (db_phi p) in
    db_vol p * (- (db_mu p * inner dim (traction full dim (db_normal p) (s_gu u)) v) + s_p u * inner dim v (db_normal p))) pts.
Proof.
  intros full eps pen sc dim vsize psize pts x y H. rewrite lambda_boundary_eq, alpha_boundary_eq, tested_0, Rplus_0_l, <- lsum_plus.
  apply lsum_ext. intros p Hp. destruct (H p Hp) as (B & G). cbv zeta. rewrite <- Rmult_plus_distr_l. apply f_equal.
  unfold boundary_form, boundary_load, noslip_form, wall_form. rewrite B.
  assert (U : forall d, (d < dim)%nat -> s_u (state_b dim vsize psize p x) d = db_g p d) by (intros; now apply G).
  rewrite (inner_ext dim (s_u (state_b dim vsize psize p x)) (s_u (state_b dim vsize psize p y)) (db_g p) (s_u (state_b dim vsize psize p y)) U) by easy.
  rewrite (inner_ext dim (s_u (state_b dim vsize psize p x)) (db_normal p) (db_g p) (db_normal p) U) by easy.
  rewrite (inner_ext dim (traction full dim (db_normal p) (s_gu (state_b dim vsize psize p y))) (s_u (state_b dim vsize psize p x))
             (traction full dim (db_normal p) (s_gu (state_b dim vsize psize p y))) (db_g p)) by (easy || exact U).
  change (field vsize y (db_phi p)) with (s_u (state_b dim vsize psize p y)). ring.
Qed.
Print Assumptions c141_wall.

(** Where no condition is given nothing is added; a given stress acts on the velocity only. *)
Theorem c141_open_boundary : forall full eps pen sc dim vsize psize pts x y,
  (forall p, In p pts -> db_bc p = DoNothing \/ db_bc p = StressNeumann) ->
  testedn dim vsize psize y (dgns_lambda_boundary full eps pen sc dim vsize psize pts (dgns_alpha_boundary full eps pen sc dim vsize psize pts x zerom)) =
  lsum (fun p => match db_bc p with StressNeumann => db_vol p * inner dim (db_j p) (field vsize y (db_phi p)) | _ => 0 end) pts.
Proof.
  intros full eps pen sc dim vsize psize pts x y H. rewrite lambda_boundary_eq, alpha_boundary_eq, tested_0, Rplus_0_l, <- lsum_plus.
  apply lsum_ext. intros p Hp. unfold boundary_form, boundary_load. destruct (H p Hp) as [-> | ->]; [ring|].
  change (field vsize y (db_phi p)) with (s_u (state_b dim vsize psize p y)). ring.
Qed.
Print Assumptions c141_open_boundary.
(** the basis of the example adds up to one; a velocity that is 2 on both sides is continuous; the wall example with the velocity 3 *)
Example c141_example :
  (forall p, In p [dg_face] -> rsum 2 (nf_phi_s p) = 1 /\ rsum 2 (nf_phi_n p) = 1 /\
     forall k, (k < 1)%nat -> rsum 2 (fun i => grads 1 (nf_jac_s p) (nf_js_s p) i k) = 0 /\ rsum 2 (fun i => grads 1 (nf_jac_n p) (nf_js_n p) i k) = 0) /\
  (forall p, In p [dg_face] -> forall d, (d < 1)%nat -> field 2 dg_s (nf_phi_s p) d = field 2 (fun d i => match i with 0 => 2 | _ => 9 end) (nf_phi_n p) d) /\
  (forall p, In p [dg_wall VelocityDirichlet] -> db_bc p = VelocityDirichlet /\ forall d, (d < 1)%nat -> field 2 (fun _ i => match i with 0 => 3 | _ => 8 end) (db_phi p) d = db_g p d) /\
  (forall p, In p [dg_wall DoNothing; dg_wall StressNeumann] -> db_bc p = DoNothing \/ db_bc p = StressNeumann).
Proof.
  split; [|split; [|split]].
  - intros p [<-|[]]. unfold rsum, grads, apply; cbn. split; [|split]; [ring..|]. intros. unfold rsum. cbn. split; field.
  - intros p [<-|[]] d Hd. replace d with 0%nat by lia. unfold field, fun_at, rsum, dg_s; cbn. field.
  - intros p [<-|[]]. split; [reflexivity|]. intros. unfold field, fun_at, rsum; cbn. field.
  - intros p [<-|[<-|[]]]; cbn; auto.
Qed.

(** ** C142: the solution does not depend on the scaling of the incompressibility, which is 1 / dt *)

Theorem c142_scaling_partial : forall navier full eps pen dt dim vsize psize T X, dt <> 0 ->
  (forall c p, In c (m_cells T) -> In p (snd c) -> fl_g2 p = 0) ->
  solves navier full eps pen (incompressibility_scaling dt) dim vsize psize T X <-> solves navier full eps pen 1 dim vsize psize T X.
Proof.
  intros navier full eps pen dt dim vsize psize T X Hdt HG. unfold incompressibility_scaling. set (sc := 1 / dt).
  assert (Hsc : sc <> 0) by (unfold sc; intros E; apply Rmult_integral in E; destruct E as [E|E]; [lra|]; now apply (Rinv_neq_0_compat dt)).
  assert (Main : forall Y, assembled navier full eps pen sc dim vsize psize T X Y = assembled navier full eps pen 1 dim vsize psize T X (fun c => with_pressure dim sc (Y c))).
  { intros Y. unfold assembled. cbv zeta. apply f_equal2; [apply f_equal2|]; apply lsum_ext.
    - intros c Hc. rewrite !lambda_volume_eq, !alpha_volume_eq, !tested_0. apply f_equal2; [apply f_equal|]; apply lsum_ext; intros p Hp.
      + rewrite cell_scaling. apply f_equal. apply cell_form_ext; [apply peq_refl|]. destruct (wp_cell dim vsize psize p sc (Y (fst c))) as (A & B & C).
        split; [|split]; intros; symmetry; auto.
      + rewrite (HG c p Hc Hp). apply f_equal. apply f_equal2; [|ring]. apply f_equal. apply inner_ext; [reflexivity|].
        intros k Hk. destruct (wp_cell dim vsize psize p sc (Y (fst c))) as (A & _). symmetry. apply (A k Hk).
    - intros f Hf. rewrite !alpha_skeleton_eq. unfold tested_face, zerof; cbn [fst snd]. rewrite !tested_0. apply f_equal. apply lsum_ext. intros p Hp.
      rewrite face_scaling. apply f_equal. apply face_form_ext; try apply peq_refl.
      + destruct (wp_state_s dim vsize psize p sc (Y (fst (fst f)))) as (A & B & C). split; [|split]; intros; symmetry; auto.
      + destruct (wp_state_n dim vsize psize p sc (Y (snd (fst f)))) as (A & B & C). split; [|split]; intros; symmetry; auto.
    - intros w Hw. rewrite !lambda_boundary_eq, !alpha_boundary_eq, !tested_0.
      assert (E : forall p, peq dim (pscale sc (state_b dim vsize psize p (Y (fst w)))) (state_b dim vsize psize p (with_pressure dim sc (Y (fst w))))).
      { intros p. destruct (wp_state_b dim vsize psize p sc (Y (fst w))) as (A & B & C). split; [|split]; intros; symmetry; auto. }
      apply f_equal2; [apply f_equal|]; apply lsum_ext; intros p Hp.
      + rewrite boundary_scaling. apply f_equal. apply boundary_form_ext; [apply peq_refl|apply E].
      + rewrite load_scaling. apply f_equal. apply boundary_load_ext, E. }
  unfold solves. split; intros H Y.
  - specialize (H (fun c => with_pressure dim (/ sc) (Y c))). rewrite Main in H. rewrite <- H.
    assert (W : forall y, with_pressure dim sc (with_pressure dim (/ sc) y) = y).
    { intros y. extensionality d. extensionality i. unfold with_pressure. destruct (d <? dim)%nat; [reflexivity|]. field. easy. }
    f_equal. extensionality c. symmetry. apply W.
  - rewrite Main. apply H.
Qed.
Print Assumptions c142_scaling_partial.

(** With a source of mass it does: the source is not scaled, so that the divergence becomes dt times the source.
    One interval, mu = 3, u' = 2, p = 6, source 2 *)
Definition dg_source : mesh := mkmesh [(0%nat, [dg_point])] [] [].
Definition dg_solution : nat -> mat := fun _ d i => match d, i with 0, 0 => 0 | 0, _ => 1 | _, _ => 6 end.
Theorem c142_mass_source_refuted : exists dt T X, 0 < dt /\
  solves false false (-1) 10 1 1 2 1 T X /\ ~ solves false false (-1) 10 (incompressibility_scaling dt) 1 2 1 T X.
Proof.
  exists (1/2), dg_source, dg_solution. split; [lra|]. split.
  - intros Y. unfold assembled, tested, th_size, Nat.ltb. cbn. unfold macc, tacc, mv, dot, eval_u, eval_grad, axpy, zerom, zeroT, dg_solution; cbn. field.
  - intros H. specialize (H (fun _ d _ => match d with 0 => 0 | _ => 1 end)). revert H. unfold assembled, tested, th_size, Nat.ltb, incompressibility_scaling. cbn.
    unfold macc, tacc, mv, dot, eval_u, eval_grad, axpy, zerom, zeroT, dg_solution; cbn. lra.
Qed.
Print Assumptions c142_mass_source_refuted.

(** With the scaling 1 / dt, dt = 1/2, the equations ask for half the source: u' = 1 *)
Example c142_example :
  solves false false (-1) 10 (incompressibility_scaling (1/2)) 1 2 1 dg_source (fun _ d i => match d, i with 0, 0 => 0 | 0, _ => 1/2 | _, _ => 3 end).
Proof.
  intros Y. unfold assembled, tested, th_size, Nat.ltb, incompressibility_scaling. cbn. unfold macc, tacc, mv, dot, eval_u, eval_grad, axpy, zerom, zeroT; cbn. field.
Qed.
(** a mesh without source and a solution: the velocity 3 is given at the wall and flows out freely *)
Example c142_hypotheses : let T := mkmesh [(0%nat, [dg_still])] [] [(0%nat, [dg_wall VelocityDirichlet])] in let X := fun (_ : nat) (d _ : nat) => match d with 0 => 3 | _ => 0 end in
  (forall c p, In c (m_cells T) -> In p (snd c) -> fl_g2 p = 0) /\ solves true false (-1) 10 1 1 2 1 T X.
Proof.
  split.
  - intros c p [<-|[]] [<-|[]]. reflexivity.
  - intros Y. unfold assembled, tested, th_size, Nat.ltb. cbn. unfold slip_factor, macc, tacc, mv, dot, eval_u, eval_grad, axpy, zerom, zeroT; cbn. field.
Qed.

(** The default penalty is positive and the same from both sides of a face. *)
Theorem c141_penalty : forall sigma face inside outside, 0 < sigma -> 0 < face -> 0 < inside -> 0 < outside ->
  default_ip sigma face inside outside = default_ip sigma face outside inside /\ 0 < default_ip sigma face inside outside /\
  default_ip_boundary sigma face inside <= default_ip sigma face inside outside /\ default_ip sigma face inside inside = default_ip_boundary sigma face inside.
Proof.
  intros sigma face a b H1 H2 H3 H4. unfold default_ip, default_ip_boundary.
  assert (M : 0 < Rmin a b) by (unfold Rmin; now destruct (Rle_dec a b)).
  assert (P : 0 < sigma * face) by now apply Rmult_lt_0_compat.
  split; [now rewrite Rmin_comm|]. split; [now apply Rdiv_lt_0_compat|]. split.
  - apply Rmult_le_compat_l; [lra|]. apply Rinv_le_contravar; [easy|apply Rmin_l].
  - now rewrite Rmin_left by lra.
Qed.
Print Assumptions c141_penalty.
Example c141_penalty_example : default_ip 6 1 (1/2) (1/4) = 24.
Proof. unfold default_ip. rewrite Rmin_right by lra. field. Qed.
