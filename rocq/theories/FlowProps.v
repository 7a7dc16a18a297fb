(** Properties of the local operators for systems: C111-C116. *)
From Verif Require Import Common CommonFacts CdModel CdSpec CdProofs WaveModel FlowModel FlowSpec FlowProofs FlowProofs2 FlowProofs3 FlowProofs4.
From Coq Require Import Reals Lra Lia.
Open Scope R_scope.

(** ** C111: Taylor-Hood computes the weak form of the Navier-Stokes equations, and its Jacobian is the derivative *)

Theorem c111_residual : forall navier full dim vsize psize pts x y r,
  tested (S dim) (th_size dim vsize psize) y (th_alpha_volume navier full dim vsize psize pts x r) = tested (S dim) (th_size dim vsize psize) y r +
  lsum (fun p => th_vol p * ns_form navier full dim (fl_mu p) (fl_rho p) (th_u vsize p x) (th_gu dim vsize p x) (th_p dim psize p x)
                                    (th_u vsize p y) (th_gu dim vsize p y) (th_p dim psize p y)) pts.
Proof. exact th_residual_eq. Qed.
Print Assumptions c111_residual.

(** The loads: minus the force, plus the source of mass; of the boundary points only those with a stress condition count. *)
Theorem c111_loads : forall dim vsize psize pts bpts y r,
  tested (S dim) (th_size dim vsize psize) y (th_lambda_volume dim vsize psize pts r) = tested (S dim) (th_size dim vsize psize) y r +
    lsum (fun p => th_vol p * (- inner dim (fl_f p) (th_u vsize p y) + fl_g2 p * th_p dim psize p y)) pts /\
  tested (S dim) (th_size dim vsize psize) y (th_lambda_boundary dim vsize bpts r) = tested (S dim) (th_size dim vsize psize) y r +
    lsum (fun p => match fb_bc p with
                   | StressNeumann => fb_weight p * fb_ie p * inner dim (fb_j p) (field vsize y (fb_phi p))
                   | _ => 0 end) bpts.
Proof.
  intros. split; [apply th_lambda_eq|]. rewrite th_boundary_eq. f_equal. apply lsum_ext. intros p _. now destruct (fb_bc p).
Qed.
Print Assumptions c111_loads.

(** The residual at x + t z is the residual at x plus t times the Jacobian applied to z, plus the convection of z by itself times t^2;
    without convection nothing is left. *)
Theorem c111_expansion : forall navier full dim vsize psize pts x z y t,
  tested (S dim) (th_size dim vsize psize) y (th_alpha_volume navier full dim vsize psize pts (move x t z) zerom) =
  tested (S dim) (th_size dim vsize psize) y (th_alpha_volume navier full dim vsize psize pts x zerom)
  + t * tested (S dim) (th_size dim vsize psize) y (times (S dim) (th_size dim vsize psize) (th_jacobian_volume navier full dim vsize psize pts x zeroT) z)
  + t * t * (if navier then lsum (fun p => th_vol p * (fl_rho p * inner dim (fun d => inner dim (th_u vsize p z) (th_gu dim vsize p z d)) (th_u vsize p y))) pts else 0).
Proof. intros. apply th_expansion. Qed.
Print Assumptions c111_expansion.

Theorem c111_jacobian_is_derivative : forall navier full dim vsize psize pts x z y,
  derivable_pt_lim (fun t => tested (S dim) (th_size dim vsize psize) y (th_alpha_volume navier full dim vsize psize pts (move x t z) zerom)) 0
    (tested (S dim) (th_size dim vsize psize) y (times (S dim) (th_size dim vsize psize) (th_jacobian_volume navier full dim vsize psize pts x zeroT) z)).
Proof. intros. eapply poly_derivative. intros t. apply th_expansion. Qed.
Print Assumptions c111_jacobian_is_derivative.

(** The Jacobian is added to what the matrix holds. *)
Theorem c111_jacobian_accumulates : forall navier full dim vsize psize pts x y z M,
  let product M := tested (S dim) (th_size dim vsize psize) y (times (S dim) (th_size dim vsize psize) M z) in
  product (th_jacobian_volume navier full dim vsize psize pts x M) = product M + product (th_jacobian_volume navier full dim vsize psize pts x zeroT).
Proof.
  intros. unfold product. pose proof (th_jacobian_eq navier full dim vsize psize pts x y z) as H. unfold tested2 in H.
  rewrite (H M), (H zeroT), tested_times_0. ring.
Qed.
Print Assumptions c111_jacobian_accumulates.

(** One velocity component with two basis functions on a cell of length 1/2, one pressure function, one point at the center *)
Definition flow_point : flpt :=
  mkfl 1 (1/2) (fun _ => 1/2) (fun _ => 1) (fun i _ => match i with 0 => -1 | _ => 1 end) (fun _ _ => 2) 3 5 (fun _ => 7) 11.
Definition flow_state : mat := fun d i => match d, i with 0, 0 => 1 | 0, _ => 2 | _, _ => 4 end.
(** u = 3/2, u' = 2, p = 4: the second velocity entry of the residual is (3 * 2 * 2 * 2 - 4 * 2 + 5 * 3 * 1/2) / 2, the pressure entry -2/2 *)
Example c111_example :
  th_alpha_volume true true 1 2 1 [flow_point] flow_state zerom 0%nat 1%nat = (24 - 8 + 15/2) / 2 /\
  th_alpha_volume true true 1 2 1 [flow_point] flow_state zerom 1%nat 0%nat = -1 /\
  th_jacobian_volume true true 1 2 1 [flow_point] flow_state zeroT 0%nat 1%nat 0%nat 1%nat = (24 + 5 * (1/2 * 2 * (1/2)) + 5 * (3/2 * 2 * (1/2))) / 2 /\
  th_lambda_volume 1 2 1 [flow_point] zerom 0%nat 1%nat = - 7/4 /\
  th_lambda_boundary 1 2 [mkflb 1 1 (fun _ => 1/2) StressNeumann (fun _ => 3); mkflb 1 1 (fun _ => 1/2) VelocityDirichlet (fun _ => 3)] zerom 0%nat 1%nat = 3/2.
Proof.
  repeat split; cbn; unfold macc, tacc, mv, dot, eval_u, eval_grad, axpy, zerom, zeroT, flow_state; cbn; field.
Qed.

(** ** C112: structure of the Stokes problem *)

Theorem c112_symmetric : forall full dim vsize psize pts x z y,
  tested (S dim) (th_size dim vsize psize) y (times (S dim) (th_size dim vsize psize) (th_jacobian_volume false full dim vsize psize pts x zeroT) z) =
  tested (S dim) (th_size dim vsize psize) z (times (S dim) (th_size dim vsize psize) (th_jacobian_volume false full dim vsize psize pts x zeroT) y).
Proof. intros. apply stokes_symmetric_proof. Qed.
Print Assumptions c112_symmetric.

(** Tested with the velocity and the negative pressure, the pressure cancels and the viscous dissipation is left. *)
Theorem c112_energy : forall full dim vsize psize pts x,
  tested (S dim) (th_size dim vsize psize) (flip dim x) (th_alpha_volume false full dim vsize psize pts x zerom) =
  lsum (fun p => th_vol p * (fl_mu p * (ddot dim (th_gu dim vsize p x) (th_gu dim vsize p x)
                                       + (if full then ddot dim (transposed (th_gu dim vsize p x)) (th_gu dim vsize p x) else 0)))) pts.
Proof. intros. apply stokes_energy_proof. Qed.
Print Assumptions c112_energy.

Theorem c112_dissipation : forall full dim vsize psize pts x,
  (forall p, In p pts -> 0 <= th_vol p /\ 0 <= fl_mu p) ->
  0 <= tested (S dim) (th_size dim vsize psize) (flip dim x) (th_alpha_volume false full dim vsize psize pts x zerom).
Proof.
  intros full dim vsize psize pts x H. rewrite stokes_energy_proof. apply lsum_nonneg. intros p Hp. destruct (H p Hp).
  apply Rmult_le_pos; [assumption|]. apply Rmult_le_pos; [assumption|]. apply dissipation_nonneg.
Qed.
Print Assumptions c112_dissipation.
Example c112_example : (forall p, In p [flow_point] -> 0 <= th_vol p /\ 0 <= fl_mu p) /\
  tested 2 (th_size 1 2 1) (flip 1 flow_state) (th_alpha_volume false true 1 2 1 [flow_point] flow_state zerom) = 12.
Proof.
  split.
  - intros p [<-|[]]. unfold th_vol, flow_point; cbn. lra.
  - rewrite c112_energy. unfold ddot, transposed, th_gu, th_grads, field_grad, grads, apply, grad_at, inner, th_vol. cbn. field.
Qed.

(** ** C113: linear elasticity *)

Theorem c113_residual : forall dim n pts x y r,
  tested dim (alike n) y (el_alpha_volume dim n pts x r) = tested dim (alike n) y r +
  lsum (fun p => el_weight p * el_ie p * el_form dim (el_mu p) (el_lambda p) (el_gu dim n p x) (el_gu dim n p y)) pts.
Proof. exact el_residual_eq. Qed.
Print Assumptions c113_residual.

Theorem c113_loads : forall dim n pts bpts y r,
  tested dim (alike n) y (el_lambda_volume dim n pts r) = tested dim (alike n) y r -
    lsum (fun p => el_weight p * el_ie p * inner dim (el_f p) (field n y (el_phi p))) pts /\
  tested dim (alike n) y (el_lambda_boundary dim n bpts r) = tested dim (alike n) y r.
Proof. intros. split; [apply el_lambda_eq|apply el_boundary_eq]. Qed.
Print Assumptions c113_loads.

(** The assembled matrix is the matrix of the residual, it is symmetric and positive semidefinite. *)
Theorem c113_jacobian : forall dim n pts z y M,
  tested dim (alike n) y (times dim (alike n) (el_jacobian_volume dim n pts M) z) =
  tested dim (alike n) y (times dim (alike n) M z) + tested dim (alike n) y (el_alpha_volume dim n pts z zerom).
Proof.
  intros. pose proof (el_jacobian_eq dim n pts y z M) as H. unfold tested2 in H. now rewrite H, el_residual_eq, tested_0, Rplus_0_l.
Qed.
Print Assumptions c113_jacobian.

Theorem c113_linear : forall dim n pts x t z y,
  tested dim (alike n) y (el_alpha_volume dim n pts (move x t z) zerom) =
  tested dim (alike n) y (el_alpha_volume dim n pts x zerom) + t * tested dim (alike n) y (el_alpha_volume dim n pts z zerom).
Proof.
  intros. rewrite !el_residual_eq, !tested_0, !Rplus_0_l, <- lsum_scal, <- lsum_plus. apply lsum_ext. intros p _.
  unfold el_gu at 1. rewrite field_grad_move, el_form_move. unfold el_gu. ring.
Qed.
Print Assumptions c113_linear.

Theorem c113_symmetric : forall dim n pts z y,
  tested dim (alike n) y (times dim (alike n) (el_jacobian_volume dim n pts zeroT) z) =
  tested dim (alike n) z (times dim (alike n) (el_jacobian_volume dim n pts zeroT) y).
Proof.
  intros. pose proof (el_jacobian_eq dim n pts y z zeroT) as H1. pose proof (el_jacobian_eq dim n pts z y zeroT) as H2. unfold tested2 in *.
  rewrite H1, H2, !tested_times_0. f_equal. apply lsum_ext. intros p _. now rewrite el_form_comm.
Qed.
Print Assumptions c113_symmetric.

Theorem c113_energy : forall dim n pts x,
  (forall p, In p pts -> 0 <= el_weight p * el_ie p /\ 0 <= el_mu p /\ 0 <= el_lambda p) ->
  0 <= tested dim (alike n) x (el_alpha_volume dim n pts x zerom).
Proof.
  intros dim n pts x H. rewrite el_residual_eq, tested_0, Rplus_0_l. apply lsum_nonneg. intros p Hp. destruct (H p Hp) as (H1 & H2 & H3).
  apply Rmult_le_pos; [assumption|]. unfold el_form.
  pose proof (ddot_nonneg dim (sym_part (el_gu dim n p x))). pose proof (Rle_0_sqr (trace dim (el_gu dim n p x))). unfold Rsqr in *.
  apply Rplus_le_le_0_compat; [|rewrite Rmult_assoc]; apply Rmult_le_pos; lra.
Qed.
Print Assumptions c113_energy.

(** A rigid motion a + W X causes no stress, if the basis reproduces linear functions: the basis gradients add up to zero, and with the
    coefficients X of the coordinates they add up to the identity. *)
Theorem c113_rigid_motions : forall dim n pts (a : vec) (W : mat) (X : nat -> vec) x y,
  (forall k l, (k < dim)%nat -> (l < dim)%nat -> W k l = - W l k) ->
  (forall p, In p pts -> forall l, (l < dim)%nat -> rsum n (fun i => grads dim (el_jac p) (el_js p) i l) = 0) ->
  (forall p, In p pts -> forall k l, (k < dim)%nat -> (l < dim)%nat ->
     rsum n (fun i => X i k * grads dim (el_jac p) (el_js p) i l) = if (k =? l)%nat then 1 else 0) ->
  (forall d i, (d < dim)%nat -> (i < n)%nat -> x d i = a d + inner dim (W d) (X i)) ->
  tested dim (alike n) y (el_alpha_volume dim n pts x zerom) = 0.
Proof. exact el_rigid_proof. Qed.
Print Assumptions c113_rigid_motions.

(** Linear elements on the triangle (0,0), (1,0), (0,1), one point *)
Definition tri_js : nat -> vec := fun i k => match i, k with 0, _ => -1 | 1, 0 => 1 | 2, 1 => 1 | _, _ => 0 end.
Definition tri_X : nat -> vec := fun i k => match i, k with 1, 0 => 1 | 2, 1 => 1 | _, _ => 0 end.
Definition el_point : elpt := mkel (1/2) 1 (fun _ => 1/3) tri_js (fun k l => if (k =? l)%nat then 1 else 0) 2 3 (fun _ => 1).
(** a turn by the matrix W = (0 -4; 4 0) after a shift by 7 *)
Definition turn : mat := fun k l => match k, l with 0, 1 => -4 | 1, 0 => 4 | _, _ => 0 end.
Example c113_rigid_example :
  (forall k l, (k < 2)%nat -> (l < 2)%nat -> turn k l = - turn l k) /\
  (forall p, In p [el_point] -> forall l, (l < 2)%nat -> rsum 3 (fun i => grads 2 (el_jac p) (el_js p) i l) = 0) /\
  (forall p, In p [el_point] -> forall k l, (k < 2)%nat -> (l < 2)%nat ->
     rsum 3 (fun i => tri_X i k * grads 2 (el_jac p) (el_js p) i l) = if (k =? l)%nat then 1 else 0) /\
  (forall p, In p [el_point] -> 0 <= el_weight p * el_ie p /\ 0 <= el_mu p /\ 0 <= el_lambda p).
Proof.
  repeat split.
  - intros k l Hk Hl. destruct k as [|[|]], l as [|[|]]; try lia; cbn; lra.
  - intros p [<-|[]] l Hl. destruct l as [|[|]]; try lia; unfold grads, apply; cbn; ring.
  - intros p [<-|[]] k l Hk Hl. destruct k as [|[|]], l as [|[|]]; try lia; unfold grads, apply; cbn; ring.
  - destruct H as [<-|[]]; cbn; lra.
  - destruct H as [<-|[]]; cbn; lra.
  - destruct H as [<-|[]]; cbn; lra.
Qed.
(** stretching in the first direction, u = (x, 0): eps = (1 0; 0 0), so that the entry of the vertex (1,0) is (2 * 2 + 3) / 2 *)
Example c113_example : el_alpha_volume 2 3 [el_point] (fun d i => match d, i with 0, 1 => 1 | _, _ => 0 end) zerom 0%nat 1%nat = 7/2 /\
  el_jacobian_volume 2 3 [el_point] zeroT 0%nat 1%nat 0%nat 1%nat = 7/2.
Proof. split; cbn; unfold macc, tacc, mv, dot, eval_u, eval_grad, axpy, zerom, zeroT; cbn; field. Qed.

(** ** C114: mass operators *)

(** k of m components (the velocities without the pressure): the mass form, its matrix, symmetry, positivity *)
Theorem c114_navier_stokes_mass : forall m k n pts x y z r M, (k <= m)%nat ->
  let form u v := rsum k (fun d => lsum (fun p => ms_weight p * ms_ie p * ms_rho p * (fun_at (n d) (u d) (ms_phi p) * fun_at (n d) (v d) (ms_phi p))) (pts d)) in
  tested m n y (ns_mass k n pts x r) = tested m n y r + form x y /\
  tested m n y (times m n (ns_mass_jacobian k n pts M) z) = tested m n y (times m n M z) + form z y /\
  form z y = form y z /\
  ((forall d p, (d < k)%nat -> In p (pts d) -> 0 <= ms_weight p * ms_ie p * ms_rho p) -> 0 <= form x x).
Proof.
  intros m k n pts x y z r M Hk form. repeat split.
  - now apply ns_mass_eq.
  - now apply ns_mass_jacobian_eq.
  - unfold form. apply rsum_ext; intros. apply lsum_ext; intros. ring.
  - intros H. unfold form. apply rsum_nonneg. intros d Hd. apply lsum_nonneg. intros p Hp. apply Rmult_le_pos; [now apply (H d p)|apply Rle_0_sqr].
Qed.
Print Assumptions c114_navier_stokes_mass.

(** The components beyond the velocities are left alone: the pressure has no mass. *)
Theorem c114_pressure_untouched : forall k n pts x r d i, (k <= d)%nat -> (i < n d)%nat -> ns_mass k n pts x r d i = r d i.
Proof.
  intros k n pts x r d i Hd Hi.
  pose proof (ns_mass_eq (S d) k n pts x (fun e j => if (e =? d)%nat then (if (j =? i)%nat then 1 else 0) else 0) r ltac:(lia)) as H.
  assert (HT : forall q : mat, tested (S d) n (fun e j => if (e =? d)%nat then (if (j =? i)%nat then 1 else 0) else 0) q = q d i).
  { intros q. unfold tested. rewrite (rsum_ext (S d) _ (fun e => if (e =? d)%nat then rsum (n e) (fun j => if (j =? i)%nat then q e j else 0) else 0)).
    - rewrite (rsum_pick (S d) (fun e => rsum (n e) (fun j => if (j =? i)%nat then q e j else 0))) by lia. now apply rsum_pick.
    - intros e _. destruct (e =? d)%nat.
      + apply rsum_ext. intros j _. destruct (j =? i)%nat; ring.
      + rewrite (rsum_ext _ _ (fun _ => 0)) by (intros; ring). apply rsum_0. }
  rewrite !HT in H. rewrite H. match goal with |- _ + ?B = _ => replace B with 0 end; [ring|].
  symmetry. rewrite (rsum_ext k _ (fun _ => 0)); [apply rsum_0|]. intros e He.
  transitivity (lsum (fun _ : mspt => 0) (pts e)); [|apply lsum_0]. apply lsum_ext. intros p _.
  replace (e =? d)%nat with false by (symmetry; apply Nat.eqb_neq; lia). unfold fun_at at 2.
  rewrite (rsum_ext (n e) _ (fun _ => 0)) by (intros; ring). rewrite rsum_0. ring.
Qed.
Print Assumptions c114_pressure_untouched.

(** The L2 operator: scaling times the mass of every leaf; the matrix and the matrix-free application agree *)
Theorem c114_l2 : forall scaling m n pts x y z r M,
  let form u v := rsum m (fun d => lsum (fun p => scaling * (ms_weight p * ms_ie p * (fun_at (n d) (u d) (ms_phi p) * fun_at (n d) (v d) (ms_phi p)))) (pts d)) in
  tested m n y (l2_alpha_volume scaling m n pts x r) = tested m n y r + form x y /\
  tested m n y (l2_jacobian_apply_volume scaling m n pts z r) = tested m n y r + form z y /\
  tested m n y (times m n (l2_jacobian_volume scaling m n pts M) z) = tested m n y (times m n M z) + form z y /\
  form z y = form y z /\
  (0 <= scaling -> (forall d p, (d < m)%nat -> In p (pts d) -> 0 <= ms_weight p * ms_ie p) -> 0 <= form x x).
Proof.
  intros sc m n pts x y z r M form. repeat split.
  - now apply l2_eq.
  - now apply l2_eq.
  - now apply l2_jacobian_eq.
  - unfold form. apply rsum_ext; intros. apply lsum_ext; intros. ring.
  - intros Hs H. unfold form. apply rsum_nonneg. intros d Hd. apply lsum_nonneg. intros p Hp. apply Rmult_le_pos; [easy|]. apply Rmult_le_pos; [now apply (H d p)|apply Rle_0_sqr].
Qed.
Print Assumptions c114_l2.

(** Vector valued basis functions *)
Theorem c114_velvec : forall dim n pts x y z r m,
  let form u v := lsum (fun p => vm_weight p * vm_ie p * vm_rho p * inner dim (grad_at n u (vm_phi p)) (grad_at n v (vm_phi p))) pts in
  tested1 n y (velvec_mass dim n pts x r) = tested1 n y r + form x y /\
  tested1 n y (apply n (velvec_mass_jacobian dim n pts m) z) = tested1 n y (apply n m z) + form z y /\
  form z y = form y z.
Proof.
  intros dim n pts x y z r m form. repeat split.
  - apply velvec_eq.
  - unfold tested1, inner at 1 2, apply.
    rewrite (rsum_ext n _ (fun i => y i * rsum n (fun j => m i j * z j) +
      lsum (fun p => vm_weight p * vm_ie p * vm_rho p * (y i * inner dim (grad_at n z (vm_phi p)) (vm_phi p i))) pts)).
    + rewrite rsum_plus. f_equal. rewrite rsum_lsum. unfold form. apply lsum_ext. intros p _.
      rewrite rsum_scal. f_equal. rewrite inner_grad. apply rsum_ext; intros; ring.
    + intros i Hi. rewrite (rsum_ext n _ (fun j => m i j * z j + lsum (fun p => vm_weight p * vm_ie p * vm_rho p * (z j * inner dim (vm_phi p j) (vm_phi p i))) pts)).
      * rewrite rsum_plus, Rmult_plus_distr_l. f_equal. rewrite rsum_lsum, <- lsum_scal. apply lsum_ext. intros p _.
        rewrite rsum_scal, (inner_comm dim (grad_at n z (vm_phi p))), inner_grad.
        rewrite (rsum_ext n (fun i0 => z i0 * inner dim (vm_phi p i0) (vm_phi p i)) (fun j => z j * inner dim (vm_phi p i) (vm_phi p j))) by (intros; now rewrite inner_comm). ring.
      * intros j Hj. rewrite velvec_jacobian_eq by easy. rewrite Rmult_plus_distr_r, (Rmult_comm (lsum _ _)), <- lsum_scal. f_equal. apply lsum_ext; intros; ring.
  - unfold form. apply lsum_ext. intros. now rewrite inner_comm.
Qed.
Print Assumptions c114_velvec.

Example c114_example :
  let pts := fun _ : nat => [mkms 1 (1/2) (fun i => match i with 0 => 1/4 | _ => 3/4 end) 5] in
  (forall d p, (d < 2)%nat -> In p (pts d) -> 0 <= ms_weight p * ms_ie p * ms_rho p) /\
  ns_mass 2 (fun _ => 2%nat) pts (fun d i => INR (d + i)) zerom 1%nat 1%nat = 5/2 * (1 * (1/4) + 2 * (3/4)) * (3/4) /\
  l2_jacobian_volume 3 2 (fun _ => 2%nat) pts zeroT 1%nat 0%nat 1%nat 1%nat = 3 * (1/2) * (1/4) * (3/4) /\
  l2_jacobian_volume 3 2 (fun _ => 2%nat) pts zeroT 0%nat 0%nat 1%nat 1%nat = 0.
Proof.
  repeat split.
  - intros d p _ [<-|[]]. cbn. lra.
  - cbn; unfold macc, eval_u, zerom; cbn. field.
  - cbn; unfold tacc, zeroT; cbn. field.
Qed.

(** ** C115: mixed diffusion *)

(** The residual is the weak form with the fluxes of the Piola transformation when there is no reaction, or on cells with integration element one. *)
Theorem c115_residual_partial : forall dim nv np C vpts ppts x y r, mx_det C <> 0 ->
  (mx_det C = 1 \/ forall p, In p ppts -> mxp_c p = 0) ->
  tested 2 (mx_size nv np) y (mx_alpha_volume dim nv np C vpts ppts x r) = tested 2 (mx_size nv np) y r + mx_weak dim nv np C vpts ppts x y.
Proof.
  intros dim nv np C vpts ppts x y r Hd H. rewrite mx_alpha_eq by easy. unfold mx_weak. f_equal. f_equal. apply lsum_ext. intros p Hp.
  destruct H as [->|H]; [ring|]. rewrite (H p Hp). ring.
Qed.
Print Assumptions c115_residual_partial.

(** In general the reaction term is integrated over the reference cell instead of the cell. *)
Theorem c115_residual_general : forall dim nv np C vpts ppts x y r, mx_det C <> 0 ->
  tested 2 (mx_size nv np) y (mx_alpha_volume dim nv np C vpts ppts x r) = tested 2 (mx_size nv np) y r + mx_weak dim nv np C vpts ppts x y
  + lsum (fun p => (mx_det C - 1) * mxp_weight p * mxp_c p * mx_u np p x * mx_u np p y) ppts.
Proof.
  intros dim nv np C vpts ppts x y r Hd. rewrite mx_alpha_eq by easy. unfold mx_weak. rewrite !Rplus_assoc. f_equal. f_equal.
  rewrite <- lsum_plus. apply lsum_ext. intros p _. ring.
Qed.
Print Assumptions c115_residual_general.

Theorem c115_loads : forall dim nv np C ppts bpts y r, mx_det C <> 0 ->
  tested 2 (mx_size nv np) y (mx_lambda_volume np ppts r) = tested 2 (mx_size nv np) y r +
    lsum (fun p => mxp_weight p * mxp_ie p * (mxp_f p * mx_u np p y)) ppts /\
  tested 2 (mx_size nv np) y (mx_lambda_boundary dim nv C bpts r) = tested 2 (mx_size nv np) y r +
    lsum (fun p => if mxb_neumann p then 0 else
      mxb_weight p * mxb_ie p * (mxb_g p * inner dim (grad_at nv (y 0%nat) (fun i => piola dim C (mxb_basis p i))) (mxb_normal p))) bpts.
Proof. intros. split; [apply mx_lambda_eq|now apply mx_boundary_eq]. Qed.
Print Assumptions c115_loads.

(** A cell of length 1/2 in one dimension; one flux function, the constant 1 on the reference cell; reaction 1 *)
Definition mixed_cell : mxcell := mkmxc (fun _ _ => 1/2) (1/2) (fun _ _ => 1).
Definition mixed_vpt : mxvp := mkmxv 1 (fun i _ => match i with 0 => 1/2 | _ => 1/2 end).
Definition mixed_ppt (c : R) : mxpp := mkmxp 1 (1/2) (fun i _ _ => match i with 0 => -1 | _ => 1 end) (fun _ => 1) c 1.
Definition mixed_state : mat := fun d i => match d, i with 0, 0 => 1 | 0, _ => 3 | _, _ => 5 end.
Example c115_example : mx_det mixed_cell <> 0 /\ (forall p, In p [mixed_ppt 0] -> mxp_c p = 0) /\
  mx_alpha_volume 1 2 1 mixed_cell [mixed_vpt] [mixed_ppt 0] mixed_state zerom 1%nat 0%nat = -2 /\
  mx_alpha_volume 1 2 1 mixed_cell [mixed_vpt] [mixed_ppt 0] mixed_state zerom 0%nat 1%nat = 1/2 * (2 * (1/2)) - 5.
Proof.
  repeat split; cbn; try lra.
  - intros p [<-|[]]; reflexivity.
  - unfold macc, mtv, mx_jac, mv, dot, eval_u, eval_grad, axpy, ref_divergence, zerom, mixed_state; cbn. field.
  - unfold macc, mtv, mx_jac, mv, dot, eval_u, eval_grad, axpy, ref_divergence, zerom, mixed_state; cbn. field.
Qed.
(** With a reaction the residual differs from the weak form. *)
Theorem c115_reaction_refuted : exists dim nv np C vpts ppts x y, 0 < mx_det C /\ (forall p, In p ppts -> mxp_ie p = mx_det C) /\
  tested 2 (mx_size nv np) y (mx_alpha_volume dim nv np C vpts ppts x zerom) <> mx_weak dim nv np C vpts ppts x y.
Proof.
  exists 1%nat, 2%nat, 1%nat, mixed_cell, [mixed_vpt], [mixed_ppt 1], mixed_state, mixed_state. repeat split.
  - cbn; lra.
  - intros p [<-|[]]; reflexivity.
  - rewrite c115_residual_general by (cbn; lra). rewrite tested_0. cbn [lsum]. unfold mx_u, fun_at. cbn. lra.
Qed.
Print Assumptions c115_reaction_refuted.

(** ** C116: the nonlinear convection-diffusion operator *)

(** With w(u) = u, at the cell and at the boundary *)
Theorem c116_residual_partial : forall dim n D w pts bpts x y r, (forall s, w s = s) ->
  tested1 n y (nl_alpha_volume dim n D w pts x r) = tested1 n y r +
    lsum (fun p => nl_weight p * nl_ie p *
      nl_form dim D (nl_f p) (nl_q p) (nl_v p) (fun_at n x (nl_phi p)) (grad_at n x (grads dim (nl_jac p) (nl_js p)))
              (fun_at n y (nl_phi p)) (grad_at n y (grads dim (nl_jac p) (nl_js p)))) pts /\
  tested1 n y (nl_alpha_boundary n w bpts x r) = tested1 n y r +
    lsum (fun p => if nb_dirichlet p then 0 else nb_weight p * nb_ie p * (nb_j p (fun_at n x (nb_phi p)) * fun_at n y (nb_phi p))) bpts.
Proof.
  intros dim n D w pts bpts x y r Hw. rewrite nl_alpha_eq, nl_boundary_eq.
  assert (H : (fun i => w (x i)) = x) by (apply FunctionalExtensionality.functional_extensionality; intros; apply Hw).
  now rewrite H.
Qed.
Print Assumptions c116_residual_partial.

(** For any w: all parameter functions are evaluated at the interpolation of w(u), not at u. *)
Theorem c116_residual_general : forall dim n D w pts bpts x y r,
  let wx : vec := fun i => w (x i) in
  tested1 n y (nl_alpha_volume dim n D w pts x r) = tested1 n y r +
    lsum (fun p => nl_weight p * nl_ie p *
      nl_form dim D (nl_f p) (nl_q p) (nl_v p) (fun_at n wx (nl_phi p)) (grad_at n wx (grads dim (nl_jac p) (nl_js p)))
              (fun_at n y (nl_phi p)) (grad_at n y (grads dim (nl_jac p) (nl_js p)))) pts /\
  tested1 n y (nl_alpha_boundary n w bpts x r) = tested1 n y r +
    lsum (fun p => if nb_dirichlet p then 0 else nb_weight p * nb_ie p * (nb_j p (fun_at n wx (nb_phi p)) * fun_at n y (nb_phi p))) bpts.
Proof. intros. rewrite nl_alpha_eq, nl_boundary_eq. split; reflexivity. Qed.
Print Assumptions c116_residual_general.

(** f(u) = u, w(u) = u^2, the constant function u = 2: the source enters with 4. *)
Definition nl_point : nlpt := mknl 1 1 (fun _ => 1) (fun _ _ => 0) (fun _ _ => 1) (fun u => u) (fun _ _ => 0) (fun _ => 1).
Theorem c116_source_refuted : exists dim n D w pts x y,
  tested1 n y (nl_alpha_volume dim n D w pts x zerov) <>
  lsum (fun p => nl_weight p * nl_ie p *
      nl_form dim D (nl_f p) (nl_q p) (nl_v p) (fun_at n x (nl_phi p)) (grad_at n (fun i => w (x i)) (grads dim (nl_jac p) (nl_js p)))
              (fun_at n y (nl_phi p)) (grad_at n y (grads dim (nl_jac p) (nl_js p)))) pts.
Proof.
  exists 1%nat, 1%nat, (fun _ _ => 1), (fun u => u * u), [nl_point], (fun _ => 2), (fun _ => 1).
  rewrite nl_alpha_eq. unfold tested1, inner, zerov, nl_form, fun_at, grad_at, grads, apply, inner. cbn. lra.
Qed.
Print Assumptions c116_source_refuted.
Example c116_example : nl_alpha_volume 1 2 (fun _ _ => 3) (fun u => u) [mknl 1 (1/2) (fun _ => 1/2) (fun i _ => match i with 0 => -1 | _ => 1 end) (fun _ _ => 2) (fun u => u) (fun u _ => u * u) (fun u => 1 + u)]
    (fun i => INR i) zerov 1%nat = ((3 * (3/2) * 2) * 2 - 1/4 * 2 - 1/2 * (1/2)) / 2.
Proof. cbn; unfold acc, mv, dot, eval_u, eval_grad, axpy, zerov; cbn. field. Qed.
