(** The boundary and cell terms of the DG operator for the Navier-Stokes equations. *)
From Verif Require Import Common CdModel CdSpec CdProofs WaveModel FlowModel FlowSpec FlowProofs FlowProofs2 DgnsModel DgnsSpec DgnsProofs.
From Coq Require Import Reals Lra Lia FunctionalExtensionality.
Open Scope R_scope.
Local Arguments rsum : simpl never.

Lemma traction_normal full dim n g : inner dim (traction full dim n g) n = (if full then 2 else 1) * rsum dim (fun d => inner dim (g d) n * n d).
Proof. rewrite traction_swap, <- rsum_scal. apply rsum_ext; intros. destruct full; ring. Qed.

Lemma normal_sum dim vsize psize p x n : rsum dim (fun d => inner dim (s_gu (state_b dim vsize psize p x) d) n * n d)
  = rsum dim (fun k => rsum vsize (fun i => x k i * inner dim (grads dim (db_jac p) (db_js p) i) n) * n k).
Proof. apply rsum_ext; intros. cbn [s_gu state_b]. unfold field_grad. now rewrite inner_grad_l. Qed.

Section dgns.
Variables (full : bool) (eps pen sc : R) (dim vsize psize : nat).
Notation sz := (th_size dim vsize psize).

(** one component of the terms of a wall *)
Definition noslip_d (n : vec) (mu : R) (u v : pstate) (d : nat) : R :=
  mu * (- (traction full dim n (s_gu u) d * s_u v d)
        + eps * (inner dim (s_gu v d) n * s_u u d + (if full then n d * inner dim (s_gu v d) (s_u u) else 0)) + pen * (s_u u d * s_u v d)).
Definition noslip_d' (n : vec) (mu : R) (u v : pstate) (d : nat) : R :=
  mu * (- (traction full dim n (s_gu u) d * s_u v d) + eps * (traction full dim n (s_gu v) d * s_u u d) + pen * (s_u u d * s_u v d)).
Lemma noslip_sum n mu u v : rsum dim (fun d => noslip_d n mu u v d) = noslip_form full dim eps pen mu n u v.
Proof. unfold noslip_form, noslip_d. rewrite (traction_swap full dim n (s_gu v)), !inner_def. o_sums. ring. Qed.
Lemma noslip_sum' n mu u v : rsum dim (fun d => noslip_d' n mu u v d) = noslip_form full dim eps pen mu n u v.
Proof. unfold noslip_form, noslip_d'. rewrite !inner_def. o_sums. ring. Qed.
Definition slip_d (n : vec) (mu : R) (u v : pstate) (d : nat) : R :=
  mu * (- ((if full then 2 else 1) * rsum dim (fun k => inner dim (s_gu u k) n * n k) * (s_u v d * n d))
        + eps * ((if full then 2 else 1) * inner dim (s_u u) n * (inner dim (s_gu v d) n * n d)) + pen * (inner dim (s_u u) n * (s_u v d * n d))).
Lemma slip_sum n mu u v : rsum dim (fun d => slip_d n mu u v d) = slip_form full dim eps pen mu n u v.
Proof. unfold slip_form, slip_d. rewrite !traction_normal, (inner_def dim (s_u v) n). o_sums. ring. Qed.
Definition wall_d (n : vec) (u v : pstate) (d : nat) : R := s_p u * (s_u v d * n d) + sc * (s_p v * (s_u u d * n d)).
Lemma wall_sum n u v : rsum dim (fun d => wall_d n u v d) = wall_form dim sc n u v.
Proof. unfold wall_form, wall_d. rewrite !inner_def. o_sums. ring. Qed.

Lemma alpha_boundary_eq pts x y r :
  tested (S dim) sz y (dgns_alpha_boundary full eps pen sc dim vsize psize pts x r) = tested (S dim) sz y r +
  lsum (fun p => db_vol p * boundary_form full dim eps pen sc p (state_b dim vsize psize p x) (state_b dim vsize psize p y)) pts.
Proof.
  unfold dgns_alpha_boundary. spec_functions. apply (T_fold (tested (S dim) sz y)). intros p r0 _.
  set (u := state_b dim vsize psize p x). set (v := state_b dim vsize psize p y).
  unfold boundary_form, slip_factor. destruct (db_bc p); cbn [is_velocity is_slip is_stress orb]; cbv zeta; try ring.
  - transitivity (tested (S dim) sz y r0 + (rsum dim (fun d => db_vol p * (noslip_d (db_normal p) (db_mu p) u v d + s_p u * (s_u v d * db_normal p d)))
      + db_vol p * (sc * (s_p v * inner dim (s_u u) (db_normal p))))).
    + unfold noslip_d. destruct full.
      all: match goal with |- ?A = ?T0 + ?B => eassert (HH : A = T0 + _) by g_go end.
      all: rewrite HH; clear HH; apply f_equal; apply f_equal2.
      1, 3: apply rsum_ext; intros d Hd; pulls; rewrite ?grad_sum.
      all: pulls; fin.
    + apply f_equal. rewrite <- noslip_sum. unfold wall_form. rewrite !inner_def. o_sums. ring.
  - transitivity (tested (S dim) sz y r0 + ((rsum dim (fun d => db_vol p * ((1 - db_slip p) * noslip_d (db_normal p) (db_mu p) u v d + s_p u * (s_u v d * db_normal p d)))
      + db_vol p * (sc * (s_p v * inner dim (s_u u) (db_normal p)))) + rsum dim (fun d => db_vol p * db_slip p * slip_d (db_normal p) (db_mu p) u v d))).
    + unfold noslip_d, slip_d. destruct full.
      all: match goal with |- ?A = ?T0 + ?B => eassert (HH : A = T0 + _) by g_go end.
      all: rewrite HH; clear HH; apply f_equal. 
      all: rewrite <- Rplus_assoc; apply f_equal2; [apply f_equal2|].
      1, 4: apply rsum_ext; intros d Hd; pulls; rewrite ?grad_sum.
      all: try (apply rsum_ext; intros d Hd).
      all: pulls; fin.
    + apply f_equal. rewrite <- noslip_sum, <- slip_sum. unfold wall_form. rewrite !inner_def. o_sums. ring.
Qed.

Lemma jacobian_boundary_eq pts y z M :
  tested2 (S dim) sz y z (dgns_jacobian_boundary full eps pen sc dim vsize psize pts M) = tested2 (S dim) sz y z M +
  lsum (fun p => db_vol p * boundary_form full dim eps pen sc p (state_b dim vsize psize p z) (state_b dim vsize psize p y)) pts.
Proof.
  unfold dgns_jacobian_boundary. spec_functions. apply (T_fold (tested2 (S dim) sz y z)). intros p M0 _.
  set (u := state_b dim vsize psize p z). set (v := state_b dim vsize psize p y).
  unfold boundary_form, slip_factor. destruct (db_bc p); cbn [is_velocity is_slip is_stress orb]; cbv zeta; try ring.
  - transitivity (tested2 (S dim) sz y z M0 + rsum dim (fun d => db_vol p * (noslip_d' (db_normal p) (db_mu p) u v d + wall_d (db_normal p) u v d))).
    + unfold noslip_d', wall_d. destruct full.
      all: match goal with |- ?A = ?T0 + ?B => eassert (HH : A = T0 + _) by g_go end.
      all: rewrite HH; clear HH; apply f_equal.
      all: apply rsum_ext; intros d Hd; pulls; tract; fin.
    + apply f_equal. rewrite <- noslip_sum', <- wall_sum. o_sums. ring.
  - transitivity (tested2 (S dim) sz y z M0 + (rsum dim (fun d => db_vol p * ((1 - db_slip p) * noslip_d' (db_normal p) (db_mu p) u v d + wall_d (db_normal p) u v d))
      + db_vol p * db_slip p * slip_form full dim eps pen (db_mu p) (db_normal p) u v)).
    + unfold noslip_d', wall_d, slip_form. rewrite !traction_normal. destruct full.
      all: match goal with |- ?A = ?T0 + ?B => eassert (HH : A = T0 + _) by g_go end.
      all: rewrite HH; clear HH; apply f_equal; apply f_equal2.
      1, 3: apply rsum_ext; intros d Hd; pulls; tract; fin.
      all: pulls; tract; rewrite !(inner_def dim (s_u _)); unfold u, v; rewrite !normal_sum; fin.
    + apply f_equal. rewrite <- noslip_sum', <- wall_sum. o_sums. ring.
Qed.

Lemma lambda_boundary_eq pts y r :
  tested (S dim) sz y (dgns_lambda_boundary full eps pen sc dim vsize psize pts r) = tested (S dim) sz y r +
  lsum (fun p => db_vol p * boundary_load full dim eps pen sc p (state_b dim vsize psize p y)) pts.
Proof.
  unfold dgns_lambda_boundary. spec_functions. apply (T_fold (tested (S dim) sz y)). intros p r0 _.
  set (v := state_b dim vsize psize p y).
  unfold boundary_load. destruct (db_bc p); cbn [is_velocity is_slip is_stress orb]; cbv zeta; try ring.
  - transitivity (tested (S dim) sz y r0 + (rsum dim (fun d => db_vol p * (- (db_mu p * (eps * (traction full dim (db_normal p) (s_gu v) d * db_g p d) + pen * (db_g p d * s_u v d)))))
      + db_vol p * (- (sc * (s_p v * inner dim (db_g p) (db_normal p)))))).
    + destruct full.
      all: match goal with |- ?A = ?T0 + ?B => eassert (HH : A = T0 + _) by g_go end.
      all: rewrite HH; clear HH; apply f_equal; apply f_equal2.
      1, 3: apply rsum_ext; intros d Hd; pulls; tract; fin.
      all: pulls; fin.
    + apply f_equal. rewrite !inner_def. o_sums. ring.
  - match goal with |- ?A = ?T0 + ?B => eassert (HH : A = T0 + _) by g_go end.
    rewrite HH; clear HH; apply f_equal. rewrite inner_def. rewrite <- rsum_scal. apply rsum_ext; intros; pulls; fin.
Qed.

(** ** Cells *)
Variable navier : bool.
Lemma alpha_volume_eq pts x y r :
  tested (S dim) sz y (dgns_alpha_volume navier full sc dim vsize psize pts x r) = tested (S dim) sz y r +
  lsum (fun p => th_vol p * cell_form navier full dim sc (fl_mu p) (fl_rho p) (cell_state dim vsize psize p x) (cell_state dim vsize psize p y)) pts.
Proof.
  unfold dgns_alpha_volume. spec_functions. apply (T_fold (tested (S dim) sz y)). intros p r0 _.
  set (u := cell_state dim vsize psize p x). set (v := cell_state dim vsize psize p y).
  transitivity (tested (S dim) sz y r0 + (rsum dim (fun d => th_vol p * (fl_mu p * inner dim (s_gu u d) (s_gu v d)
      + (if full then fl_mu p * rsum dim (fun k => s_gu u k d * s_gu v d k) else 0) - s_p u * s_gu v d d
      + (if navier then fl_rho p * (inner dim (s_u u) (s_gu u d) * s_u v d) else 0)))
    + th_vol p * (- (sc * s_p v * trace dim (s_gu u))))).
  - destruct navier, full; cbv zeta.
    all: match goal with |- ?A = ?T0 + ?B => eassert (HH : A = T0 + _) by g_go end.
    all: rewrite HH; clear HH; apply f_equal; apply f_equal2.
    1, 3, 5, 7: apply rsum_ext; intros d Hd; pulls.
    all: pulls; unfold trace.
    1-4: replace (inner dim (s_gu u d) (s_gu v d)) with (rsum vsize (fun i => y d i * inner dim (s_gu u d) (th_grads dim p i)))
      by (rewrite <- inner_grad; reflexivity).
    1, 3: replace (rsum dim (fun k => s_gu u k d * s_gu v d k)) with (rsum vsize (fun i => y d i * rsum dim (fun k => s_gu u k d * th_grads dim p i k)))
      by exact (eq_sym (inner_grad dim vsize (fun k => s_gu u k d) (y d) (th_grads dim p))).
    all: fin.
  - apply f_equal. unfold cell_form, ns_form, ddot, trace, transposed. destruct navier, full; unfold inner; o_sums; unfold Rminus; o_sums; rewrite ?rsum_0; ring.
Qed.

Lemma double_grad n d (z y : vec) (G : nat -> vec) : inner d (grad_at n z G) (grad_at n y G) = rsum n (fun i => y i * rsum n (fun j => z j * inner d (G j) (G i))).
Proof. rewrite inner_grad. apply rsum_ext; intros. now rewrite inner_grad_l. Qed.
Lemma double_transposed n d (z : mat) (y : vec) (G : nat -> vec) k :
  rsum d (fun l => grad_at n (z l) G k * grad_at n y G l) = rsum n (fun i => y i * rsum n (fun j => G j k * rsum d (fun l => z l j * G i l))).
Proof.
  transitivity (inner d (fun l => grad_at n (z l) G k) (grad_at n y G)); [reflexivity|]. rewrite inner_grad. apply rsum_ext; intros i Hi.
  now rewrite (tract_sum n d z G (G i) k), inner_def.
Qed.

Lemma jacobian_volume_eq pts x y z M :
  tested2 (S dim) sz y z (dgns_jacobian_volume navier full sc dim vsize psize pts x M) = tested2 (S dim) sz y z M +
  lsum (fun p => th_vol p * ns_form' navier full dim (fl_mu p) (fl_rho p) (th_u vsize p x) (th_gu dim vsize p x)
                                    (th_u vsize p z) (th_gu dim vsize p z) (th_p dim psize p z)
                                    (th_u vsize p y) (th_gu dim vsize p y) (sc * th_p dim psize p y)) pts.
Proof.
  unfold dgns_jacobian_volume. spec_functions. apply (T_fold (tested2 (S dim) sz y z)). intros p M0 _.
  transitivity (tested2 (S dim) sz y z M0 + rsum dim (fun d => th_vol p * (fl_mu p * rsum vsize (fun i => y d i * rsum vsize (fun j => z d j * inner dim (th_grads dim p j) (th_grads dim p i)))
      + (if full then fl_mu p * rsum vsize (fun i => y d i * rsum vsize (fun j => th_grads dim p j d * rsum dim (fun l => z l j * th_grads dim p i l))) else 0)
      - th_p dim psize p z * th_gu dim vsize p y d d - sc * th_p dim psize p y * th_gu dim vsize p z d d
      + (if navier then fl_rho p * ((rsum dim (fun k => th_gu dim vsize p x d k * th_u vsize p z k)
                                     + rsum vsize (fun j => z d j * inner dim (th_u vsize p x) (th_grads dim p j))) * th_u vsize p y d) else 0)))).
  - destruct navier, full; cbv zeta.
    all: match goal with |- ?A = ?T0 + ?B => eassert (HH : A = T0 + _) by g_go end.
    all: rewrite HH; clear HH; apply f_equal.
    all: apply rsum_ext; intros d Hd; pulls.
    all: fin.
  - apply f_equal. unfold ns_form', trace, ddot, transposed. rewrite (inner_def dim _ (th_u vsize p y)).
    rewrite (rsum_ext dim (fun k => inner dim (th_gu dim vsize p z k) (th_gu dim vsize p y k)) (fun d => rsum vsize (fun i => y d i * rsum vsize (fun j => z d j * inner dim (th_grads dim p j) (th_grads dim p i)))))
      by (intros; apply double_grad).
    rewrite (rsum_ext dim (fun k => inner dim (fun l => th_gu dim vsize p z l k) (th_gu dim vsize p y k)) (fun d => rsum vsize (fun i => y d i * rsum vsize (fun j => th_grads dim p j d * rsum dim (fun l => z l j * th_grads dim p i l)))))
      by (intros; apply double_transposed).
    rewrite (rsum_ext dim (fun k => (inner dim (th_u vsize p z) (th_gu dim vsize p x k) + inner dim (th_u vsize p x) (th_gu dim vsize p z k)) * th_u vsize p y k)
      (fun k => (rsum dim (fun l => th_gu dim vsize p x k l * th_u vsize p z l) + rsum vsize (fun j => z k j * inner dim (th_u vsize p x) (th_grads dim p j))) * th_u vsize p y k))
      by (intros; rewrite (inner_comm dim (th_u vsize p z)), inner_def; now rewrite <- (inner_grad dim vsize (th_u vsize p x))).
    destruct navier, full; unfold Rminus; o_sums; rewrite ?rsum_0; ring.
Qed.
End dgns.
