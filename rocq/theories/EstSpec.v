(** The error estimators on paper. *)
From Verif Require Import Common CdModel CdSpec EstModel.
Local Open Scope R_scope.

(** h is the largest distance between two corners. *)
Definition dist (d : nat) (a b : vec) : R := sqrt (rsum d (fun k => (a k - b k) ^ 2)).
Definition is_diameter (d n : nat) (corner : nat -> vec) (h : R) : Prop :=
  (forall i j, (i < n)%nat -> (j < n)%nat -> dist d (corner i) (corner j) <= h) /\
  exists i j, (i < n)%nat /\ (j < n)%nat /\ h = dist d (corner i) (corner j).

(** The squares of the L2 norms of a function on a cell, on a face, by quadrature. *)
Definition vnorm2 (pts : list vpoint) (g : vpoint -> R) : R := lsum (fun p => v_weight p * v_ie p * g p ^ 2) pts.
Definition fnorm2 (pts : list fpoint) (g : fpoint -> R) : R := lsum (fun p => f_weight p * f_ie p * g p ^ 2) pts.
(** v if c holds, else nothing. *)
Definition when (b : bool) (v : R) : R := if b then v else 0.

(** All quadrature weights are nonnegative (positive). *)
Definition weights_nonneg (cells : nat -> escell) (n : nat) (inner : list esface) (bound : list esbound) : Prop :=
  (forall c p, (c < n)%nat -> In p (ec_pts (cells c)) -> 0 <= v_weight p * v_ie p) /\
  (forall F p, In F inner -> In p (ef_pts F) -> 0 <= f_weight p * f_ie p) /\
  (forall F p, In F bound -> In p (eb_pts F) -> 0 <= f_weight p * f_ie p).
Definition weights_pos (cells : nat -> escell) (n : nat) (inner : list esface) (bound : list esbound) : Prop :=
  (forall c p, (c < n)%nat -> In p (ec_pts (cells c)) -> 0 < v_weight p * v_ie p) /\
  (forall F p, In F inner -> In p (ef_pts F) -> 0 < f_weight p * f_ie p) /\
  (forall F p, In F bound -> In p (eb_pts F) -> 0 < f_weight p * f_ie p).
(** The faces belong to cells of the grid, which have at least two corners. *)
Definition grid_ok (cells : nat -> escell) (n : nat) (inner : list esface) (bound : list esbound) : Prop :=
  (forall c, (c < n)%nat -> (2 <= ec_corners (cells c))%nat) /\
  (forall F, In F inner -> (ef_s F < n)%nat /\ (ef_n F < n)%nat /\ (2 <= ef_corners F)%nat) /\
  (forall F, In F bound -> (eb_s F < n)%nat /\ (2 <= eb_corners F)%nat).
(** The same face seen from the other side. *)
Definition reverse (F : esface) : esface :=
  mkef (ef_n F) (ef_s F) (opp (ef_normal F)) (ef_corners F) (ef_corner F) (map flip_point (ef_pts F)).

Section paper.
Variables (d : nat) (cells : nat -> escell) (x : nat -> vec).
(** The solution and its gradient in a point of a cell, and in a point of a face from inside and outside. *)
Definition u_at (c : nat) (p : vpoint) : R := fun_at (ec_n (cells c)) (x c) (v_phi p).
Definition grad_u (c : nat) (p : vpoint) : vec := grad_at (ec_n (cells c)) (x c) (grads d (v_jac p) (v_js p)).
Definition u_in (c : nat) (p : fpoint) : R := fun_at (ec_n (cells c)) (x c) (phi_s p).
Definition u_out (c : nat) (p : fpoint) : R := fun_at (ec_n (cells c)) (x c) (phi_n p).
Definition grad_in (c : nat) (p : fpoint) : vec := grad_at (ec_n (cells c)) (x c) (grads d (jac_s p) (js_s p)).
Definition grad_out (c : nat) (p : fpoint) : vec := grad_at (ec_n (cells c)) (x c) (grads d (jac_n p) (js_n p)).
(** The normal flux n . A grad u. *)
Definition normal_flux (n : vec) (A : mat) (g : vec) : R := inner d n (apply d A g).
(** The diffusion tensors that occur are symmetric. *)
Definition tensors_symmetric (n : nat) (inner : list esface) (bound : list esbound) : Prop :=
  (forall c, symmetric d (ec_A (cells c))) /\ (forall F p, In F inner -> In p (ef_pts F) -> symmetric d (fA_s p) /\ symmetric d (fA_n p)) /\
  (forall F p, In F bound -> In p (eb_pts F) -> symmetric d (fA_s p)).

Section fem.
Variable constA : bool.
(** Jump of the normal flux over a face, and the mismatch with the prescribed flux j on a Neumann face (j is the outward flux of -A grad u). *)
Definition flux_jump (F : esface) (p : fpoint) : R :=
  if constA
  then normal_flux (ef_normal F) (ec_A (cells (ef_s F))) (grad_in (ef_s F) p) - normal_flux (ef_normal F) (ec_A (cells (ef_n F))) (grad_out (ef_n F) p)
  else normal_flux (f_normal p) (fA_s p) (grad_in (ef_s F) p) - normal_flux (f_normal p) (fA_n p) (grad_out (ef_n F) p).
Definition flux_mismatch (F : esbound) (p : fpoint) : R :=
  f_j p + (if constA then normal_flux (eb_normal F) (ec_A (cells (eb_s F))) (grad_in (eb_s F) p) else normal_flux (f_normal p) (fA_s p) (grad_in (eb_s F) p)).
(** eta^2 of a cell: h^2 |f - c u|^2 + sum over its faces of h |jump / 2|^2 + sum over its Neumann faces of h |mismatch|^2. *)
Definition fem_faces (inner : list esface) (bound : list esbound) (c : nat) : R :=
  lsum (fun F => let v := Rmax (cell_diam d cells (ef_s F)) (cell_diam d cells (ef_n F)) * fnorm2 (ef_pts F) (fun p => flux_jump F p / 2) in
                 when (c =? ef_s F)%nat v + when (c =? ef_n F)%nat v) inner +
  lsum (fun F => when (c =? eb_s F)%nat match eb_bc F with Neumann => cell_diam d cells (eb_s F) * fnorm2 (eb_pts F) (flux_mismatch F) | _ => 0 end) bound.
Definition fem_eta2 (inner : list esface) (bound : list esbound) (c : nat) : R :=
  cell_diam d cells c ^ 2 * vnorm2 (ec_pts (cells c)) (fun p => v_f p - v_c p * u_at c p) + fem_faces inner bound c.
End fem.

Section dg.
Variable gamma : R.
Definition least_diag (A : mat) (e : R) : Prop := (forall k, (k < d)%nat -> e <= A k k) /\ exists k, (k < d)%nat /\ e = A k k.
Definition face_diam (F : esface) : R := diameter d (ef_corners F) (ef_corner F).
Definition bound_diam (F : esbound) : R := diameter d (eb_corners F) (eb_corner F).
(** Jump of the flux (tensor in the point, normal of the face) and of the solution; mismatch with the Dirichlet value. *)
Definition dg_flux_jump (F : esface) (p : fpoint) : R :=
  normal_flux (ef_normal F) (fA_s p) (grad_in (ef_s F) p) - normal_flux (ef_normal F) (fA_n p) (grad_out (ef_n F) p).
Definition u_jump (F : esface) (p : fpoint) : R := u_in (ef_s F) p - u_out (ef_n F) p.
Definition u_mismatch (F : esbound) (p : fpoint) : R := u_in (eb_s F) p - f_g p.
Definition residual (c : nat) (p : vpoint) : R := v_f p - inner d (v_b p) (grad_u c p) - v_c p * u_at c p.
(** eta^2 of a cell, eps c being the smallest diagonal entry of A in the center of cell c and k the polynomial degree:
    h^2/(k^2 eps) |f - b . grad u - c u|^2, per face h/2 |flux jump|^2 + 1/2 (gamma/h + h/eps) |jump|^2, per Dirichlet face (gamma/h + h/eps) |u - g|^2. *)
Definition dg_eta2 (eps : nat -> R) (inner : list esface) (bound : list esbound) (c : nat) : R :=
  cell_diam d cells c ^ 2 / (INR (ec_order (cells c)) ^ 2 * eps c) * vnorm2 (ec_pts (cells c)) (residual c) +
  lsum (fun F => let h := face_diam F in
                 let v := fun s => h / 2 * fnorm2 (ef_pts F) (dg_flux_jump F) + (gamma / h + h / eps s) / 2 * fnorm2 (ef_pts F) (u_jump F) in
                 when (c =? ef_s F)%nat (v (ef_s F)) + when (c =? ef_n F)%nat (v (ef_n F))) inner +
  lsum (fun F => when (c =? eb_s F)%nat match eb_bc F with
                 | Dirichlet => (gamma / bound_diam F + bound_diam F / eps (eb_s F)) * fnorm2 (eb_pts F) (u_mismatch F) | _ => 0 end) bound.
End dg.
End paper.

(** ** Temporal estimators *)
(** Simpson's rule on [t, t+dt] for the mean, and for the mean square deviation from the mean. *)
Definition simpson (g : R -> R) (t dt : R) : R := (g t + 4 * g (t + dt / 2) + g (t + dt)) / 6.
Definition variation (g : R -> R) (t dt : R) : R := simpson (fun s => (g s - simpson g t dt) ^ 2) t dt.
Definition tnorm2 (pts : list tpt) (g : tpt -> R) : R := lsum (fun p => t_weight p * t_ie p * g p) pts.
Definition jump_at (C : tcell) (x : vec) (p : tpt) : R := fun_at (tc_n C) x (t_phi p).
Definition jump_grad (d : nat) (C : tcell) (x : vec) (p : tpt) : vec := grad_at (tc_n C) x (grads d (t_jac p) (t_js p)).
(** Gradient of the interpolated source term at time s. *)
Definition source_grad (d : nat) (C : tcell) (p : tpt) (s : R) : vec := grad_at (tc_n C) (tc_interp C s) (grads d (t_jac p) (t_js p)).
Definition te1_eta2 (t dt : R) (C : tcell) (x : vec) : R :=
  tc_h C ^ 2 / dt * tnorm2 (tc_pts C) (fun p => jump_at C x p ^ 2) + tc_h C ^ 2 * dt * tnorm2 (tc_pts C) (fun p => variation (t_f p) t dt).
Definition te2_eta2 (d : nat) (t dt : R) (C : tcell) (x : vec) : R :=
  dt * tnorm2 (tc_pts C) (fun p => inner d (jump_grad d C x p) (jump_grad d C x p)) +
  dt ^ 3 * tnorm2 (tc_pts C) (fun p => rsum d (fun k => variation (fun s => source_grad d C p s k) t dt)).
Definition flux_change (t dt : R) (p : tbp) : R :=
  tb_weight p * tb_ie p * (((tb_j p t - tb_j p (t + dt / 2)) ^ 2 + (tb_j p (t + dt) - tb_j p (t + dt / 2)) ^ 2) / 2).
