(** Error estimators: localoperator/convectiondiffusionfem.hh 338-1045, localoperator/errorindicatordg.hh, localoperator/eval.hh.
    Real arithmetic is exact. Vectors, quadrature points and the evaluation loops are those of CdModel.v; evalFunction and
    evalGradient (eval.hh 17-75) are the same loops. The residual vector has one entry per cell (the test space is P0). *)
From Verif Require Import Common CdModel.
Local Open Scope R_scope.

(** FieldVector::two_norm *)
Definition two_norm (d : nat) (v : vec) : R := sqrt (dot d v v).
(** diameter: convectiondiffusionfem.hh 642-659, 780-797, 1024-1041, errorindicatordg.hh 385-401: n corners *)
Definition diameter (d n : nat) (corner : nat -> vec) : R :=
  loop n (fun i hmax => loop (n - S i) (fun k hmax =>
    let j := (S i + k)%nat in Rmax hmax (two_norm d (fun c => corner j c - corner i c))) hmax) (-1).

(** A cell: number of local basis functions and their order, corners, the diffusion tensor in the center, the quadrature points *)
Record escell := mkes { ec_n : nat; ec_order : nat; ec_corners : nat; ec_corner : nat -> vec; ec_A : mat; ec_pts : list vpoint }.
(** An interior face: the two cells, center normal, corners, quadrature points (the normal points from ef_s to ef_n) *)
Record esface := mkef { ef_s : nat; ef_n : nat; ef_normal : vec; ef_corners : nat; ef_corner : nat -> vec; ef_pts : list fpoint }.
(** A boundary face with the type of the boundary condition in its center *)
Record esbound := mkeb { eb_s : nat; eb_bc : bc; eb_normal : vec; eb_corners : nat; eb_corner : nat -> vec; eb_pts : list fpoint }.

Section est.
Variables (d : nat) (cells : nat -> escell).
Definition cell_diam (c : nat) : R := diameter d (ec_corners (cells c)) (ec_corner (cells c)).

(** ** ConvectionDiffusionFEMResidualEstimator *)
Section fem.
(** permeabilityIsConstantPerCell *)
Variable constA : bool.
(** alpha_volume: 382-429 *)
Definition fe_volume (x : nat -> vec) (c : nat) (r : vec) : vec :=
  let C := cells c in
  let sum := fold_left (fun sum p =>
    let u := eval_u (ec_n C) (x c) (v_phi p) in
    let factor := v_weight p * v_ie p in
    sum + (v_f p * v_f p - v_c p * v_c p * u * u) * factor) (ec_pts C) 0 in
  acc r c (cell_diam c * cell_diam c * sum).
(** alpha_skeleton: 432-539 *)
Definition fe_skeleton (x : nat -> vec) (r : vec) (F : esface) : vec :=
  let S := cells (ef_s F) in let N := cells (ef_n F) in
  let sum := fold_left (fun sum p =>
    let An_F_s := if constA then mv d (ec_A S) (ef_normal F) else mv d (fA_s p) (f_normal p) in
    let An_F_n := if constA then mv d (ec_A N) (ef_normal F) else mv d (fA_n p) (f_normal p) in
    let gradu_s := eval_grad (ec_n S) (x (ef_s F)) (fun i => mv d (jac_s p) (js_s p i)) in
    let gradu_n := eval_grad (ec_n N) (x (ef_n F)) (fun i => mv d (jac_n p) (js_n p i)) in
    let factor := f_weight p * f_ie p in
    let jump := dot d An_F_s gradu_s - dot d An_F_n gradu_n in
    sum + / 4 * jump * jump * factor) (ef_pts F) 0 in
  let h_T := Rmax (cell_diam (ef_s F)) (cell_diam (ef_n F)) in
  acc (acc r (ef_s F) (h_T * sum)) (ef_n F) (h_T * sum).
(** alpha_boundary: 542-637 *)
Definition fe_boundary (x : nat -> vec) (r : vec) (F : esbound) : vec :=
  match eb_bc F with
  | Neumann =>
    let S := cells (eb_s F) in
    let sum := fold_left (fun sum p =>
      let An_F_s := if constA then mv d (ec_A S) (eb_normal F) else mv d (fA_s p) (f_normal p) in
      let gradu_s := eval_grad (ec_n S) (x (eb_s F)) (fun i => mv d (jac_s p) (js_s p i)) in
      let factor := f_weight p * f_ie p in
      let jump := f_j p + dot d An_F_s gradu_s in
      sum + jump * jump * factor) (eb_pts F) 0 in
    acc r (eb_s F) (cell_diam (eb_s F) * sum)
  | _ => r
  end.
(** The assembled residual. Simplification: the assembler interleaves cells and faces; here all cells, then the interior faces (each visited once), then the boundary *)
Definition fe_estimate (n : nat) (inner : list esface) (bound : list esbound) (x : nat -> vec) : vec :=
  fold_left (fe_boundary x) bound (fold_left (fe_skeleton x) inner (loop n (fe_volume x) (fun _ => 0))).
End fem.

(** ** ConvectionDiffusionDG_ErrorIndicator *)
Section dg.
Variable gamma : R.
(** epsilon: errorindicatordg.hh 102-103, 205-209, 330-331: the smallest diagonal entry, in dimension 2 or 3 *)
Definition small_diag (A : mat) : R :=
  let e := Rmin (A 0%nat 0%nat) (A 1%nat 1%nat) in if (2 <? d)%nat then Rmin (A 2%nat 2%nat) e else e.
(** alpha_volume: 75-161 *)
Definition dgi_volume (x : nat -> vec) (c : nat) (r : vec) : vec :=
  let C := cells c in
  let epsilon := small_diag (ec_A C) in
  let sum := fold_left (fun sum p =>
    let u := eval_u (ec_n C) (x c) (v_phi p) in
    let gradu := eval_grad (ec_n C) (x c) (fun i => mv d (v_jac p) (v_js p i)) in
    let factor := v_weight p * v_ie p in
    let square := v_f p - dot d (v_b p) gradu - v_c p * u in
    sum + square * square * factor) (ec_pts C) 0 in
  acc r c (cell_diam c * cell_diam c / INR (ec_order C) / INR (ec_order C) / epsilon * sum).
(** alpha_skeleton: 164-299; the tensors are those of the quadrature point, the normal that of the center *)
Definition dgi_skeleton (x : nat -> vec) (r : vec) (F : esface) : vec :=
  let S := cells (ef_s F) in let N := cells (ef_n F) in
  let epsilon_s := small_diag (ec_A S) in let epsilon_n := small_diag (ec_A N) in
  let '(flux_jump_L2normSquare, uh_jump_L2normSquare) := fold_left (fun '(fl, uh) p =>
    let An_F_s := mv d (fA_s p) (ef_normal F) in
    let An_F_n := mv d (fA_n p) (ef_normal F) in
    let uDG_s := eval_u (ec_n S) (x (ef_s F)) (phi_s p) in
    let uDG_n := eval_u (ec_n N) (x (ef_n F)) (phi_n p) in
    let gradu_s := eval_grad (ec_n S) (x (ef_s F)) (fun i => mv d (jac_s p) (js_s p i)) in
    let gradu_n := eval_grad (ec_n N) (x (ef_n F)) (fun i => mv d (jac_n p) (js_n p i)) in
    let factor := f_weight p * f_ie p in
    let flux_jump := dot d An_F_s gradu_s - dot d An_F_n gradu_n in
    let jump_uDG := uDG_s - uDG_n in
    (fl + flux_jump * flux_jump * factor, uh + jump_uDG * jump_uDG * factor)) (ef_pts F) (0, 0) in
  let h_face := diameter d (ef_corners F) (ef_corner F) in
  let eta_Ek_s := / 2 * h_face * flux_jump_L2normSquare in
  let eta_Ek_n := eta_Ek_s in
  let eta_Jk_s := / 2 * (gamma / h_face + h_face / epsilon_s) * uh_jump_L2normSquare in
  let eta_Jk_n := / 2 * (gamma / h_face + h_face / epsilon_n) * uh_jump_L2normSquare in
  acc (acc r (ef_s F) (eta_Ek_s + eta_Jk_s)) (ef_n F) (eta_Ek_n + eta_Jk_n).
(** alpha_boundary: 302-377 *)
Definition dgi_boundary (x : nat -> vec) (r : vec) (F : esbound) : vec :=
  match eb_bc F with
  | Dirichlet =>
    let S := cells (eb_s F) in
    let epsilon_s := small_diag (ec_A S) in
    let uh := fold_left (fun uh p =>
      let uDG_s := eval_u (ec_n S) (x (eb_s F)) (phi_s p) in
      let factor := f_weight p * f_ie p in
      let jump_uDG := uDG_s - f_g p in
      uh + jump_uDG * jump_uDG * factor) (eb_pts F) 0 in
    let h_face := diameter d (eb_corners F) (eb_corner F) in
    acc r (eb_s F) ((gamma / h_face + h_face / epsilon_s) * uh)
  | _ => r
  end.
Definition dgi_estimate (n : nat) (inner : list esface) (bound : list esbound) (x : nat -> vec) : vec :=
  fold_left (dgi_boundary x) bound (fold_left (dgi_skeleton x) inner (loop n (dgi_volume x) (fun _ => 0))).
End dg.
End est.

(** ** The temporal estimators *)
(** A quadrature point of a cell; the source term and the boundary flux depend on the time of the parameter object *)
Record tpt := mktp { t_weight : R; t_ie : R; t_phi : vec; t_js : nat -> vec; t_jac : mat; t_f : R -> R }.
Record tbp := mktb { tb_weight : R; tb_ie : R; tb_j : R -> R }.
(** A cell: number of basis functions, diameter, quadrature points, and the interpolation of the source term (localInterpolation) *)
Record tcell := mktc { tc_n : nat; tc_h : R; tc_pts : list tpt; tc_interp : R -> vec }.
(** The state an assembly changes: the time of the parameter object and the residual *)
Record tstate := mkts { ts_time : R; ts_r : vec }.

Section temporal.
Variables (d : nat) (time dt : R).
(** ConvectionDiffusionTemporalResidualEstimator1::alpha_volume: 703-762 *)
Definition te1_volume (C : tcell) (c : nat) (x : vec) (s : tstate) : tstate :=
  let '(pt, (sum, (down, (mid, up)))) := fold_left (fun '(pt, (sum, (down, (mid, up)))) p =>
    let u := eval_u (tc_n C) x (t_phi p) in
    let factor := t_weight p * t_ie p in
    let sum := sum + u * u * factor in
    let pt := time in let f_down := t_f p pt in
    let pt := time + / 2 * dt in let f_mid := t_f p pt in
    let pt := time + dt in let f_up := t_f p pt in
    let f_average := 1 / 6 * f_down + 2 / 3 * f_mid + 1 / 6 * f_up in
    (pt, (sum, (down + (f_down - f_average) * (f_down - f_average) * factor,
               (mid + (f_mid - f_average) * (f_mid - f_average) * factor,
                up + (f_up - f_average) * (f_up - f_average) * factor)))))
    (tc_pts C) (ts_time s, (0, (0, (0, 0)))) in
  let h_T := tc_h C in
  mkts pt (acc (acc (ts_r s) c (h_T * h_T / dt * sum)) c (h_T * h_T * dt * (1 / 6 * down + 2 / 3 * mid + 1 / 6 * up))).

(** ConvectionDiffusionTemporalResidualEstimator::alpha_volume: 860-963; the sum of the squares of the jump itself is not used *)
Definition te2_volume (C : tcell) (c : nat) (x : vec) (s : tstate) : tstate :=
  let f_down := tc_interp C time in
  let f_mid := tc_interp C (time + / 2 * dt) in
  let f_up := tc_interp C (time + dt) in
  let '(sum_grad, (down, (mid, up))) := fold_left (fun '(sum_grad, (down, (mid, up))) p =>
    let factor := t_weight p * t_ie p in
    let gradphi := fun i => mv d (t_jac p) (t_js p i) in
    let gradu := eval_grad (tc_n C) x gradphi in
    let sum_grad := sum_grad + dot d gradu gradu * factor in
    let gradf_average := eval_grad (tc_n C) (fun i => 1 / 6 * f_down i + 2 / 3 * f_mid i + 1 / 6 * f_up i) gradphi in
    let gd := fun k => eval_grad (tc_n C) f_down gradphi k - gradf_average k in
    let gm := fun k => eval_grad (tc_n C) f_mid gradphi k - gradf_average k in
    let gu := fun k => eval_grad (tc_n C) f_up gradphi k - gradf_average k in
    (sum_grad, (down + dot d gd gd * factor, (mid + dot d gm gm * factor, up + dot d gu gu * factor))))
    (tc_pts C) (0, (0, (0, 0))) in
  mkts (time + dt) (acc (acc (ts_r s) c (dt * sum_grad)) c (dt * dt * dt * (1 / 6 * down + 2 / 3 * mid + 1 / 6 * up))).
(** alpha_boundary: 967-1017; h is the diameter of the inside cell *)
Definition te2_boundary (h : R) (c : nat) (btype : bc) (pts : list tbp) (s : tstate) : tstate :=
  match btype with
  | Neumann =>
    let '(pt, (down, up)) := fold_left (fun '(pt, (down, up)) p =>
      let pt := time in let j_down := tb_j p pt in
      let pt := time + / 2 * dt in let j_mid := tb_j p pt in
      let pt := time + dt in let j_up := tb_j p pt in
      let factor := tb_weight p * tb_ie p in
      (pt, (down + (j_down - j_mid) * (j_down - j_mid) * factor, up + (j_up - j_mid) * (j_up - j_mid) * factor)))
      pts (ts_time s, (0, 0)) in
    mkts pt (acc (ts_r s) c ((h + dt * dt / h) * dt * / 2 * (down + up)))
  | _ => s
  end.
(** A bound boundary face of a cell *)
Record tbound := mktbd { tbd_c : nat; tbd_bc : bc; tbd_pts : list tbp }.
Definition te1_estimate (cells : nat -> tcell) (n : nat) (x : nat -> vec) (t0 : R) : tstate :=
  loop n (fun c s => te1_volume (cells c) c (x c) s) (mkts t0 (fun _ => 0)).
Definition te2_estimate (cells : nat -> tcell) (n : nat) (bound : list tbound) (x : nat -> vec) (t0 : R) : tstate :=
  fold_left (fun s b => te2_boundary (tc_h (cells (tbd_c b))) (tbd_c b) (tbd_bc b) (tbd_pts b) s) bound
    (loop n (fun c s => te2_volume (cells c) c (x c) s) (mkts t0 (fun _ => 0))).
End temporal.
