(** Local operators for the convection-diffusion equation: continuous and discontinuous Galerkin.
    localoperator/convectiondiffusionfem.hh 44-336, localoperator/convectiondiffusiondg.hh *)
From Verif Require Import Common.
From Coq Require Export Reals.
Open Scope R_scope.

(** ** Vectors, loops and accumulation *)
Definition vec := nat -> R.
Definition mat := nat -> nat -> R.
(** for (i=0; i<n; i++) *)
Fixpoint loop {S} (n : nat) (f : nat -> S -> S) (s : S) : S := match n with O => s | S k => f k (loop k f s) end.
(** FieldVector: operator*, axpy, FieldMatrix::mv in dimension d *)
Definition dot (d : nat) (a b : vec) : R := loop d (fun k s => s + a k * b k) 0.
Definition axpy (y : vec) (a : R) (x : vec) : vec := fun k => y k + a * x k.
Definition mv (d : nat) (A : mat) (x : vec) : vec := fun k => dot d (A k) x.
(** accumulate on a residual or matrix view of weight 1 *)
Definition acc (r : vec) (i : nat) (v : R) : vec := fun k => if (k =? i)%nat then r k + v else r k.
Definition macc (m : mat) (i j : nat) (v : R) : mat := fun k l => if ((k =? i) && (l =? j))%nat then m k l + v else m k l.
(** The loops that evaluate u and its gradient *)
Definition eval_u (n : nat) (x phi : vec) : R := loop n (fun i u => u + x i * phi i) 0.
Definition eval_grad (n : nat) (x : vec) (gradphi : nat -> vec) : vec := loop n (fun i g => axpy g (x i) (gradphi i)) (fun _ => 0).

(** convectiondiffusionparameter.hh 107-111 *)
Inductive bc := Dirichlet | Neumann | Outflow | NoBC.

(** ** Volume terms *)
(** A quadrature point of a cell: weight, integration element, values and reference gradients of ansatz and test functions,
    JacobianInverseTransposed, and the parameters A, b, c, f at the point *)
Record vpoint := mkvp { v_weight : R; v_ie : R; v_phi : vec; v_js : nat -> vec; v_psi : vec; v_jsv : nat -> vec; v_jac : mat;
  v_A : mat; v_b : vec; v_c : R; v_f : R }.
Definition v_tensor (constA : bool) (Ac : mat) (p : vpoint) : mat := if constA then Ac else v_A p.

(** ConvectionDiffusionFEM::alpha_volume: convectiondiffusionfem.hh 62-136 *)
Definition fem_alpha_volume (d n : nat) (constA : bool) (Ac : mat) (pts : list vpoint) (x : vec) (r : vec) : vec :=
  fold_left (fun r p =>
    let tensor := v_tensor constA Ac p in
    let u := eval_u n x (v_phi p) in
    let gradphi := fun i => mv d (v_jac p) (v_js p i) in
    let gradu := eval_grad n x gradphi in
    let Agradu := mv d tensor gradu in
    let factor := v_weight p * v_ie p in
    loop n (fun i r => acc r i ((dot d Agradu (gradphi i) - u * dot d (v_b p) (gradphi i) + (v_c p * u - v_f p) * v_phi p i) * factor)) r) pts r.
(** jacobian_volume: 138-202 *)
Definition fem_jacobian_volume (d n : nat) (constA : bool) (Ac : mat) (pts : list vpoint) (m : mat) : mat :=
  fold_left (fun m p =>
    let tensor := v_tensor constA Ac p in
    let gradphi := fun i => mv d (v_jac p) (v_js p i) in
    let Agradphi := fun i => mv d tensor (gradphi i) in
    let factor := v_weight p * v_ie p in
    loop n (fun j m => loop n (fun i m =>
      macc m i j ((dot d (Agradphi j) (gradphi i) - v_phi p j * dot d (v_b p) (gradphi i) + v_c p * v_phi p j * v_phi p i) * factor)) m) m) pts m.

(** ConvectionDiffusionDG::alpha_volume: convectiondiffusiondg.hh 103-186; nu ansatz and nv test functions *)
Definition dg_alpha_volume (d nu nv : nat) (constA : bool) (Ac : mat) (pts : list vpoint) (x : vec) (r : vec) : vec :=
  fold_left (fun r p =>
    let A := v_tensor constA Ac p in
    let u := eval_u nu x (v_phi p) in
    let gradphi := fun i => mv d (v_jac p) (v_js p i) in
    let gradpsi := fun i => mv d (v_jac p) (v_jsv p i) in
    let gradu := eval_grad nu x gradphi in
    let Agradu := mv d A gradu in
    let factor := v_weight p * v_ie p in
    loop nv (fun i r => acc r i ((dot d Agradu (gradpsi i) - u * dot d (v_b p) (gradpsi i) + v_c p * u * v_psi p i) * factor)) r) pts r.
(** jacobian_volume: 195-263; the ansatz functions are the test functions *)
Definition dg_jacobian_volume := fem_jacobian_volume.
(** jacobian_apply_volume: 188-193 *)
Definition dg_jacobian_apply_volume := dg_alpha_volume.
(** lambda_volume: 1048-1076 *)
Definition dg_lambda_volume (nv : nat) (pts : list vpoint) (r : vec) : vec :=
  fold_left (fun r p => let factor := v_weight p * v_ie p in loop nv (fun i r => acc r i (- v_f p * v_psi p i * factor)) r) pts r.

(** ** Faces *)
(** A quadrature point of a face: weight, integration element, normal; for the inside (s) and outside (n) cell the values and
    reference gradients of ansatz and test functions, JacobianInverseTransposed and A; b; boundary condition type and data *)
Record fpoint := mkfp { f_weight : R; f_ie : R; f_normal : vec;
  phi_s : vec; phi_n : vec; psi_s : vec; psi_n : vec; js_s : nat -> vec; js_n : nat -> vec; jsv_s : nat -> vec; jsv_n : nat -> vec;
  jac_s : mat; jac_n : mat; fA_s : mat; fA_n : mat; f_b : vec; f_bc : bc; f_j : R; f_o : R; f_g : R }.
(** A face: center normal, volumes of the cells and of the face, A in the centers of the cells, orders of the two bases *)
Record face := mkface { c_normal : vec; vol_s : R; vol_n : R; vol_f : R; cA_s : mat; cA_n : mat; order_s : nat; order_n : nat }.

(** Constructor parameters: convectiondiffusiondg.hh 82-104 *)
Inductive dgmethod := NIPG | SIPG | IIPG.
Record dgparam := mkdg { dg_method : dgmethod; dg_weights : bool; dg_alpha : R; dg_constA : bool }.
Definition theta (P : dgparam) : R := match dg_method P with SIPG => -1 | IIPG => 0 | NIPG => 1 end.
Definition eps : R := / 10 ^ 20.   (** 1e-20 *)
Definition eps' : R := / 10 ^ 30.  (** 1e-30 *)

(** FEM alpha_boundary: convectiondiffusionfem.hh 204-272; the type is that of the face center *)
Definition fem_alpha_boundary (d n : nat) (bctype : bc) (pts : list fpoint) (x : vec) (r : vec) : vec :=
  match bctype with
  | Dirichlet => r
  | _ =>
    fold_left (fun r p =>
      let factor := f_weight p * f_ie p in
      let r := match bctype with Neumann => loop n (fun i r => acc r i (f_j p * phi_s p i * factor)) r | _ => r end in
      match bctype with
      | Outflow => let u := eval_u n x (phi_s p) in
                   loop n (fun i r => acc r i ((dot d (f_b p) (f_normal p) * u + f_o p) * phi_s p i * factor)) r
      | _ => r
      end) pts r
  end.
(** jacobian_boundary: 274-322 *)
Definition fem_jacobian_boundary (d n : nat) (bctype : bc) (pts : list fpoint) (m : mat) : mat :=
  match bctype with
  | Dirichlet => m
  | Neumann => m
  | _ =>
    fold_left (fun m p =>
      let factor := f_weight p * f_ie p in
      loop n (fun j m => loop n (fun i m => macc m i j (dot d (f_b p) (f_normal p) * phi_s p j * phi_s p i * factor)) m) m) pts m
  end.

(** Coefficients of a face in a point: 305-347, 380-397 and 520-562, 583-600: A times normal, weights of the averages and penalty factor.
    With A constant in each cell they are those of the face center; otherwise they are recomputed in each point, except that without
    weighting the penalty factor and the weights stay. The state carried from point to point is thus not needed. *)
Record coeff := mkco { An_s : vec; An_n : vec; omega_s : R; omega_n : R; penalty : R }.
Definition weights_of (d : nat) (P : dgparam) (An_s An_n n : vec) : R * R * R :=
  if dg_weights P then
    let delta_s := dot d An_s n in
    let delta_n := dot d An_n n in
    (delta_n / (delta_s + delta_n + eps), delta_s / (delta_s + delta_n + eps), 2 * delta_s * delta_n / (delta_s + delta_n + eps))
  else (1/2, 1/2, 1).
Definition coeffs (d : nat) (P : dgparam) (F : face) (p : fpoint) : coeff :=
  let h_F := Rmin (vol_s F) (vol_n F) / vol_f F in
  let degree := Nat.max (order_s F) (order_n F) in
  let A_s := if dg_constA P then cA_s F else fA_s p in
  let A_n := if dg_constA P then cA_n F else fA_n p in
  let n := if dg_constA P then c_normal F else f_normal p in
  let An_s := mv d A_s n in
  let An_n := mv d A_n n in
  let '(omega_s, omega_n, harmonic) := weights_of d P An_s An_n n in
  mkco An_s An_n omega_s omega_n (dg_alpha P / h_F * harmonic * INR degree * INR (degree + d - 1)).

(** Upwinding: 429-441 *)
Definition upwind (normalflux : R) : R * R := if Rle_dec 0 normalflux then (1, 0) else (0, 1).

(** alpha_skeleton: 265-471 *)
Definition dg_alpha_skeleton (d nus nun nvs nvn : nat) (P : dgparam) (F : face) (pts : list fpoint) (x_s x_n : vec) (r : vec * vec) : vec * vec :=
  fold_left (fun '(r_s, r_n) p =>
    let C := coeffs d P F p in
    let u_s := eval_u nus x_s (phi_s p) in
    let u_n := eval_u nun x_n (phi_n p) in
    let tgradphi_s := fun i => mv d (jac_s p) (js_s p i) in
    let tgradpsi_s := fun i => mv d (jac_s p) (jsv_s p i) in
    let tgradphi_n := fun i => mv d (jac_n p) (js_n p i) in
    let tgradpsi_n := fun i => mv d (jac_n p) (jsv_n p i) in
    let gradu_s := eval_grad nus x_s tgradphi_s in
    let gradu_n := eval_grad nun x_n tgradphi_n in
    let normalflux := dot d (f_b p) (f_normal p) in
    let '(omegaup_s, omegaup_n) := upwind normalflux in
    let factor := f_weight p * f_ie p in
    let term1 := (omegaup_s * u_s + omegaup_n * u_n) * normalflux * factor in
    let r_s := loop nvs (fun i r => acc r i (term1 * psi_s p i)) r_s in
    let r_n := loop nvn (fun i r => acc r i (- term1 * psi_n p i)) r_n in
    let term2 := - (omega_s C * dot d (An_s C) gradu_s + omega_n C * dot d (An_n C) gradu_n) * factor in
    let r_s := loop nvs (fun i r => acc r i (term2 * psi_s p i)) r_s in
    let r_n := loop nvn (fun i r => acc r i (- term2 * psi_n p i)) r_n in
    let term3 := (u_s - u_n) * factor in
    let r_s := loop nvs (fun i r => acc r i (term3 * theta P * omega_s C * dot d (An_s C) (tgradpsi_s i))) r_s in
    let r_n := loop nvn (fun i r => acc r i (term3 * theta P * omega_n C * dot d (An_n C) (tgradpsi_n i))) r_n in
    let term4 := penalty C * (u_s - u_n) * factor in
    let r_s := loop nvs (fun i r => acc r i (term4 * psi_s p i)) r_s in
    let r_n := loop nvn (fun i r => acc r i (- term4 * psi_n p i)) r_n in
    (r_s, r_n)) pts r.
(** jacobian_apply_skeleton: 473-481 *)
Definition dg_jacobian_apply_skeleton := dg_alpha_skeleton.

(** jacobian_skeleton: 483-663; the four blocks ss, sn, ns, nn *)
Definition dg_jacobian_skeleton (d nus nun : nat) (P : dgparam) (F : face) (pts : list fpoint) (M : mat * mat * mat * mat) : mat * mat * mat * mat :=
  fold_left (fun '(mat_ss, mat_sn, mat_ns, mat_nn) p =>
    let C := coeffs d P F p in
    let tgradphi_s := fun i => mv d (jac_s p) (js_s p i) in
    let tgradphi_n := fun i => mv d (jac_n p) (js_n p i) in
    let normalflux := dot d (f_b p) (f_normal p) in
    let '(omegaup_s, omegaup_n) := upwind normalflux in
    let factor := f_weight p * f_ie p in
    let ipfactor := penalty C * factor in
    let mat_ss := loop nus (fun j m => let temp1 := - dot d (An_s C) (tgradphi_s j) * omega_s C * factor in
      loop nus (fun i m =>
        let m := macc m i j (omegaup_s * phi_s p j * normalflux * factor * phi_s p i) in
        let m := macc m i j (temp1 * phi_s p i) in
        let m := macc m i j (phi_s p j * factor * theta P * omega_s C * dot d (An_s C) (tgradphi_s i)) in
        macc m i j (phi_s p j * ipfactor * phi_s p i)) m) mat_ss in
    let mat_sn := loop nun (fun j m => let temp1 := - dot d (An_n C) (tgradphi_n j) * omega_n C * factor in
      loop nus (fun i m =>
        let m := macc m i j (omegaup_n * phi_n p j * normalflux * factor * phi_s p i) in
        let m := macc m i j (temp1 * phi_s p i) in
        let m := macc m i j (- phi_n p j * factor * theta P * omega_s C * dot d (An_s C) (tgradphi_s i)) in
        macc m i j (- phi_n p j * ipfactor * phi_s p i)) m) mat_sn in
    let mat_ns := loop nus (fun j m => let temp1 := - dot d (An_s C) (tgradphi_s j) * omega_s C * factor in
      loop nun (fun i m =>
        let m := macc m i j (- omegaup_s * phi_s p j * normalflux * factor * phi_n p i) in
        let m := macc m i j (- temp1 * phi_n p i) in
        let m := macc m i j (phi_s p j * factor * theta P * omega_n C * dot d (An_n C) (tgradphi_n i)) in
        macc m i j (- phi_s p j * ipfactor * phi_n p i)) m) mat_ns in
    let mat_nn := loop nun (fun j m => let temp1 := - dot d (An_n C) (tgradphi_n j) * omega_n C * factor in
      loop nun (fun i m =>
        let m := macc m i j (- omegaup_n * phi_n p j * normalflux * factor * phi_n p i) in
        let m := macc m i j (- temp1 * phi_n p i) in
        let m := macc m i j (- phi_n p j * factor * theta P * omega_n C * dot d (An_n C) (tgradphi_n i)) in
        macc m i j (phi_n p j * ipfactor * phi_n p i)) m) mat_nn in
    (mat_ss, mat_sn, mat_ns, mat_nn)) pts M.

(** A times normal and penalty factor on the boundary: 703-730, 747-760 *)
Definition bcoeffs (d : nat) (P : dgparam) (F : face) (p : fpoint) : vec * R :=
  let h_F := vol_s F / vol_f F in
  let degree := order_s F in
  let A_s := if dg_constA P then cA_s F else fA_s p in
  let n := if dg_constA P then c_normal F else f_normal p in
  let An := mv d A_s n in
  let harmonic := if dg_weights P then dot d An n else 1 in
  (An, dg_alpha P / h_F * harmonic * INR degree * INR (degree + d - 1)).

(** residual_boundary_integral: 677-875; alpha_boundary and jacobian_apply_boundary: 877-897 *)
Definition dg_residual_boundary (d nu nv : nat) (P : dgparam) (F : face) (pts : list fpoint) (x : vec) (jacobian_apply : bool) (r : vec) : res vec :=
  foldM (fun r p =>
    let (An_F_s, pen) := bcoeffs d P F p in
    match f_bc p with
    | NoBC => Ok r
    | bctype =>
      let factor := f_weight p * f_ie p in
      match bctype with
      | Neumann => Ok (if negb jacobian_apply then loop nv (fun i r => acc r i (f_j p * psi_s p i * factor)) r else r)
      | _ =>
        let u_s := eval_u nu x (phi_s p) in
        let normalflux := dot d (f_b p) (f_normal p) in
        match bctype with
        | Outflow =>
          if Rlt_dec normalflux (- eps') then Throw
          else
            let term1 := u_s * normalflux * factor in
            let r := loop nv (fun i r => acc r i (term1 * psi_s p i)) r in
            Ok (if negb jacobian_apply then loop nv (fun i r => acc r i (f_o p * psi_s p i * factor)) r else r)
        | _ =>
          let tgradphi_s := fun i => mv d (jac_s p) (js_s p i) in
          let tgradpsi_s := fun i => mv d (jac_s p) (jsv_s p i) in
          let gradu_s := eval_grad nu x tgradphi_s in
          let g := if jacobian_apply then 0 else f_g p in
          let '(omegaup_s, omegaup_n) := upwind normalflux in
          let term1 := (omegaup_s * u_s + omegaup_n * g) * normalflux * factor in
          let r := loop nv (fun i r => acc r i (term1 * psi_s p i)) r in
          let term2 := dot d An_F_s gradu_s * factor in
          let r := loop nv (fun i r => acc r i (- term2 * psi_s p i)) r in
          let term3 := (u_s - g) * factor in
          let r := loop nv (fun i r => acc r i (term3 * theta P * dot d An_F_s (tgradpsi_s i))) r in
          let term4 := pen * (u_s - g) * factor in
          Ok (loop nv (fun i r => acc r i (term4 * psi_s p i)) r)
        end
      end
    end) pts r.

(** jacobian_boundary: 899-1045 *)
Definition dg_jacobian_boundary (d nu : nat) (P : dgparam) (F : face) (pts : list fpoint) (m : mat) : res mat :=
  foldM (fun m p =>
    let (An_F_s, pen) := bcoeffs d P F p in
    match f_bc p with
    | NoBC | Neumann => Ok m
    | bctype =>
      let factor := f_weight p * f_ie p in
      let normalflux := dot d (f_b p) (f_normal p) in
      match bctype with
      | Outflow =>
        if Rlt_dec normalflux (- eps') then Throw
        else Ok (loop nu (fun j m => loop nu (fun i m => macc m i j (phi_s p j * normalflux * factor * phi_s p i)) m) m)
      | _ =>
        let tgradphi_s := fun i => mv d (jac_s p) (js_s p i) in
        let omegaup_s := if Rle_dec 0 normalflux then 1 else 0 in
        let m := loop nu (fun j m => loop nu (fun i m => macc m i j (omegaup_s * phi_s p j * normalflux * factor * phi_s p i)) m) m in
        let m := loop nu (fun j m => loop nu (fun i m => macc m i j (- dot d An_F_s (tgradphi_s j) * factor * phi_s p i)) m) m in
        let m := loop nu (fun j m => loop nu (fun i m => macc m i j (phi_s p j * factor * theta P * dot d An_F_s (tgradphi_s i))) m) m in
        Ok (loop nu (fun j m => loop nu (fun i m => macc m i j (pen * phi_s p j * phi_s p i * factor)) m) m)
      end
    end) pts m.
