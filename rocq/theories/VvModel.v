(** The discontinuous Galerkin discretization of the Navier-Stokes equations with vector-valued velocity basis functions:
    localoperator/dgnavierstokesvelvecfem.hh (vv.hh). Numbers are real numbers; a local vector is a function of the child (0 velocity,
    1 pressure) and the index inside it. Simplification: ansatz and test spaces agree (asserted in 342), and so do the sizes on the two
    sides of a face. *)
From Verif Require Import Common CdModel WaveModel FlowModel DgnsModel.
From Coq Require Import Reals.
Open Scope R_scope.

(** vv.hh 71-90: jacobian of a local basis: row by row times the inverse transposed Jacobian of the geometry. (The variant 40-49 for
    global bases takes the Jacobians as they are.) *)
Definition vv_jac (dim : nat) (geo : mat) (ljac : nat -> mat) : nat -> mat := fun i row => mv dim geo (ljac i row).
(** axpy on vectors and matrices in a loop over the basis *)
Definition eval_vec (n : nat) (x : vec) (phi : nat -> vec) : vec := eval_grad n x phi.
Definition eval_mat (n : nat) (x : vec) (J : nat -> mat) : mat := loop n (fun i A => fun r c => A r c + x i * J i r c) (fun _ _ => 0).
(** vv.hh 1119-1128: contraction *)
Definition contraction (dim : nat) (a b : mat) : R := loop dim (fun r v => loop dim (fun c v => v + a r c * b r c) v) 0.
(** vv.hh 1130-1138: add_compute_flux (all components at once) *)
Definition add_flux (dim : nat) (du : mat) (n : vec) (result : vec) : vec := fun r => loop dim (fun c s => s + du r c * n c) (result r).
Definition flux (dim : nat) (du : mat) (n : vec) : vec := add_flux dim du n (fun _ => 0).
(** divergence of a basis function: 226-229, 344-347 *)
Definition diverg (dim : nat) (J : mat) : R := loop dim (fun d s => s + J d d) 0.

(** A quadrature point in a cell: weight, integration element, basis values of velocity and pressure, reference Jacobians of the
    velocity basis, inverse transposed Jacobian of the geometry, viscosity, density, force *)
Record vvpt := mkvv { vp_weight : R; vp_ie : R; vp_phi : nat -> vec; vp_psi : vec; vp_lj : nat -> mat; vp_geo : mat; vp_mu : R; vp_rho : R; vp_f : vec }.

(** vv.hh 161-278: alpha_volume. The flag full_tensor (113) is never read; it is a parameter here to say so. *)
Definition vv_alpha_volume (navier full_tensor : bool) (sc : R) (dim vsize psize : nat) (pts : list vvpt) (x : mat) (r : mat) : mat :=
  fold_left (fun r p =>
    let val_u : vec := if navier then eval_vec vsize (x 0%nat) (vp_phi p) else (fun _ => 0) in             (* 203-209 *)
    let val_p := eval_u psize (x 1%nat) (vp_psi p) in                                                      (* 216-218 *)
    let jac_phi := vv_jac dim (vp_geo p) (vp_lj p) in                                                      (* 221-223 *)
    let jac_u := eval_mat vsize (x 0%nat) jac_phi in                                                       (* 232-237 *)
    let div_u := loop vsize (fun i s => s + x 0%nat i * diverg dim (jac_phi i)) 0 in
    let weight := vp_weight p * vp_ie p in
    let r := loop vsize (fun i r =>
      let r := macc r 0 i (contraction dim jac_u (jac_phi i) * vp_mu p * weight) in                        (* 246-248 *)
      let r := macc r 0 i (- diverg dim (jac_phi i) * val_p * weight) in                                   (* 253 *)
      if navier then macc r 0 i (vp_rho p * dot dim (mv dim jac_u val_u) (vp_phi p i) * weight) else r) r in  (* 258-263 *)
    loop psize (fun i r => macc r 1 i (- div_u * vp_psi p i * sc * weight)) r) pts r.                      (* 267-272 *)

(** vv.hh 281-400: jacobian_volume *)
Definition vv_jacobian_volume (navier full_tensor : bool) (sc : R) (dim vsize psize : nat) (pts : list vvpt) (x : mat) (M : tens) : tens :=
  fold_left (fun M p =>
    let val_u : vec := if navier then eval_vec vsize (x 0%nat) (vp_phi p) else (fun _ => 0) in
    let jac_phi := vv_jac dim (vp_geo p) (vp_lj p) in
    let jac_u : mat := if navier then eval_mat vsize (x 0%nat) jac_phi else (fun _ _ => 0) in
    let weight := vp_weight p * vp_ie p in
    loop vsize (fun i M =>
      let M := loop vsize (fun j M =>
        let M := tacc M 0 i 0 j (vp_mu p * contraction dim (jac_phi j) (jac_phi i) * weight) in
        if navier then tacc M 0 i 0 j (vp_rho p * (dot dim (mv dim jac_u (vp_phi p j)) (vp_phi p i) + dot dim (mv dim (jac_phi j) val_u) (vp_phi p i)) * weight) else M) M in
      loop psize (fun j M =>
        let M := tacc M 0 i 1 j (- vp_psi p j * diverg dim (jac_phi i) * weight) in
        tacc M 1 j 0 i (- vp_psi p j * diverg dim (jac_phi i) * sc * weight)) M) M) pts M.

(** vv.hh 1064-1115: lambda_volume *)
Definition vv_lambda_volume (dim vsize : nat) (pts : list vvpt) (r : mat) : mat :=
  fold_left (fun r p =>
    let weight := vp_weight p * vp_ie p in
    loop vsize (fun i r => macc r 0 i (- dot dim (vp_f p) (vp_phi p i) * weight)) r) pts r.

(** ** Inner faces *)
Record vfpt := mkvf { vf_weight : R; vf_ie : R; vf_normal : vec; vf_phi_s : nat -> vec; vf_phi_n : nat -> vec; vf_psi_s : vec; vf_psi_n : vec;
  vf_lj_s : nat -> mat; vf_lj_n : nat -> mat; vf_geo_s : mat; vf_geo_n : mat; vf_mu : R }.

(** vv.hh 402-588: alpha_skeleton *)
Definition vv_alpha_skeleton (eps pen sc : R) (dim vsize psize : nat) (pts : list vfpt) (x_s x_n : mat) (r : mat * mat) : mat * mat :=
  fold_left (fun r p =>
    let val_p_s := eval_u psize (x_s 1%nat) (vf_psi_s p) in
    let val_p_n := eval_u psize (x_n 1%nat) (vf_psi_n p) in
    let jac_s := vv_jac dim (vf_geo_s p) (vf_lj_s p) in
    let jac_n := vv_jac dim (vf_geo_n p) (vf_lj_n p) in
    let u_s := eval_vec vsize (x_s 0%nat) (vf_phi_s p) in
    let u_n := eval_vec vsize (x_n 0%nat) (vf_phi_n p) in
    let jac_u_s := eval_mat vsize (x_s 0%nat) jac_s in
    let jac_u_n := eval_mat vsize (x_n 0%nat) jac_n in
    let normal := vf_normal p in
    let weight := vf_weight p * vf_ie p in
    let factor := vf_mu p * weight in
    let jump : vec := fun k => u_s k - u_n k in                                                            (* 518 *)
    let mean_p := (1/2) * (val_p_s + val_p_n) in
    let flux_jac_u : vec := fun k => add_flux dim jac_u_n normal (flux dim jac_u_s normal) k * (1/2) in    (* 524-527 *)
    let r := loop vsize (fun i r =>
      let r := racc_s r 0 i (- dot dim flux_jac_u (vf_phi_s p i) * factor) in
      let r := racc_s r 0 i (eps * (1/2) * dot dim (flux dim (jac_s i) normal) jump * factor) in
      let r := racc_s r 0 i (pen * dot dim jump (vf_phi_s p i) * factor) in
      racc_s r 0 i (mean_p * dot dim (vf_phi_s p i) normal * weight)) r in
    let r := loop vsize (fun i r =>
      let r := racc_n r 0 i (dot dim flux_jac_u (vf_phi_n p i) * factor) in
      let r := racc_n r 0 i (eps * (1/2) * dot dim (flux dim (jac_n i) normal) jump * factor) in
      let r := racc_n r 0 i (- pen * dot dim jump (vf_phi_n p i) * factor) in
      racc_n r 0 i (- mean_p * dot dim (vf_phi_n p i) normal * weight)) r in
    let r := loop psize (fun i r => racc_s r 1 i ((1/2) * vf_psi_s p i * dot dim jump normal * sc * weight)) r in
    loop psize (fun i r => racc_n r 1 i ((1/2) * vf_psi_n p i * dot dim jump normal * sc * weight)) r) pts r.

(** vv.hh 590-795: jacobian_skeleton *)
Definition vv_jacobian_skeleton (eps pen sc : R) (dim vsize psize : nat) (pts : list vfpt) (M : smats) : smats :=
  fold_left (fun M p =>
    let jac_s := vv_jac dim (vf_geo_s p) (vf_lj_s p) in
    let jac_n := vv_jac dim (vf_geo_n p) (vf_lj_n p) in
    let normal := vf_normal p in
    let weight := vf_weight p * vf_ie p in
    let factor := vf_mu p * weight in
    let M := loop vsize (fun i M =>
      let M := loop vsize (fun j M =>
        let M := acc_ss M 0 i 0 j (- (1/2) * dot dim (flux dim (jac_s j) normal) (vf_phi_s p i) * factor) in
        let M := acc_ss M 0 i 0 j (eps * (1/2) * dot dim (flux dim (jac_s i) normal) (vf_phi_s p j) * factor) in
        acc_ss M 0 i 0 j (pen * dot dim (vf_phi_s p j) (vf_phi_s p i) * factor)) M in
      let M := loop vsize (fun j M =>
        let M := acc_sn M 0 i 0 j (- (1/2) * dot dim (flux dim (jac_n j) normal) (vf_phi_s p i) * factor) in
        let M := acc_sn M 0 i 0 j (- eps * (1/2) * dot dim (flux dim (jac_s i) normal) (vf_phi_n p j) * factor) in
        acc_sn M 0 i 0 j (- pen * dot dim (vf_phi_n p j) (vf_phi_s p i) * factor)) M in
      let M := loop psize (fun j M => acc_ss M 0 i 1 j ((1/2) * vf_psi_s p j * dot dim (vf_phi_s p i) normal * weight)) M in
      loop psize (fun j M => acc_sn M 0 i 1 j ((1/2) * vf_psi_n p j * dot dim (vf_phi_s p i) normal * weight)) M) M in
    let M := loop vsize (fun i M =>
      let M := loop vsize (fun j M =>
        let M := acc_ns M 0 i 0 j ((1/2) * dot dim (flux dim (jac_s j) normal) (vf_phi_n p i) * factor) in
        let M := acc_ns M 0 i 0 j (eps * (1/2) * dot dim (flux dim (jac_n i) normal) (vf_phi_s p j) * factor) in
        acc_ns M 0 i 0 j (- pen * dot dim (vf_phi_s p j) (vf_phi_n p i) * factor)) M in
      let M := loop vsize (fun j M =>
        let M := acc_nn M 0 i 0 j ((1/2) * dot dim (flux dim (jac_n j) normal) (vf_phi_n p i) * factor) in
        let M := acc_nn M 0 i 0 j (- eps * (1/2) * dot dim (flux dim (jac_n i) normal) (vf_phi_n p j) * factor) in
        acc_nn M 0 i 0 j (pen * dot dim (vf_phi_n p j) (vf_phi_n p i) * factor)) M in
      let M := loop psize (fun j M => acc_ns M 0 i 1 j (- (1/2) * vf_psi_s p j * dot dim (vf_phi_n p i) normal * weight)) M in
      loop psize (fun j M => acc_nn M 0 i 1 j (- (1/2) * vf_psi_n p j * dot dim (vf_phi_n p i) normal * weight)) M) M in
    let M := loop psize (fun i M =>
      let M := loop vsize (fun j M => acc_ss M 1 i 0 j ((1/2) * vf_psi_s p i * dot dim (vf_phi_s p j) normal * sc * weight)) M in
      loop vsize (fun j M => acc_sn M 1 i 0 j (- (1/2) * vf_psi_s p i * dot dim (vf_phi_n p j) normal * sc * weight)) M) M in
    loop psize (fun i M =>
      let M := loop vsize (fun j M => acc_ns M 1 i 0 j ((1/2) * vf_psi_n p i * dot dim (vf_phi_s p j) normal * sc * weight)) M in
      loop vsize (fun j M => acc_nn M 1 i 0 j (- (1/2) * vf_psi_n p i * dot dim (vf_phi_n p j) normal * sc * weight)) M) M) pts M.

(** ** Boundary faces *)
Record vbpt := mkvb { vb_weight : R; vb_ie : R; vb_normal : vec; vb_phi : nat -> vec; vb_psi : vec; vb_lj : nat -> mat; vb_geo : mat; vb_mu : R;
  vb_bc : stokes_bc; vb_g : vec; vb_j : vec }.

(** vv.hh 797-939: alpha_boundary; the types other than VelocityDirichlet and StressNeumann contribute nothing *)
Definition vv_alpha_boundary (eps pen sc : R) (dim vsize psize : nat) (pts : list vbpt) (x : mat) (r : mat) : mat :=
  fold_left (fun r p =>
    let jac_phi := vv_jac dim (vb_geo p) (vb_lj p) in
    let val_p := eval_u psize (x 1%nat) (vb_psi p) in
    let val_u := eval_vec vsize (x 0%nat) (vb_phi p) in
    let jac_u := eval_mat vsize (x 0%nat) jac_phi in
    let normal := vb_normal p in
    let weight := vb_weight p * vb_ie p in
    let mu := vb_mu p in
    let r := if is_velocity (vb_bc p) then
      let jump : vec := fun k => val_u k - vb_g p k in
      let flux_jac_u := flux dim jac_u normal in
      let r := loop vsize (fun i r =>
        let r := macc r 0 i (- mu * dot dim flux_jac_u (vb_phi p i) * weight) in
        let r := macc r 0 i (mu * eps * dot dim (flux dim (jac_phi i) normal) jump * weight) in
        let r := macc r 0 i (mu * dot dim jump (vb_phi p i) * pen * weight) in
        macc r 0 i (val_p * dot dim (vb_phi p i) normal * weight)) r in
      loop psize (fun i r => macc r 1 i (vb_psi p i * dot dim jump normal * sc * weight)) r else r in
    if is_stress (vb_bc p) then loop vsize (fun i r => macc r 0 i (dot dim (vb_j p) (vb_phi p i) * weight)) r else r) pts r.

(** vv.hh 941-1061: jacobian_boundary *)
Definition vv_jacobian_boundary (eps pen sc : R) (dim vsize psize : nat) (pts : list vbpt) (M : tens) : tens :=
  fold_left (fun M p =>
    let jac_phi := vv_jac dim (vb_geo p) (vb_lj p) in
    let normal := vb_normal p in
    let weight := vb_weight p * vb_ie p in
    let mu := vb_mu p in
    if is_velocity (vb_bc p) then
      let M := loop vsize (fun i M =>
        let M := loop vsize (fun j M =>
          let M := tacc M 0 i 0 j (- mu * dot dim (flux dim (jac_phi j) normal) (vb_phi p i) * weight) in
          let M := tacc M 0 i 0 j (mu * eps * dot dim (flux dim (jac_phi i) normal) (vb_phi p j) * weight) in
          tacc M 0 i 0 j (mu * dot dim (vb_phi p j) (vb_phi p i) * pen * weight)) M in
        loop psize (fun j M => tacc M 0 i 1 j (vb_psi p j * dot dim (vb_phi p i) normal * weight)) M) M in
      loop psize (fun i M => loop vsize (fun j M => tacc M 1 i 0 j (vb_psi p i * dot dim (vb_phi p j) normal * sc * weight)) M) M
    else M) pts M.
