(** The discontinuous Galerkin discretization of the Navier-Stokes equations: localoperator/dgnavierstokes.hh, dgnavierstokesparameter.hh,
    dginteriorpenaltyparameter.hh. Numbers are real numbers; local vectors are functions of the component (velocities 0, ..., dim - 1,
    pressure dim) and the index inside it, as in FlowModel. Simplifications: all velocity components have vsize basis functions (as the
    code assumes), and the two sides of a face have equally many (asserted in 440, 457, 650). *)
From Verif Require Import Common CdModel WaveModel FlowModel.
From Coq Require Import Reals.
Open Scope R_scope.

(** ** Parameters *)
(** dgnavierstokesparameter.hh:107-112: incompressibilityScaling; dt is the step given to preStep, or 1 before (dgnavierstokes.hh:73-83) *)
Definition incompressibility_scaling (dt : R) : R := 1 / dt.
(** dginteriorpenaltyparameter.hh:31-45: DefaultInteriorPenalty::getFaceIP for inner faces and boundary faces *)
Definition default_ip (sigma face_volume inside_volume outside_volume : R) : R := sigma * face_volume / Rmin inside_volume outside_volume.
Definition default_ip_boundary (sigma face_volume inside_volume : R) : R := sigma * face_volume / inside_volume.

(** ** Cells; the data of a quadrature point are those of the Taylor-Hood operator *)
(** dgnavierstokes.hh:94-221: alpha_volume *)
Definition dgns_alpha_volume (navier full : bool) (sc : R) (dim vsize psize : nat) (pts : list flpt) (x : mat) (r : mat) : mat :=
  fold_left (fun r p =>
    let vu : vec := if navier then (fun d => eval_u vsize (x d) (fl_phi p)) else (fun _ => 0) in  (* 133, 146-155 *)
    let p_h := eval_u psize (x dim) (fl_psi p) in                                              (* 161-163 *)
    let grad_phi := fun i => mv dim (fl_jac p) (fl_js p i) in                                  (* 166-167 *)
    let jacu : mat := fun d => eval_grad vsize (x d) grad_phi in                               (* 170-175 *)
    let weight := fl_weight p * fl_ie p in                                                     (* 177-178 *)
    let r := loop dim (fun d r => loop vsize (fun i r =>
      let r := macc r d i (fl_mu p * dot dim (jacu d) (grad_phi i) * weight) in                (* 187 *)
      let r := if full then loop dim (fun dd r => macc r d i (fl_mu p * jacu dd d * grad_phi i dd * weight)) r else r in  (* 190-192 *)
      let r := macc r d i (- p_h * grad_phi i d * weight) in                                   (* 197 *)
      if navier then
        let u_nabla_u := dot dim vu (jacu d) in                                                (* 204 *)
        macc r d i (fl_rho p * u_nabla_u * fl_phi p i * weight)                                (* 206 *)
      else r) r) r in
    loop psize (fun i r => loop dim (fun d r => macc r dim i (- jacu d d * fl_psi p i * sc * weight)) r) r) pts r.  (* 215-218 *)

(** dgnavierstokes.hh:226-356: jacobian_volume *)
Definition dgns_jacobian_volume (navier full : bool) (sc : R) (dim vsize psize : nat) (pts : list flpt) (x : mat) (M : tens) : tens :=
  fold_left (fun M p =>
    let vu : vec := if navier then (fun d => eval_u vsize (x d) (fl_phi p)) else (fun _ => 0) in
    let grad_phi := fun i => mv dim (fl_jac p) (fl_js p i) in
    let weight := fl_weight p * fl_ie p in
    loop dim (fun dv M =>
      let gradu_dv : vec := if navier then eval_grad vsize (x dv) grad_phi else (fun _ => 0) in
      loop vsize (fun i M =>
        let M := loop vsize (fun j M =>
          let M := tacc M dv i dv j (fl_mu p * dot dim (grad_phi j) (grad_phi i) * weight) in
          if full then loop dim (fun du M => tacc M dv i du j (fl_mu p * (grad_phi j dv * grad_phi i du) * weight)) M else M) M in
        let M := loop psize (fun j M =>
          let M := tacc M dim j dv i (- fl_psi p j * grad_phi i dv * sc * weight) in
          tacc M dv i dim j (- fl_psi p j * grad_phi i dv * weight)) M in
        if navier then
          let M := loop vsize (fun j M => tacc M dv i dv j (fl_rho p * dot dim vu (grad_phi j) * fl_phi p i * weight)) M in
          loop dim (fun du M => loop vsize (fun j M => tacc M dv i du j (fl_rho p * fl_phi p j * gradu_dv du * fl_phi p i * weight)) M) M
        else M) M) M) pts M.

(** dgnavierstokes.hh:1147-1226: lambda_volume; the source of mass is not scaled (1222) *)
Definition dgns_lambda_volume (dim vsize psize : nat) (pts : list flpt) (r : mat) : mat :=
  fold_left (fun r p =>
    let factor := fl_weight p * fl_ie p in
    let r := loop dim (fun d r => loop vsize (fun i r => let val := fl_phi p i * factor in macc r d i (- fl_f p d * val)) r) r in
    loop psize (fun i r => macc r dim i (fl_g2 p * fl_psi p i * factor)) r) pts r.

(** ** Inner faces *)
(** A quadrature point: weight, integration element, unit outer normal of the inside cell, basis values of velocity and pressure, reference
    gradients of the velocity basis and inverse transposed Jacobians on the inside (s) and outside (n) cell, viscosity *)
Record nfpt := mknf { nf_weight : R; nf_ie : R; nf_normal : vec; nf_phi_s : vec; nf_phi_n : vec; nf_psi_s : vec; nf_psi_n : vec;
  nf_js_s : nat -> vec; nf_js_n : nat -> vec; nf_jac_s : mat; nf_jac_n : mat; nf_mu : R }.
(** accumulate on r_s and r_n *)
Definition racc_s (r : mat * mat) (d i : nat) (v : R) : mat * mat := (macc (fst r) d i v, snd r).
Definition racc_n (r : mat * mat) (d i : nat) (v : R) : mat * mat := (fst r, macc (snd r) d i v).

(** dgnavierstokes.hh:361-554: alpha_skeleton *)
Definition dgns_alpha_skeleton (full : bool) (eps pen sc : R) (dim vsize psize : nat) (pts : list nfpt) (x_s x_n : mat) (r : mat * mat) : mat * mat :=
  fold_left (fun r p =>
    let u_s : vec := fun d => eval_u vsize (x_s d) (nf_phi_s p) in                             (* 441-450 *)
    let u_n : vec := fun d => eval_u vsize (x_n d) (nf_phi_n p) in
    let p_s := eval_u psize (x_s dim) (nf_psi_s p) in                                          (* 458-462 *)
    let p_n := eval_u psize (x_n dim) (nf_psi_n p) in
    let grad_s := fun i => mv dim (nf_jac_s p) (nf_js_s p i) in                                (* 465-469 *)
    let grad_n := fun i => mv dim (nf_jac_n p) (nf_js_n p i) in
    let jacu_s : mat := fun d => eval_grad vsize (x_s d) grad_s in                             (* 472-481 *)
    let jacu_n : mat := fun d => eval_grad vsize (x_n d) grad_n in
    let normal := nf_normal p in
    let weight := nf_weight p * nf_ie p in
    let factor := nf_mu p * weight in
    let r := loop dim (fun d r =>
      let val := (1/2) * (dot dim (jacu_s d) normal + dot dim (jacu_n d) normal) * factor in     (* 496 *)
      let r := loop vsize (fun i r =>
        let r := racc_s r d i (- val * nf_phi_s p i) in
        let r := racc_n r d i (val * nf_phi_n p i) in
        if full then loop dim (fun dd r =>
          let Tval := (1/2) * (jacu_s dd d + jacu_n dd d) * normal dd * factor in                (* 503 *)
          let r := racc_s r d i (- Tval * nf_phi_s p i) in
          racc_n r d i (Tval * nf_phi_n p i)) r else r) r in
      let jumpu_d := u_s d - u_n d in                                                          (* 513 *)
      let r := loop vsize (fun i r =>
        let r := racc_s r d i (eps * (1/2) * dot dim (grad_s i) normal * jumpu_d * factor) in
        let r := racc_n r d i (eps * (1/2) * dot dim (grad_n i) normal * jumpu_d * factor) in
        if full then loop dim (fun dd r =>
          let r := racc_s r d i (eps * (1/2) * grad_s i dd * (u_s dd - u_n dd) * normal d * factor) in
          racc_n r d i (eps * (1/2) * grad_n i dd * (u_s dd - u_n dd) * normal d * factor)) r else r) r in
      let r := loop vsize (fun i r =>
        let r := racc_s r d i (pen * jumpu_d * nf_phi_s p i * factor) in                       (* 530 *)
        racc_n r d i (- pen * jumpu_d * nf_phi_n p i * factor)) r in
      let mean_p := (1/2) * (p_s + p_n) in                                                       (* 537 *)
      loop vsize (fun i r =>
        let r := racc_s r d i (mean_p * nf_phi_s p i * normal d * weight) in
        racc_n r d i (- mean_p * nf_phi_n p i * normal d * weight)) r) r in
    let jumpu_n := dot dim u_s normal - dot dim u_n normal in                                  (* 547 *)
    loop psize (fun i r =>
      let r := racc_s r dim i ((1/2) * nf_psi_s p i * jumpu_n * sc * weight) in
      racc_n r dim i ((1/2) * nf_psi_n p i * jumpu_n * sc * weight)) r) pts r.

(** The four local matrices of a face: rows (test functions) and columns (ansatz functions) inside or outside *)
Record smats := mksm { m_ss : tens; m_sn : tens; m_ns : tens; m_nn : tens }.
Definition acc_ss (M : smats) a b c d v := mksm (tacc (m_ss M) a b c d v) (m_sn M) (m_ns M) (m_nn M).
Definition acc_sn (M : smats) a b c d v := mksm (m_ss M) (tacc (m_sn M) a b c d v) (m_ns M) (m_nn M).
Definition acc_ns (M : smats) a b c d v := mksm (m_ss M) (m_sn M) (tacc (m_ns M) a b c d v) (m_nn M).
Definition acc_nn (M : smats) a b c d v := mksm (m_ss M) (m_sn M) (m_ns M) (tacc (m_nn M) a b c d v).

(** dgnavierstokes.hh:559-766: jacobian_skeleton *)
Definition dgns_jacobian_skeleton (full : bool) (eps pen sc : R) (dim vsize psize : nat) (pts : list nfpt) (M : smats) : smats :=
  fold_left (fun M p =>
    let grad_s := fun i => mv dim (nf_jac_s p) (nf_js_s p i) in
    let grad_n := fun i => mv dim (nf_jac_n p) (nf_js_n p i) in
    let normal := nf_normal p in
    let weight := nf_weight p * nf_ie p in
    let factor := nf_mu p * weight in
    loop dim (fun d M => loop vsize (fun i M =>
      let M := loop vsize (fun j M =>
        let val := ((1/2) * dot dim (grad_s i) normal * nf_phi_s p j) * factor in
        let M := acc_ss M d j d i (- val) in
        let M := acc_ss M d i d j (eps * val) in
        let M := acc_ss M d i d j (nf_phi_s p i * nf_phi_s p j * pen * factor) in
        if full then loop dim (fun dd M =>
          let Tval := ((1/2) * (grad_s i d * normal dd) * nf_phi_s p j) * factor in
          let M := acc_ss M d j dd i (- Tval) in
          acc_ss M dd i d j (eps * Tval)) M else M) M in
      let M := loop vsize (fun j M =>
        let val := (- (1/2) * dot dim (grad_s i) normal * nf_phi_n p j) * factor in
        let M := acc_ns M d j d i (- val) in
        let M := acc_sn M d i d j (eps * val) in
        let M := acc_ns M d j d i (- nf_phi_s p i * nf_phi_n p j * pen * factor) in
        if full then loop dim (fun dd M =>
          let Tval := (- (1/2) * (grad_s i d * normal dd) * nf_phi_n p j) * factor in
          let M := acc_ns M d j dd i (- Tval) in
          acc_sn M dd i d j (eps * Tval)) M else M) M in
      let M := loop vsize (fun j M =>
        let val := ((1/2) * dot dim (grad_n i) normal * nf_phi_s p j) * factor in
        let M := acc_sn M d j d i (- val) in
        let M := acc_ns M d i d j (eps * val) in
        let M := acc_sn M d j d i (- nf_phi_n p i * nf_phi_s p j * pen * factor) in
        if full then loop dim (fun dd M =>
          let Tval := ((1/2) * (grad_n i d * normal dd) * nf_phi_s p j) * factor in
          let M := acc_sn M d j dd i (- Tval) in
          acc_ns M dd i d j (eps * Tval)) M else M) M in
      let M := loop vsize (fun j M =>
        let val := (- (1/2) * dot dim (grad_n i) normal * nf_phi_n p j) * factor in
        let M := acc_nn M d j d i (- val) in
        let M := acc_nn M d i d j (eps * val) in
        let M := acc_nn M d j d i (nf_phi_n p i * nf_phi_n p j * pen * factor) in
        if full then loop dim (fun dd M =>
          let Tval := (- (1/2) * (grad_n i d * normal dd) * nf_phi_n p j) * factor in
          let M := acc_nn M d j dd i (- Tval) in
          acc_nn M dd i d j (eps * Tval)) M else M) M in
      let M := loop psize (fun j M =>
        let val := (1/2) * (nf_psi_s p j * normal d * nf_phi_s p i) * weight in
        let M := acc_ss M d i dim j val in
        acc_ss M dim j d i (val * sc)) M in
      let M := loop psize (fun j M =>
        let val := (1/2) * (nf_psi_n p j * normal d * nf_phi_s p i) * weight in
        let M := acc_sn M d i dim j val in
        acc_ns M dim j d i (val * sc)) M in
      let M := loop psize (fun j M =>
        let val := - (1/2) * (nf_psi_s p j * normal d * nf_phi_n p i) * weight in
        let M := acc_ns M d i dim j val in
        acc_sn M dim j d i (val * sc)) M in
      loop psize (fun j M =>
        let val := - (1/2) * (nf_psi_n p j * normal d * nf_phi_n p i) * weight in
        let M := acc_nn M d i dim j val in
        acc_nn M dim j d i (val * sc)) M) M) M) pts M.

(** ** Boundary faces *)
(** A quadrature point: weight, integration element, normal, velocity and pressure basis, reference gradients, inverse transposed Jacobian,
    viscosity, type of the boundary condition, slip (what boundarySlip returns; 1 when the parameters do not enable it), velocity, stress *)
Record dbpt := mkdb { db_weight : R; db_ie : R; db_normal : vec; db_phi : vec; db_psi : vec; db_js : nat -> vec; db_jac : mat; db_mu : R;
  db_bc : stokes_bc; db_slip : R; db_g : vec; db_j : vec }.
Definition is_velocity (b : stokes_bc) : bool := match b with VelocityDirichlet => true | _ => false end.
Definition is_slip (b : stokes_bc) : bool := match b with SlipVelocity => true | _ => false end.
Definition is_stress (b : stokes_bc) : bool := match b with StressNeumann => true | _ => false end.
(** dgnavierstokes.hh:869-876, 1029-1036: slip_factor *)
Definition slip_factor (p : dbpt) : R := if is_slip (db_bc p) then db_slip p else 0.

(** dgnavierstokes.hh:770-950: alpha_boundary *)
Definition dgns_alpha_boundary (full : bool) (eps pen sc : R) (dim vsize psize : nat) (pts : list dbpt) (x : mat) (r : mat) : mat :=
  fold_left (fun r p =>
    let u : vec := fun d => eval_u vsize (x d) (db_phi p) in
    let p_h := eval_u psize (x dim) (db_psi p) in
    let grad_phi := fun i => mv dim (db_jac p) (db_js p i) in
    let jacu : mat := fun d => eval_grad vsize (x d) grad_phi in
    let normal := db_normal p in
    let weight := db_weight p * db_ie p in
    let mu := db_mu p in
    let r := if is_velocity (db_bc p) || is_slip (db_bc p) then
      let factor := weight * (1 - slip_factor p) in
      let r := loop dim (fun d r =>
        let val := dot dim (jacu d) normal * factor * mu in
        loop vsize (fun i r =>
          let r := macc r d i (- val * db_phi p i) in
          let r := macc r d i (eps * mu * dot dim (grad_phi i) normal * u d * factor) in
          let r := if full then loop dim (fun dd r =>
            let r := macc r d i (- mu * jacu dd d * normal dd * db_phi p i * factor) in
            macc r d i (eps * mu * grad_phi i dd * u dd * normal d * factor)) r else r in
          let r := macc r d i (u d * db_phi p i * mu * pen * factor) in
          macc r d i (p_h * db_phi p i * normal d * weight)) r) r in
      loop psize (fun i r => macc r dim i (db_psi p i * dot dim u normal * sc * weight)) r
    else r in
    if is_slip (db_bc p) then
      let factor := weight * slip_factor p in
      let ten_sum := if full then 2 else 1 in
      loop dim (fun d r => loop vsize (fun i r =>
        let r := loop dim (fun dd r => macc r d i (- ten_sum * mu * dot dim (jacu dd) normal * normal dd * db_phi p i * normal d * factor)) r in
        let r := macc r d i (eps * ten_sum * mu * dot dim u normal * dot dim (grad_phi i) normal * normal d * factor) in
        macc r d i (mu * pen * dot dim u normal * db_phi p i * normal d * factor)) r) r
    else r) pts r.

(** dgnavierstokes.hh:955-1142: jacobian_boundary *)
Definition dgns_jacobian_boundary (full : bool) (eps pen sc : R) (dim vsize psize : nat) (pts : list dbpt) (M : tens) : tens :=
  fold_left (fun M p =>
    let grad_phi := fun i => mv dim (db_jac p) (db_js p i) in
    let normal := db_normal p in
    let weight := db_weight p * db_ie p in
    let mu := db_mu p in
    let M := if is_velocity (db_bc p) || is_slip (db_bc p) then
      let factor := weight * (1 - slip_factor p) in
      loop dim (fun d M => loop vsize (fun i M =>
        let M := loop vsize (fun j M =>
          let val := (dot dim (grad_phi j) normal * db_phi p i) * factor * mu in
          let M := tacc M d i d j (- val) in
          let M := tacc M d j d i (eps * val) in
          let M := if full then loop dim (fun dd M =>
            let Tval := ((grad_phi j d * normal dd) * db_phi p i) * factor * mu in
            let M := tacc M d i dd j (- Tval) in
            tacc M dd j d i (eps * Tval)) M else M in
          tacc M d j d i (db_phi p i * db_phi p j * mu * pen * factor)) M in
        loop psize (fun j M =>
          let M := tacc M dim j d i ((db_psi p j * normal d * db_phi p i) * weight * sc) in
          tacc M d i dim j ((db_psi p j * normal d * db_phi p i) * weight)) M) M) M
    else M in
    if is_slip (db_bc p) then
      let factor := weight * slip_factor p in
      let M := loop vsize (fun i M => loop vsize (fun j M =>
        let ten_sum := if full then 2 else 1 in
        let val := ten_sum * (dot dim (grad_phi j) normal * db_phi p i) * factor * mu in
        loop dim (fun d M => loop dim (fun dd M =>
          let M := tacc M dd i d j (- val * normal d * normal dd) in
          tacc M d j dd i (eps * val * normal d * normal dd)) M) M) M) M in
      let p_factor := mu * pen * factor in
      loop vsize (fun i M => loop vsize (fun j M =>
        let val := db_phi p i * db_phi p j * p_factor in
        loop dim (fun d M => loop dim (fun dd M => tacc M d j dd i (val * normal d * normal dd)) M) M) M) M
    else M) pts M.

(** dgnavierstokes.hh:1231-1362: lambda_boundary *)
Definition dgns_lambda_boundary (full : bool) (eps pen sc : R) (dim vsize psize : nat) (pts : list dbpt) (r : mat) : mat :=
  fold_left (fun r p =>
    let grad_phi := fun i => mv dim (db_jac p) (db_js p i) in
    let normal := db_normal p in
    let weight := db_weight p * db_ie p in
    let r := if is_velocity (db_bc p) then
      let u0 := db_g p in
      let factor := db_mu p * weight in
      let r := loop dim (fun d r => loop vsize (fun i r =>
        let r := macc r d i (- eps * dot dim (grad_phi i) normal * factor * u0 d) in
        let r := if full then loop dim (fun dd r =>
          let Tval := (grad_phi i d * normal dd) * factor in
          macc r dd i (- eps * Tval * u0 d)) r else r in
        macc r d i (- db_phi p i * pen * u0 d * factor)) r) r in
      loop psize (fun i r => let val := db_psi p i * dot dim u0 normal * weight in macc r dim i (- val * sc)) r
    else r in
    if is_stress (db_bc p) then
      loop dim (fun d r => loop vsize (fun i r => macc r d i (db_j p d * db_phi p i * weight)) r) r
    else r) pts r.
