(** Local operators with several components: Taylor-Hood discretization of the Navier-Stokes equations (localoperator/taylorhoodnavierstokes.hh,
    stokesparameter.hh), mass operators (localoperator/navierstokesmass.hh, l2.hh, blockdiagonal.hh), linear elasticity (localoperator/linearelasticity.hh),
    mixed diffusion (localoperator/diffusionmixed.hh) and the nonlinear convection-diffusion equation (localoperator/nonlinearconvectiondiffusionfem.hh).
    Numbers are real numbers. A local vector with several components is a function of the component and the index inside it; the components
    of a velocity are 0, ..., dim - 1 and the pressure is the component dim. *)
From Verif Require Import Common CdModel WaveModel.
From Coq Require Import Reals.
Open Scope R_scope.

(** A local matrix: rows (component, test function), columns (component, ansatz function) *)
Definition tens := nat -> nat -> nat -> nat -> R.

(** ** Taylor-Hood *)
(** What alpha_volume, lambda_volume and jacobian_volume read at a quadrature point: weight, integration element, velocity and pressure basis
    values, reference gradients of the velocity basis, inverse transposed Jacobian, viscosity, density, force, source of mass. *)
Record flpt := mkfl { fl_weight : R; fl_ie : R; fl_phi : vec; fl_psi : vec; fl_js : nat -> vec; fl_jac : mat; fl_mu : R; fl_rho : R; fl_f : vec; fl_g2 : R }.

(** taylorhoodnavierstokes.hh:91-220: alpha_volume. Simplification: all components of the velocity have vsize basis functions (a power space). *)
Definition th_alpha_volume (navier full : bool) (dim vsize psize : nat) (pts : list flpt) (x : mat) (r : mat) : mat :=
  fold_left (fun r p =>
    let gradphi := fun i => mv dim (fl_jac p) (fl_js p i) in                                   (* 141-147 *)
    let vu : vec := if navier then (fun d => eval_u vsize (x d) (fl_phi p)) else (fun _ => 0) in  (* 152-164 *)
    let jacu : mat := fun d => eval_grad vsize (x d) gradphi in                                (* 166-172 *)
    let func_p := eval_u psize (x dim) (fl_psi p) in                                           (* 174-177 *)
    let factor := fl_weight p * fl_ie p in                                                     (* 184 *)
    let r := loop dim (fun d r =>
      let u_nabla_u := dot dim vu (jacu d) in                                                  (* 191 *)
      loop vsize (fun i r =>
        let r := macc r d i (fl_mu p * dot dim (jacu d) (gradphi i) * factor) in               (* 196 *)
        let r := if full then loop dim (fun dd r => macc r d i (fl_mu p * (jacu dd d * gradphi i dd) * factor)) r else r in  (* 199-201 *)
        let r := macc r d i (- (func_p * gradphi i d) * factor) in                             (* 204 *)
        if navier then macc r d i (fl_rho p * u_nabla_u * fl_phi p i * factor) else r) r) r in (* 207-208 *)
    loop psize (fun i r => loop dim (fun d r => macc r dim i (-1 * jacu d d * fl_psi p i * factor)) r) r) pts r.  (* 214-217 *)

(** taylorhoodnavierstokes.hh:223-295: lambda_volume *)
Definition th_lambda_volume (dim vsize psize : nat) (pts : list flpt) (r : mat) : mat :=
  fold_left (fun r p =>
    let factor := fl_weight p * fl_ie p in
    let r := loop dim (fun d r => loop vsize (fun i r => macc r d i (- fl_f p d * fl_phi p i * factor)) r) r in
    loop psize (fun i r => macc r dim i (fl_g2 p * fl_psi p i * factor)) r) pts r.

(** stokesparameter.hh:StokesBoundaryCondition: the four types of boundary conditions *)
Inductive stokes_bc := DoNothing | VelocityDirichlet | StressNeumann | SlipVelocity.
(** What lambda_boundary reads at a quadrature point: weight, integration element, velocity basis values, type of the boundary condition, stress *)
Record flbp := mkflb { fb_weight : R; fb_ie : R; fb_phi : vec; fb_bc : stokes_bc; fb_j : vec }.
Definition is_neumann (b : stokes_bc) : bool := match b with StressNeumann => true | _ => false end.
(** taylorhoodnavierstokes.hh:298-365: lambda_boundary *)
Definition th_lambda_boundary (dim vsize : nat) (pts : list flbp) (r : mat) : mat :=
  fold_left (fun r p =>
    if negb (is_neumann (fb_bc p)) then r else
    let factor := fb_weight p * fb_ie p in
    loop dim (fun d r => loop vsize (fun i r => macc r d i (fb_j p d * fb_phi p i * factor)) r) r) pts r.

(** taylorhoodnavierstokes.hh:368-501: jacobian_volume *)
Definition th_jacobian_volume (navier full : bool) (dim vsize psize : nat) (pts : list flpt) (x : mat) (M : tens) : tens :=
  fold_left (fun M p =>
    let gradphi := fun i => mv dim (fl_jac p) (fl_js p i) in                                   (* 419-425 *)
    let vu : vec := if navier then (fun d => eval_u vsize (x d) (fl_phi p)) else (fun _ => 0) in  (* 430-440 *)
    let factor := fl_weight p * fl_ie p in
    loop dim (fun d M =>
      let gradu_d : vec := if navier then eval_grad vsize (x d) gradphi else (fun _ => 0) in   (* 454-457 *)
      let M := loop vsize (fun i M =>
        let M := loop vsize (fun j M =>
          let M := tacc M d i d j (fl_mu p * dot dim (gradphi i) (gradphi j) * factor) in      (* 463 *)
          if full then loop dim (fun dd M => tacc M d i dd j (fl_mu p * (gradphi j d * gradphi i dd) * factor)) M else M) M in  (* 466-470 *)
        let M := loop psize (fun j M => tacc M d i dim j (- (gradphi i d * fl_psi p j) * factor)) M in  (* 475-476 *)
        if navier then
          let M := loop dim (fun k M => let pre_factor := factor * fl_rho p * gradu_d k * fl_phi p i in
            loop vsize (fun j M => tacc M d i k j (pre_factor * fl_phi p j)) M) M in           (* 479-486 *)
          let pre_factor := factor * fl_rho p * fl_phi p i in
          loop vsize (fun j M => tacc M d i d j (pre_factor * dot dim vu (gradphi j))) M       (* 488-490 *)
        else M) M in
      loop psize (fun i M => loop vsize (fun j M => tacc M dim i d j (- (gradphi j d * fl_psi p i) * factor)) M) M) M) pts M.  (* 495-498 *)

(** ** Mass operators *)
(** What a scalar mass operator reads at a quadrature point: weight, integration element, basis values, density *)
Record mspt := mkms { ms_weight : R; ms_ie : R; ms_phi : vec; ms_rho : R }.
(** navierstokesmass.hh:72-120: scalar_alpha_volume for the component d with n basis functions *)
Definition scalar_mass (d n : nat) (pts : list mspt) (x : mat) (r : mat) : mat :=
  fold_left (fun r p =>
    let u := eval_u n (x d) (ms_phi p) in
    let factor := ms_weight p * ms_rho p * ms_ie p in
    loop n (fun i r => macc r d i (u * ms_phi p i * factor)) r) pts r.
(** navierstokesmass.hh:122-164: scalar_jacobian_volume *)
Definition scalar_mass_jacobian (d n : nat) (pts : list mspt) (M : tens) : tens :=
  fold_left (fun M p =>
    let factor := ms_weight p * ms_rho p * ms_ie p in
    loop n (fun j M => loop n (fun i M => tacc M d i d j (ms_phi p j * ms_phi p i * factor)) M) M) pts M.
(** navierstokesmass.hh:46-69: one scalar operator for each of the k children of the velocity space. Every child d has n d basis functions
    and its own quadrature rule. *)
Definition ns_mass (k : nat) (n : nat -> nat) (pts : nat -> list mspt) (x : mat) (r : mat) : mat :=
  loop k (fun d r => scalar_mass d (n d) (pts d) x r) r.
Definition ns_mass_jacobian (k : nat) (n : nat -> nat) (pts : nat -> list mspt) (M : tens) : tens :=
  loop k (fun d M => scalar_mass_jacobian d (n d) (pts d) M) M.

(** l2.hh:44-127: impl::ScalarL2 with its factor scaling * weight * integrationElement *)
Definition scalar_l2 (scaling : R) (d n : nat) (pts : list mspt) (x : mat) (r : mat) : mat :=
  fold_left (fun r p =>
    let u := eval_u n (x d) (ms_phi p) in
    let factor := scaling * ms_weight p * ms_ie p in
    loop n (fun i r => macc r d i (u * ms_phi p i * factor)) r) pts r.
Definition scalar_l2_jacobian (scaling : R) (d n : nat) (pts : list mspt) (M : tens) : tens :=
  fold_left (fun M p =>
    let factor := scaling * ms_weight p * ms_ie p in
    loop n (fun j M => loop n (fun i M => tacc M d i d j (ms_phi p j * ms_phi p i * factor)) M) M) pts M.
(** blockdiagonal.hh:22-49, 103-137, l2.hh:149-168: the scalar operator is applied to the pairs of leaves of the trees of ansatz and test
    spaces. Simplification: the leaves are numbered in the order of the traversal. *)
Definition l2_alpha_volume (scaling : R) (leaves : nat) (n : nat -> nat) (pts : nat -> list mspt) (x : mat) (r : mat) : mat :=
  loop leaves (fun d r => scalar_l2 scaling d (n d) (pts d) x r) r.
Definition l2_jacobian_apply_volume := l2_alpha_volume.
Definition l2_jacobian_volume (scaling : R) (leaves : nat) (n : nat -> nat) (pts : nat -> list mspt) (M : tens) : tens :=
  loop leaves (fun d M => scalar_l2_jacobian scaling d (n d) (pts d) M) M.

(** What NavierStokesVelVecMass reads: weight, integration element, vector valued basis functions, density *)
Record vmpt := mkvm { vm_weight : R; vm_ie : R; vm_phi : nat -> vec; vm_rho : R }.
(** navierstokesmass.hh:195-246 *)
Definition velvec_mass (dim n : nat) (pts : list vmpt) (x : vec) (r : vec) : vec :=
  fold_left (fun r p =>
    let u := eval_grad n x (vm_phi p) in                                                       (* u.axpy(x_i, phi_i) *)
    let factor := vm_weight p * vm_rho p * vm_ie p in
    loop n (fun i r => acc r i (dot dim u (vm_phi p i) * factor)) r) pts r.
(** navierstokesmass.hh:248-294 *)
Definition velvec_mass_jacobian (dim n : nat) (pts : list vmpt) (m : mat) : mat :=
  fold_left (fun m p =>
    let factor := vm_weight p * vm_rho p * vm_ie p in
    loop n (fun i m => loop n (fun j m => macc m i j (dot dim (vm_phi p j) (vm_phi p i) * factor)) m) m) pts m.

(** ** Linear elasticity *)
(** What the operator reads at a quadrature point: weight, integration element, basis values, reference gradients, inverse transposed Jacobian,
    the two Lame parameters, force *)
Record elpt := mkel { el_weight : R; el_ie : R; el_phi : vec; el_js : nat -> vec; el_jac : mat; el_mu : R; el_lambda : R; el_f : vec }.
(** linearelasticity.hh:135-218: alpha_volume *)
Definition el_alpha_volume (dim n : nat) (pts : list elpt) (x : mat) (r : mat) : mat :=
  fold_left (fun r p =>
    let gradphi := fun i => mv dim (el_jac p) (el_js p i) in
    let factor := el_weight p * el_ie p in
    loop dim (fun d r =>
      let gradu := eval_grad n (x d) gradphi in                                                (* 190-195 *)
      loop n (fun i r => loop dim (fun k r =>
        let r := macc r d i (el_mu p * gradu k * gradphi i k * factor) in                      (* 202-205 *)
        let r := macc r k i (el_mu p * gradu k * gradphi i d * factor) in                      (* 206-209 *)
        macc r k i (el_lambda p * gradu d * gradphi i k * factor)) r) r) r) pts r.             (* 211-213 *)
(** linearelasticity.hh:58-133: jacobian_volume *)
Definition el_jacobian_volume (dim n : nat) (pts : list elpt) (M : tens) : tens :=
  fold_left (fun M p =>
    let gradphi := fun i => mv dim (el_jac p) (el_js p i) in
    let factor := el_weight p * el_ie p in
    loop dim (fun d M => loop n (fun i M => loop dim (fun k M => loop n (fun j M =>
      let M := tacc M k j k i (el_mu p * gradphi i d * gradphi j d * factor) in                (* 116-119 *)
      let M := tacc M k j d i (el_mu p * gradphi i k * gradphi j d * factor) in                (* 120-123 *)
      tacc M k j d i (el_lambda p * gradphi i d * gradphi j k * factor)) M) M) M) M) pts M.    (* 125-127 *)
(** linearelasticity.hh:220-266: lambda_volume *)
Definition el_lambda_volume (dim n : nat) (pts : list elpt) (r : mat) : mat :=
  fold_left (fun r p =>
    let factor := el_weight p * el_ie p in
    loop dim (fun d r => loop n (fun i r => macc r d i (- el_f p d * el_phi p i * factor)) r) r) pts r.
(** What lambda_boundary reads: weight, integration element, basis values, Dirichlet or not *)
Record elbp := mkelb { eb_weight : R; eb_ie : R; eb_phi : vec; eb_dirichlet : bool }.
(** linearelasticity.hh:268-324: lambda_boundary; y stays zero (308-310) *)
Definition el_lambda_boundary (dim n : nat) (pts : list elbp) (r : mat) : mat :=
  fold_left (fun r p =>
    if eb_dirichlet p then r else
    let y : vec := fun _ => 0 in
    let factor := eb_weight p * eb_ie p in
    loop dim (fun d r => loop n (fun i r => macc r d i (y d * eb_phi p i * factor)) r) r) pts r.

(** ** Mixed diffusion *)
(** The velocity is the component 0, the pressure the component 1. What the cell gives: the Jacobian J of its (linear) map, the
    integration element, the inverse of the diffusion tensor at the center. Simplification: invert() returns the exact inverse, so that jac,
    the inverse of the inverse transposed Jacobian (98-99), is the transposed Jacobian. *)
Record mxcell := mkmxc { mx_J : mat; mx_det : R; mx_Kinv : mat }.
Definition mx_jac (C : mxcell) : mat := fun k l => mx_J C l k.
(** FieldMatrix::umtv on a zero vector: y = A^T x *)
Definition mtv (d : nat) (A : mat) (x : vec) : vec := fun k => dot d (fun l => A l k) x.
(** points of the rule for the velocity: weight, reference basis *)
Record mxvp := mkmxv { mxv_weight : R; mxv_basis : nat -> vec }.
(** points of the rule for the pressure: weight, integration element, reference Jacobians of the velocity basis, pressure basis, reaction coefficient, source *)
Record mxpp := mkmxp { mxp_weight : R; mxp_ie : R; mxp_vjac : nat -> mat; mxp_basis : vec; mxp_c : R; mxp_f : R }.
(** diffusionmixed.hh:168-173: the divergence of a velocity basis function on the reference cell *)
Definition ref_divergence (dim : nat) (vjac : mat) : R := loop dim (fun j s => s + vjac j j) 0.
(** diffusionmixed.hh:63-188: alpha_volume *)
Definition mx_alpha_volume (dim nv np : nat) (C : mxcell) (vpts : list mxvp) (ppts : list mxpp) (x : mat) (r : mat) : mat :=
  let r := fold_left (fun r p =>
    let vtransformed := fun i => mtv dim (mx_jac C) (mxv_basis p i) in                         (* 126-130 *)
    let sigma := eval_grad nv (x 0%nat) vtransformed in                                        (* 133-135 *)
    let Kinvsigma := mv dim (mx_Kinv C) sigma in                                               (* 138 *)
    let factor := mxv_weight p / mx_det C in                                                   (* 141 *)
    loop nv (fun i r => macc r 0 i (dot dim Kinvsigma (vtransformed i) * factor)) r) vpts r in (* 142-143 *)
  fold_left (fun r p =>
    let u := eval_u np (x 1%nat) (mxp_basis p) in                                              (* 155-158 *)
    let factor := mxp_weight p in                                                              (* 164 *)
    let r := loop np (fun i r => macc r 1 i (- mxp_c p * u * mxp_basis p i * factor)) r in     (* 165-166 *)
    let divergence : vec := fun i => ref_divergence dim (mxp_vjac p i) in                      (* 169-173 *)
    let r := loop nv (fun i r => macc r 0 i (- u * divergence i * factor)) r in                (* 176-177 *)
    let divergencesigma := eval_u nv (x 0%nat) divergence in                                   (* 180-182 *)
    loop np (fun i r => macc r 1 i (- divergencesigma * mxp_basis p i * factor)) r) ppts r.    (* 185-186 *)
(** diffusionmixed.hh:190-226: lambda_volume *)
Definition mx_lambda_volume (np : nat) (ppts : list mxpp) (r : mat) : mat :=
  fold_left (fun r p =>
    let factor := mxp_weight p * mxp_ie p in
    loop np (fun i r => macc r 1 i (mxp_f p * mxp_basis p i * factor)) r) ppts r.
(** points of a boundary face: weight, integration element of the face, reference basis, Neumann or not, boundary value, unit outer normal *)
Record mxbp := mkmxb { mxb_weight : R; mxb_ie : R; mxb_basis : nat -> vec; mxb_neumann : bool; mxb_g : R; mxb_normal : vec }.
(** diffusionmixed.hh:228-299: lambda_boundary *)
Definition mx_lambda_boundary (dim nv : nat) (C : mxcell) (pts : list mxbp) (r : mat) : mat :=
  fold_left (fun r p =>
    if mxb_neumann p then r else
    let vtransformed := fun i => mtv dim (mx_jac C) (mxb_basis p i) in
    let factor := mxb_weight p * mxb_ie p / mx_det C in
    loop nv (fun i r => macc r 0 i (mxb_g p * dot dim (vtransformed i) (mxb_normal p) * factor)) r) pts r.

(** ** Nonlinear convection and diffusion *)
(** What alpha_volume reads at a quadrature point: weight, integration element, basis, reference gradients, inverse transposed Jacobian, and the
    parameter functions of this point as functions of the unknown: source, flux, scalar nonlinearity of the diffusion coefficient *)
Record nlpt := mknl { nl_weight : R; nl_ie : R; nl_phi : vec; nl_js : nat -> vec; nl_jac : mat; nl_f : R -> R; nl_q : R -> vec; nl_v : R -> R }.
(** nonlinearconvectiondiffusionfem.hh:245-330: alpha_volume; D and w are the tensor and the nonlinearity at the cell center *)
Definition nl_alpha_volume (dim n : nat) (D : mat) (w : R -> R) (pts : list nlpt) (x : vec) (r : vec) : vec :=
  let wx : vec := fun i => w (x i) in                                                          (* 273-275 *)
  fold_left (fun r p =>
    let u := eval_u n wx (nl_phi p) in                                                         (* 294-296 *)
    let f := nl_f p u in
    let q := nl_q p u in
    let gradphi := fun i => mv dim (nl_jac p) (nl_js p i) in
    let vgradu : vec := fun k => eval_grad n wx gradphi k * nl_v p u in                        (* 316-319 *)
    let Dvgradu := mv dim D vgradu in                                                          (* 322-323 *)
    let factor := nl_weight p * nl_ie p in
    loop n (fun i r => acc r i ((dot dim Dvgradu (gradphi i) - dot dim q (gradphi i) - f * nl_phi p i) * factor)) r) pts r.  (* 327-328 *)
(** points of a boundary face: weight, integration element, basis, Dirichlet or not, flux as a function of the unknown *)
Record nlbp := mknlb { nb_weight : R; nb_ie : R; nb_phi : vec; nb_dirichlet : bool; nb_j : R -> R }.
(** nonlinearconvectiondiffusionfem.hh:332-392: alpha_boundary; w is the nonlinearity at the center of the face *)
Definition nl_alpha_boundary (n : nat) (w : R -> R) (pts : list nlbp) (x : vec) (r : vec) : vec :=
  let wx : vec := fun i => w (x i) in
  fold_left (fun r p =>
    if nb_dirichlet p then r else
    let u := eval_u n wx (nb_phi p) in
    let j := nb_j p u in
    let factor := nb_weight p * nb_ie p in
    loop n (fun i r => acc r i (j * nb_phi p i * factor)) r) pts r.
