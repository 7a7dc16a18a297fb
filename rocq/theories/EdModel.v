(** Electrodynamics (localoperator/electrodynamic.hh with JacobianBasedAlphaVolume of localoperator/numericalresidual.hh), curls and cross products
    (common/jacobiantocurl.hh, common/crossproduct.hh), the Darcy velocity of a finite element solution (localoperator/darcyfem.hh) and the
    functional of a function (localoperator/l2volumefunctional.hh).
    Real arithmetic is exact; vectors, matrices, loops and accumulation are those of CdModel.v. *)
From Verif Require Import Common CdModel.
From Coq Require Import Reals.
Open Scope R_scope.

(** ** Curls *)
(** JacobianToCurl: a Jacobian has one row per component, one column per coordinate. jacobiantocurl.hh 56-72 (one component, two coordinates) *)
Definition curl12 (J : mat) : vec := fun i => match i with 0%nat => J 0%nat 1%nat | _ => - J 0%nat 0%nat end.
(** 98-114 (two components, two coordinates) *)
Definition curl22 (J : mat) : vec := fun _ => J 1%nat 0%nat - J 0%nat 1%nat.
(** 133-153 (three components, three coordinates) *)
Definition curl33 (J : mat) : vec := fun alpha =>
  let beta := ((alpha + 1) mod 3)%nat in let gamma := ((alpha + 2) mod 3)%nat in J gamma beta - J beta gamma.
(** electrodynamic.hh 36-44: dimOfCurl *)
Definition dim_of_curl (dimOfSpace : nat) : res nat :=
  match dimOfSpace with 1%nat => Ok 2%nat | 2%nat => Ok 1%nat | 3%nat => Ok 3%nat | _ => Throw end.
(** electrodynamic.hh 46-59: jacobianToCurl, overloaded for 2 and 3 space dimensions (dim_of_curl 2 = 1, dim_of_curl 3 = 3) *)
Definition jacobian_to_curl (dim : nat) (J : mat) : vec :=
  if (dim =? 2)%nat then fun _ => J 1%nat 0%nat - J 0%nat 1%nat
  else fun i => J ((i + 2) mod 3)%nat ((i + 1) mod 3)%nat - J ((i + 1) mod 3)%nat ((i + 2) mod 3)%nat.

(** ** Cross products: crossproduct.hh 53-72, 93-110, 133-150, 173-190 *)
Definition cross33 (B C : vec) : vec := fun i =>
  let j := ((i + 1) mod 3)%nat in let k := ((i + 2) mod 3)%nat in B j * C k - B k * C j.
Definition cross22 (B C : vec) : vec := fun _ => B 0%nat * C 1%nat - B 1%nat * C 0%nat.
Definition cross21 (B C : vec) : vec := fun i => match i with 0%nat => B 1%nat * C 0%nat | _ => - B 0%nat * C 0%nat end.
Definition cross12 (B C : vec) : vec := fun i => match i with 0%nat => - B 0%nat * C 1%nat | _ => B 0%nat * C 0%nat end.

(** ** The operators *)
(** What they read in a quadrature point: weight, integration element, epsilon or mu, the basis functions and their Jacobians *)
Record epoint := mkep { e_weight : R; e_ie : R; e_mat : R; e_phi : nat -> vec; e_J : nat -> mat }.
(** A view of weight w on the matrix, for a space whose n DOFs have the local indices off, off+1, ... (lfs.localIndex(i)) *)
Definition waccum (w : R) (off : nat) (m : mat) (i j : nat) (v : R) : mat := macc m (off + i) (off + j) (w * v).
(** Electrodynamic_T::jacobian_volume: electrodynamic.hh 102-137 *)
Definition ed_T_jacobian (dim n off : nat) (w : R) (pts : list epoint) (m : mat) : mat :=
  fold_left (fun m p =>
    let factor := e_weight p * e_ie p * e_mat p in
    loop n (fun i m => loop n (fun j m => waccum w off m i j (factor * dot dim (e_phi p i) (e_phi p j))) m) m) pts m.
(** Electrodynamic_S::jacobian_volume: 195-240; the curls have dimOfCurl components *)
Definition ed_S_jacobian (dim n off : nat) (w : R) (pts : list epoint) (m : mat) : mat :=
  let dcurl := match dim_of_curl dim with Ok k => k | _ => O end in
  fold_left (fun m p =>
    let rotphi := fun i => jacobian_to_curl dim (e_J p i) in
    let factor := e_weight p * e_ie p / e_mat p in
    loop n (fun i m => loop n (fun j m => waccum w off m i j (factor * dot dcurl (rotphi i) (rotphi j))) m) m) pts m.
(** LocalMatrix::usmv: gridoperator/common/localmatrix.hh 391-400 *)
Definition local_usmv (rows cols : nat) (alpha : R) (m : mat) (x y : vec) : vec :=
  loop rows (fun i y => loop cols (fun j (y : vec) => acc y i (alpha * m i j * x j)) y) y.
(** JacobianBasedAlphaVolume::alpha_volume: numericalresidual.hh 35-55: the containers r and x have the given sizes, r the weight w *)
Definition jacobian_based_alpha (rows cols : nat) (jacobian : R -> mat -> mat) (w : R) (x r : vec) : vec :=
  local_usmv rows cols w (jacobian 1 (fun _ _ => 0)) x r.
Definition ed_T_alpha (dim n off rows cols : nat) (w : R) (pts : list epoint) : vec -> vec -> vec :=
  jacobian_based_alpha rows cols (fun w m => ed_T_jacobian dim n off w pts m) w.
Definition ed_S_alpha (dim n off rows cols : nat) (w : R) (pts : list epoint) : vec -> vec -> vec :=
  jacobian_based_alpha rows cols (fun w m => ed_S_jacobian dim n off w pts m) w.

(** ** DarcyVelocityFromHeadFEM::evaluate: darcyfem.hh 80-119, for the coefficients x, JacobianInverseTransposed and shape function gradients in the
    point, and the permeability A in the center of the cell *)
Definition darcy_fem (d n : nat) (A_center : mat) (x : vec) (jac : mat) (js : nat -> vec) : vec :=
  let minusgrad := loop n (fun i (g : vec) => axpy g (- x i) (mv d jac (js i))) (fun _ => 0) in
  mv d A_center minusgrad.

(** ** L2VolumeFunctional::lambda_volume: l2volumefunctional.hh 50-84, with its rawAccumulate *)
Definition l2_lambda (n : nat) (w : R) (pts : list vpoint) (r : vec) : vec :=
  fold_left (fun r p =>
    let factor := w * v_weight p * v_ie p in
    loop n (fun i r => acc r i (v_f p * v_psi p i * factor)) r) pts r.
