(** Discontinuous Galerkin operators for linear wave equations: acoustics and Maxwell.
    localoperator/linearacousticsdg.hh, localoperator/maxwelldg.hh

    Simplifications: exact arithmetic; evaluation caches return what the basis returns (property C70); the number of components is the one
    the classes demand (a static or dynamic check); FieldMatrix::solve and FieldMatrix::invert are parameters, the theorems state what is
    asked of them. *)
From Verif Require Import Common CdModel.
From Coq Require Import Reals.
Open Scope R_scope.

(** FieldMatrix::umv *)
Definition umv (m : nat) (A : mat) (u f : vec) : vec := fun i => f i + dot m (A i) u.
(** FieldMatrix::rightmultiply *)
Definition mmul (m : nat) (A B : mat) : mat := fun i j => dot m (A i) (fun k => B k j).

(** ** Eigenvectors *)

(** LinearAcousticsEigenvectors<3>: linearacousticsdg.hh 105-110 and 126-131: the first tangential vector *)
Definition tangent (n : vec) : vec :=
  let s := fun k => match k with 0 => n 1%nat - n 2%nat | 1 => n 2%nat - n 0%nat | _ => n 0%nat - n 1%nat end in
  if Rlt_dec (sqrt (dot 3 s s)) (/ 10 ^ 5)
  then fun k => match k with 0 => n 1%nat + n 2%nat | 1 => n 2%nat - n 0%nat | _ => - (n 0%nat + n 1%nat) end
  else s.
(** 112-115, 133-136: cross product *)
Definition cross (n s : vec) : vec :=
  fun k => match k with
           | 0 => n 1%nat * s 2%nat - n 2%nat * s 1%nat
           | 1 => n 2%nat * s 0%nat - n 0%nat * s 2%nat
           | _ => n 0%nat * s 1%nat - n 1%nat * s 0%nat
           end.
(** eigenvectors_transposed: 44-48 (dim 1), 73-78 (dim 2), 103-121 (dim 3) *)
Definition eigenvectors_transposed (dim : nat) (c : R) (n : vec) : mat :=
  match dim with
  | 1 => fun i j => match i, j with 0, 0 => 1 | 0, _ => c * n 0%nat | _, 0 => -1 | _, _ => c * n 0%nat end
  | 2 => fun i j =>
      match i, j with
      | 0, 0 => 0 | 0, 1 => - n 1%nat | 0, _ => n 0%nat
      | 1, 0 => 1 | 1, 1 => c * n 0%nat | 1, _ => c * n 1%nat
      | _, 0 => -1 | _, 1 => c * n 0%nat | _, _ => c * n 1%nat
      end
  | _ => fun i j =>
      let s := tangent n in
      let t := cross n s in
      match i, j with
      | 0, 0 => 0 | 0, S j => s j
      | 1, 0 => 0 | 1, S j => t j
      | 2, 0 => 1 | 2, S j => c * n j
      | _, 0 => -1 | _, S j => c * n j
      end
  end.
(** eigenvectors: 51-55, 81-86, 124-142 *)
Definition eigenvectors (dim : nat) (c : R) (n : vec) : mat :=
  match dim with
  | 1 => fun i j => match i, j with 0, 0 => 1 | _, 0 => c * n 0%nat | 0, _ => -1 | _, _ => c * n 0%nat end
  | 2 => fun i j =>
      match i, j with
      | 0, 0 => 0 | 1, 0 => - n 1%nat | _, 0 => n 0%nat
      | 0, 1 => 1 | 1, 1 => c * n 0%nat | _, 1 => c * n 1%nat
      | 0, _ => -1 | 1, _ => c * n 0%nat | _, _ => c * n 1%nat
      end
  | _ => fun i j =>
      let s := tangent n in
      let t := cross n s in
      match i, j with
      | 0, 0 => 0 | S i, 0 => s i
      | 0, 1 => 0 | S i, 1 => t i
      | 0, 2 => 1 | S i, 2 => c * n i
      | 0, _ => -1 | S i, _ => c * n i
      end
  end.
Definition unit_vector (k : nat) : vec := fun i => if (i =? k)%nat then 1 else 0.
(** 315-327: outgoing waves *)
Definition acoustics_plus (solve : nat -> mat -> vec -> vec) (dim : nat) (c : R) (n : vec) : mat :=
  let RT := eigenvectors_transposed dim c n in
  let alpha := RT (dim - 1)%nat in
  let beta := solve (dim + 1)%nat RT (unit_vector (dim - 1)) in
  fun i j => c * alpha i * beta j.
(** 329-338: incoming waves *)
Definition acoustics_minus (solve : nat -> mat -> vec -> vec) (dim : nat) (c : R) (n : vec) : mat :=
  let RT := eigenvectors_transposed dim c n in
  let alpha := RT dim in
  let beta := solve (dim + 1)%nat RT (unit_vector dim) in
  fun i j => - c * alpha i * beta j.

(** MaxwellEigenvectors<3>::eigenvectors: maxwelldg.hh 77-128 *)
Definition maxwell_re (n : vec) : vec :=
  let '(a, b, c) := (n 0%nat, n 1%nat, n 2%nat) in
  if Rlt_dec (Rabs c) (5 / 10)
  then fun k => match k with 0 => a * c | 1 => b * c | _ => c * c - 1 end
  else fun k => match k with 0 => a * b | 1 => b * b - 1 | _ => b * c end.
Definition maxwell_im (n : vec) : vec :=
  let '(a, b, c) := (n 0%nat, n 1%nat, n 2%nat) in
  if Rlt_dec (Rabs c) (5 / 10)
  then fun k => match k with 0 => - b | 1 => a | _ => 0 end
  else fun k => match k with 0 => c | 1 => 0 | _ => - a end.
Definition maxwell_eigenvectors (eps mu : R) (n : vec) : mat :=
  let re := maxwell_re n in
  let im := maxwell_im n in
  let upper := fun i j => match j with 0 => re i | 1 => - im i | 2 => im i | 3 => re i | 4 => n i | _ => 0 end in
  let lower := fun i j => match j with 0 => im i | 1 => re i | 2 => re i | 3 => - im i | 4 => 0 | _ => n i end in
  fun i j => if (i <? 3)%nat then upper i j * sqrt eps else lower (i - 3)%nat j * sqrt mu.
(** 504-513 and 625-634 *)
Definition maxwell_plus (invert : nat -> mat -> mat) (eps mu : R) (n : vec) : mat :=
  let R_s := maxwell_eigenvectors eps mu n in
  let Dplus : mat := fun i j => if ((i =? j) && (i <? 2))%nat then 1 / sqrt (eps * mu) else 0 in
  mmul 6 (mmul 6 R_s Dplus) (invert 6%nat R_s).
(** 515-524 and 636-645 *)
Definition maxwell_minus (invert : nat -> mat -> mat) (eps mu : R) (n : vec) : mat :=
  let R_n := maxwell_eigenvectors eps mu n in
  let Dminus : mat := fun i j => if ((i =? j) && (2 <=? i) && (i <? 4))%nat then -1 / sqrt (eps * mu) else 0 in
  mmul 6 (mmul 6 R_n Dminus) (invert 6%nat R_n).

(** ** The operators *)

(** A quadrature point of a cell: weight, integration element, values and reference gradients of the basis, JacobianInverseTransposed,
    right hand side (q or j) *)
Record wpoint := mkwp { w_weight : R; w_ie : R; w_phi : vec; w_js : nat -> vec; w_jac : mat; w_q : vec }.
(** A quadrature point of a face: weight, integration element, values of the two bases, boundary state as a function of the inner one *)
Record wfpoint := mkwfp { wf_weight : R; wf_ie : R; wf_phi_s : vec; wf_phi_n : vec; wf_g : vec -> vec }.

(** evaluation of the state: for all components, for all basis functions *)
Definition eval_state (n : nat) (x : mat) (phi : vec) : vec := fun k => loop n (fun j u => u + x k j * phi j) 0.

(** DGLinearAcousticsSpatialOperator::alpha_volume: linearacousticsdg.hh 195-266; component i, basis function k *)
Definition acoustics_alpha_volume (dim n : nat) (c : R) (pts : list wpoint) (x r : mat) : mat :=
  fold_left (fun r p =>
    let c2 := c * c in
    let u := eval_state n x (w_phi p) in
    let gradphi := fun i => mv dim (w_jac p) (w_js p i) in
    let factor := w_weight p * w_ie p in
    loop n (fun k r =>
      let r := loop dim (fun j r => macc r 0 k (- u (j + 1)%nat * gradphi k j * factor)) r in
      loop dim (fun i r => macc r (i + 1) k (- c2 * u 0%nat * gradphi k i * factor)) r) r) pts r.
(** DGMaxwellSpatialOperator::alpha_volume: maxwelldg.hh 421-426: the flux, *)
Definition maxwell_flux (muinv epsinv : R) (u : vec) : mat :=
  fun i j =>
    match i, j with
    | 0, 1 => - muinv * u 5%nat | 0, 2 => muinv * u 4%nat
    | 1, 0 => muinv * u 5%nat | 1, 2 => - muinv * u 3%nat
    | 2, 0 => - muinv * u 4%nat | 2, 1 => muinv * u 3%nat
    | 3, 1 => epsinv * u 2%nat | 3, 2 => - epsinv * u 1%nat
    | 4, 0 => - epsinv * u 2%nat | 4, 2 => epsinv * u 0%nat
    | 5, 0 => epsinv * u 1%nat | 5, 1 => - epsinv * u 0%nat
    | _, _ => 0
    end.
(** 349-446 *)
Definition maxwell_alpha_volume (n : nat) (eps mu sigma : R) (pts : list wpoint) (x r : mat) : mat :=
  fold_left (fun r p =>
    let muinv := 1 / mu in
    let epsinv := 1 / eps in
    let u := eval_state n x (w_phi p) in
    let gradphi := fun i => mv 3 (w_jac p) (w_js p i) in
    let factor := w_weight p * w_ie p in
    let F := maxwell_flux muinv epsinv u in
    let r := loop 6 (fun i r => loop n (fun k r => loop 3 (fun j r => macc r i k (- F i j * gradphi k j * factor)) r) r) r in
    loop 3 (fun i r => loop n (fun k r => macc r i k (sigma / eps * u i * w_phi p k * factor)) r) r) pts r.

(** alpha_skeleton with the matrices A+ and A-: linearacousticsdg.hh 340-384, maxwelldg.hh 526-573; m components *)
Definition wave_alpha_skeleton (m ns nn : nat) (Aplus Aminus : mat) (pts : list wfpoint) (x_s x_n : mat) (r : mat * mat) : mat * mat :=
  fold_left (fun '(r_s, r_n) p =>
    let u_s := eval_state ns x_s (wf_phi_s p) in
    let u_n := eval_state nn x_n (wf_phi_n p) in
    let f := umv m Aminus u_n (umv m Aplus u_s (fun _ => 0)) in
    let factor := wf_weight p * wf_ie p in
    let r_s := loop ns (fun k r => loop m (fun i r => macc r i k (f i * wf_phi_s p k * factor)) r) r_s in
    let r_n := loop nn (fun k r => loop m (fun i r => macc r i k (- f i * wf_phi_n p k * factor)) r) r_n in
    (r_s, r_n)) pts r.
(** alpha_boundary: linearacousticsdg.hh 456-491, maxwelldg.hh 647-690 *)
Definition wave_alpha_boundary (m ns : nat) (Aplus Aminus : mat) (pts : list wfpoint) (x_s r : mat) : mat :=
  fold_left (fun r p =>
    let u_s := eval_state ns x_s (wf_phi_s p) in
    let u_n := wf_g p u_s in
    let f := umv m Aminus u_n (umv m Aplus u_s (fun _ => 0)) in
    let factor := wf_weight p * wf_ie p in
    loop ns (fun k r => loop m (fun i r => macc r i k (f i * wf_phi_s p k * factor)) r) r) pts r.
(** lambda_volume: linearacousticsdg.hh 503-534, maxwelldg.hh 699-730 *)
Definition wave_lambda_volume (m n : nat) (pts : list wpoint) (r : mat) : mat :=
  fold_left (fun r p =>
    let factor := w_weight p * w_ie p in
    loop m (fun k r => loop n (fun i r => macc r k i (- w_q p k * w_phi p i * factor)) r) r) pts r.

(** DGLinearAcousticsSpatialOperator::alpha_skeleton 273-394, alpha_boundary 397-499 *)
Definition acoustics_alpha_skeleton (solve : nat -> mat -> vec -> vec) (dim ns nn : nat) (c_s c_n : R) (normal : vec) :=
  wave_alpha_skeleton (dim + 1) ns nn (acoustics_plus solve dim c_s normal) (acoustics_minus solve dim c_n normal).
Definition acoustics_alpha_boundary (solve : nat -> mat -> vec -> vec) (dim ns : nat) (c_s : R) (normal : vec) :=
  wave_alpha_boundary (dim + 1) ns (acoustics_plus solve dim c_s normal) (acoustics_minus solve dim c_s normal).
(** DGMaxwellSpatialOperator::alpha_skeleton 451-583, alpha_boundary 588-695 *)
Definition maxwell_alpha_skeleton (invert : nat -> mat -> mat) (ns nn : nat) (eps_s mu_s eps_n mu_n : R) (normal : vec) :=
  wave_alpha_skeleton 6 ns nn (maxwell_plus invert eps_s mu_s normal) (maxwell_minus invert eps_n mu_n normal).
Definition maxwell_alpha_boundary (invert : nat -> mat -> mat) (ns : nat) (eps_s mu_s : R) (normal : vec) :=
  wave_alpha_boundary 6 ns (maxwell_plus invert eps_s mu_s normal) (maxwell_minus invert eps_s mu_s normal).

(** ** The temporal operators: linearacousticsdg.hh 601-688, maxwelldg.hh 802-889 *)
(** pattern_volume: test component, test function, ansatz component, ansatz function *)
Definition wave_pattern_volume (m n : nat) : list (nat * nat * (nat * nat)) :=
  flat_map (fun k => flat_map (fun i => map (fun j => ((k, i), (k, j))) (seq 0 n)) (seq 0 n)) (seq 0 m).
Definition wave_mass_volume (m n : nat) (pts : list wpoint) (x r : mat) : mat :=
  fold_left (fun r p =>
    let u := eval_state n x (w_phi p) in
    let factor := w_weight p * w_ie p in
    loop m (fun k r => loop n (fun i r => macc r k i (u k * w_phi p i * factor)) r) r) pts r.
(** jacobian_volume; the matrix has rows (component, test function) and columns (component, ansatz function) *)
Definition tacc (M : nat -> nat -> nat -> nat -> R) (k i l j : nat) (v : R) : nat -> nat -> nat -> nat -> R :=
  fun k' i' l' j' => if ((k' =? k) && (i' =? i) && (l' =? l) && (j' =? j))%nat then M k' i' l' j' + v else M k' i' l' j'.
Definition wave_mass_jacobian (m n : nat) (pts : list wpoint) (M : nat -> nat -> nat -> nat -> R) : nat -> nat -> nat -> nat -> R :=
  fold_left (fun M p =>
    let factor := w_weight p * w_ie p in
    loop m (fun k M => loop n (fun i M => loop n (fun j M => tacc M k i k j (w_phi p j * w_phi p i * factor)) M) M) M) pts M.
