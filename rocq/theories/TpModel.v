(** Two-phase flow in pressure-pressure formulation with two-point fluxes (localoperator/twophaseccfv.hh): TwoPhaseTwoPointFluxOperator,
    TwoPhaseOnePointTemporalOperator, the velocity fields V_l and V_g and the parameter interface.
    Numbers are real numbers. The absolute permeability is a number, as in TwoPhaseParameterTraits; the time is fixed. *)
From Verif Require Import Common CdModel.
From Coq Require Import Reals.
Open Scope R_scope.

(** What the operators ask the parameter class for a cell, at its center: porosity, volume, saturation of the liquid as a function of the capillary
    pressure, relative permeabilities, viscosities, molar and mass densities as functions of the pressure, absolute permeability, sources. *)
Record tpcell := mktp { tp_phi : R; tp_vol : R; tp_s : R -> R; tp_krl : R -> R; tp_krg : R -> R; tp_mul : R -> R; tp_mug : R -> R;
  tp_nul : R -> R; tp_nug : R -> R; tp_rhol : R -> R; tp_rhog : R -> R; tp_k : R; tp_ql : R; tp_qg : R }.
(** twophaseccfv.hh:67-237: TwoPhaseParameterInterface: every query goes to the implementation, mu_g (121-127) as written. *)
Definition interface (i : tpcell) : tpcell :=
  mktp (tp_phi i) (tp_vol i) (tp_s i) (tp_krl i) (tp_krg i) (tp_mul i) (tp_mul i) (tp_nul i) (tp_nug i) (tp_rhol i) (tp_rhog i) (tp_k i) (tp_ql i) (tp_qg i).

(** The two unknowns of a cell *)
Inductive phase := Liquid | Gas.
Definition phase_eqb (a b : phase) : bool := match a, b with Liquid, Liquid | Gas, Gas => true | _, _ => false end.
Definition state := nat -> phase -> R.
(** r.accumulate(lfsv, phase, v) for the cell c *)
Definition accp (r : state) (c : nat) (p : phase) (v : R) : state := fun c' p' => if ((c' =? c)%nat && phase_eqb p' p)%bool then r c' p' + v else r c' p'.

(** twophaseccfv.hh:516-520 *)
Definition aavg (a b : R) : R := / 2 * (a + b).
(** twophaseccfv.hh:522-527: eps = 1E-30 *)
Definition tp_eps : R := / 10 ^ 30.
Definition havg (a b : R) : R := 2 / (1 / (a + tp_eps) + 1 / (b + tp_eps)).

(** An interior face: the cells on both sides, distance of their centers, area, gravity times unit outer normal of the inside cell *)
Record tpface := mktf { tf_s : nat; tf_n : nat; tf_dist : R; tf_area : R; tf_gn : R }.
(** A boundary face: cell, distance of center and face center, area, gravity times normal, types of the conditions, Dirichlet and Neumann data *)
Record tpbound := mktb { tb_s : nat; tb_dist : R; tb_area : R; tb_gn : R; tb_bcl : nat; tb_bcg : nat; tb_gl : R; tb_gg : R; tb_jl : R; tb_jg : R }.

Section tp.
Variables (cells : nat -> tpcell) (scale_l scale_g : R).

(** twophaseccfv.hh:278-296: lambda_volume *)
Definition tp_lambda_volume (c : nat) (r : state) : state :=
  let r := accp r c Liquid (- scale_l * tp_ql (cells c) * tp_vol (cells c)) in
  accp r c Gas (- scale_g * tp_qg (cells c) * tp_vol (cells c)).

(** twophaseccfv.hh:298-401: alpha_skeleton *)
Definition tp_alpha_skeleton (x : state) (r : state) (F : tpface) : state :=
  let S := cells (tf_s F) in let N := cells (tf_n F) in
  let xs := x (tf_s F) in let xn := x (tf_n F) in
  let w_l := (xs Liquid - xn Liquid) / tf_dist F + aavg (tp_rhol S (xs Liquid)) (tp_rhol N (xn Liquid)) * tf_gn F in  (* 347-349 *)
  let nu_l := aavg (tp_nul S (xs Liquid)) (tp_nul N (xn Liquid)) in                                                  (* 351-352 *)
  let s_l := if Rle_dec 0 w_l then tp_s S (xs Gas - xs Liquid) else tp_s N (xn Gas - xn Liquid) in                   (* 353-362 *)
  let s_g := 1 - s_l in
  let lambda_s := tp_krl S s_l / tp_mul S (xs Liquid) in                                                             (* 364-368 *)
  let lambda_n := tp_krl N s_l / tp_mul N (xn Liquid) in
  let sigma := havg (lambda_s * tp_k S) (lambda_n * tp_k N) in
  let r := accp r (tf_s F) Liquid (scale_l * nu_l * sigma * w_l * tf_area F) in                                      (* 370-371 *)
  let r := accp r (tf_n F) Liquid (- scale_l * nu_l * sigma * w_l * tf_area F) in
  let w_g := (xs Gas - xn Gas) / tf_dist F + aavg (tp_rhog S (xs Gas)) (tp_rhog N (xn Gas)) * tf_gn F in             (* 374-376 *)
  let nu_g := aavg (tp_nug S (xs Gas)) (tp_nug N (xn Gas)) in
  let s_g := if Rle_dec (w_l * w_g) 0 then                                                                           (* 379-392 *)
               1 - (if Rle_dec 0 w_g then tp_s S (xs Gas - xs Liquid) else tp_s N (xn Gas - xn Liquid))
             else s_g in
  let lambda_s := tp_krg S s_g / tp_mug S (xs Gas) in                                                                (* 393-397 *)
  let lambda_n := tp_krg N s_g / tp_mug N (xn Gas) in
  let sigma := havg (lambda_s * tp_k S) (lambda_n * tp_k N) in
  let r := accp r (tf_s F) Gas (scale_g * nu_g * sigma * w_g * tf_area F) in                                         (* 399-400 *)
  accp r (tf_n F) Gas (- scale_g * nu_g * sigma * w_g * tf_area F).

(** twophaseccfv.hh:403-471: alpha_boundary; the gas phase is scaled with scale_l (line 469) *)
Definition tp_alpha_boundary (x : state) (r : state) (F : tpbound) : state :=
  let S := cells (tb_s F) in let xs := x (tb_s F) in
  if (negb (tb_bcl F =? 1)%nat && negb (tb_bcg F =? 1)%nat)%bool then r else
  let r := if (tb_bcl F =? 1)%nat then
      let w := (xs Liquid - tb_gl F) / tb_dist F + tp_rhol S (xs Liquid) * tb_gn F in
      let s := tp_s S (xs Gas - xs Liquid) in
      let sigma := tp_krl S s / tp_mul S (xs Liquid) * tp_k S in
      accp r (tb_s F) Liquid (scale_l * tp_nul S (xs Liquid) * sigma * w * tb_area F)
    else r in
  if (tb_bcg F =? 1)%nat then
      let w := (xs Gas - tb_gg F) / tb_dist F + tp_rhog S (xs Gas) * tb_gn F in
      let s := tp_s S (xs Gas - xs Liquid) in
      let sigma := tp_krg S (1 - s) / tp_mug S (xs Gas) * tp_k S in
      accp r (tb_s F) Gas (scale_l * tp_nug S (xs Gas) * sigma * w * tb_area F)
  else r.

(** twophaseccfv.hh:473-503: lambda_boundary *)
Definition tp_lambda_boundary (r : state) (F : tpbound) : state :=
  if (negb (tb_bcl F =? 0)%nat && negb (tb_bcg F =? 0)%nat)%bool then r else
  let r := if (tb_bcl F =? 0)%nat then accp r (tb_s F) Liquid (scale_l * tb_jl F * tb_area F) else r in
  if (tb_bcg F =? 0)%nat then accp r (tb_s F) Gas (scale_g * tb_jg F * tb_area F) else r.

(** twophaseccfv.hh:569-589: TwoPhaseOnePointTemporalOperator::alpha_volume *)
Definition tp_storage (x : state) (c : nat) (r : state) : state :=
  let C := cells c in
  let s := tp_s C (x c Gas - x c Liquid) in
  let r := accp r c Liquid (scale_l * tp_phi C * s * tp_nul C (x c Liquid) * tp_vol C) in
  accp r c Gas (scale_g * tp_phi C * (1 - s) * tp_nug C (x c Gas) * tp_vol C).

(** The residual of the spatial operator on a mesh with the cells 0, ..., n - 1. The assembler visits every interior face once (doSkeletonTwoSided
    is not set) and every boundary face once; contributions are added, so their order does not matter. *)
Definition tp_residual (n : nat) (inner : list tpface) (bound : list tpbound) (x : state) : state :=
  let r := loop n tp_lambda_volume (fun _ _ => 0) in
  let r := fold_left (tp_alpha_skeleton x) inner r in
  let r := fold_left (tp_alpha_boundary x) bound r in
  fold_left tp_lambda_boundary bound r.
Definition tp_mass (n : nat) (x : state) : state := loop n (tp_storage x) (fun _ _ => 0).
End tp.

(** ** The velocity fields V_l and V_g *)
(** What an intersection of a cell is: a neighbour, or the boundary; for a processor boundary neither. *)
Inductive tpside := Neighbour (F : tpface) | AtBoundary (F : tpbound) | AtProcessor.

(** twophaseccfv.hh:680-777: the normal velocity V_l::evaluate computes for an intersection; nu_l_outside is evaluated at the gas pressure (717) *)
Definition vl_normal (cells : nat -> tpcell) (x : state) (i : tpside) : R :=
  match i with
  | Neighbour F =>
      let S := cells (tf_s F) in let N := cells (tf_n F) in
      let xs := x (tf_s F) in let xn := x (tf_n F) in
      let nu_out := tp_nul N (xn Gas) in
      let w := (xs Liquid - xn Liquid) / tf_dist F + aavg (tp_rhol S (xs Liquid)) (tp_rhol N (xn Liquid)) * tf_gn F in
      let s := if Rle_dec 0 w then tp_s S (xs Gas - xs Liquid) else tp_s N (xn Gas - xn Liquid) in
      let sigma := havg (tp_krl S s / tp_mul S (xs Liquid) * tp_k S) (tp_krl N s / tp_mul N (xn Liquid) * tp_k N) in
      aavg (tp_nul S (xs Liquid)) nu_out * sigma * w
  | AtBoundary F =>
      let S := cells (tb_s F) in let xs := x (tb_s F) in
      if (tb_bcl F =? 1)%nat then
        let w := (xs Liquid - tb_gl F) / tb_dist F + tp_rhol S (xs Liquid) * tb_gn F in
        let s := tp_s S (xs Gas - xs Liquid) in
        tp_nul S (xs Liquid) * (tp_krl S s / tp_mul S (xs Liquid) * tp_k S) * w
      else if (tb_bcl F =? 0)%nat then tb_jl F else 0
  | AtProcessor => 0
  end.
(** twophaseccfv.hh:915-1014: V_g::evaluate; rho_g_outside is evaluated in the inside cell (956) *)
Definition vg_normal (cells : nat -> tpcell) (x : state) (i : tpside) : R :=
  match i with
  | Neighbour F =>
      let S := cells (tf_s F) in let N := cells (tf_n F) in
      let xs := x (tf_s F) in let xn := x (tf_n F) in
      let w := (xs Gas - xn Gas) / tf_dist F + aavg (tp_rhog S (xs Gas)) (tp_rhog S (xn Gas)) * tf_gn F in
      let s := if Rle_dec 0 w then tp_s S (xs Gas - xs Liquid) else tp_s N (xn Gas - xn Liquid) in
      let sg := 1 - s in
      let sigma := havg (tp_krg S sg / tp_mug S (xs Gas) * tp_k S) (tp_krg N sg / tp_mug N (xn Gas) * tp_k N) in
      aavg (tp_nug S (xs Gas)) (tp_nug N (xn Gas)) * sigma * w
  | AtBoundary F =>
      let S := cells (tb_s F) in let xs := x (tb_s F) in
      if (tb_bcg F =? 1)%nat then
        let w := (xs Gas - tb_gg F) / tb_dist F + tp_rhog S (xs Gas) * tb_gn F in
        let s := tp_s S (xs Gas - xs Liquid) in
        tp_nug S (xs Gas) * (tp_krg S (1 - s) / tp_mug S (xs Gas) * tp_k S) * w
      else if (tb_bcg F =? 0)%nat then tb_jg F else 0
  | AtProcessor => 0
  end.

(** The Raviart-Thomas basis of lowest order on the cube [0,1]^dim (RaviartThomasCubeLocalFiniteElement, dune-localfunctions): function i belongs to the
    face i, has the component i/2 only, and is x_k - 1 for even i, x_k for odd i *)
Definition rt0 (i : nat) (x : vec) : vec := fun k => if (k =? i / 2)%nat then (if Nat.even i then x k - 1 else x k) else 0.
(** twophaseccfv.hh:782-786: the outer normal of face i of the reference cube *)
Definition normalhat (i : nat) : vec := fun k => if (k =? i / 2)%nat then (if Nat.even i then -1 else 1) else 0.
(** twophaseccfv.hh:779-804, 1016-1041: the field on the cell from the normal velocities vn of its 2 dim faces. B is jacobianInverseTransposed, Binv what invert() makes of it, detB
    its determinant; normal the unit outer normals of the faces. Simplification: every face of the cell is one intersection. *)
Definition rt0_coeff (dim : nat) (B : mat) (detB : R) (normal : nat -> vec) (vn : nat -> R) (i : nat) : R :=
  let vstar : vec := fun k => normal i k * vn i in
  let vstarhat : vec := fun k => dot dim (fun l => B l k) vstar * detB in
  dot dim vstarhat (normalhat i).
Definition rt0_field (dim : nat) (B Binv : mat) (detB : R) (normal : nat -> vec) (vn : nat -> R) (x : vec) : vec :=
  let yhat : vec := loop (2 * dim) (fun i (y : vec) k => y k + rt0_coeff dim B detB normal vn i * rt0 i x k) (fun _ => 0) in
  fun k => dot dim (fun l => Binv l k) yhat / detB.
