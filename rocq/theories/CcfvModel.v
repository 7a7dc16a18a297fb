(** Model of the cell-centred finite volume operators (dune/pdelab/localoperator/convectiondiffusionccfv.hh).

    Real arithmetic is exact.  A cell is named by its unique index, an intersection by the cell it is seen from and the
    [face] record of DriverModel.v.  The geometry and the parameter class are arbitrary functions.  The space has one
    DOF per cell, numbered like the cells. *)
From Verif Require Export NumModel EngineSpec.
Local Open Scope R_scope.

(** The geometric quantities the operator asks for: dimension, volume and centre of a cell, and of an intersection seen
    from a cell its area (integrationElement at the centre times the reference volume), centre and unit outer normal. *)
Record fvgeo := mkfvgeo {
  gdim : nat; volume : nat -> R; center : nat -> vec;
  area : nat -> face -> R; fcenter : nat -> face -> vec; normal : nat -> face -> vec }.

(** ConvectionDiffusionBoundaryConditions::Type: convectiondiffusionparameter.hh 111-115. *)
Inductive bctype := BDirichlet | BNeumann | BOutflow | BNone.
(** The parameter class: tensor, reaction, source and capacity at a cell centre, velocity and Dirichlet value at the
    centre of a face (evaluated in the inside cell), boundary condition type, Neumann and outflow data.  The first
    argument is the time passed to setTime. *)
Record fvparam := mkfvparam {
  pA : R -> nat -> mat; pc : R -> nat -> R; pf : R -> nat -> R; pd : R -> nat -> R;
  pb : R -> nat -> face -> vec; pg : R -> nat -> face -> R;
  pbc : R -> nat -> face -> bctype; pj : R -> nat -> face -> R; po : R -> nat -> face -> R }.

(** FieldVector's scalar product and two_norm of a difference. *)
Definition dotp (d : nat) (u v : vec) : R := nsum d (fun i => u i * v i).
Definition distance (d : nat) (u v : vec) : R := sqrt (dotp d (fun i => u i - v i) (fun i => u i - v i)).
(** 1E-30 *)
Definition tiny : R := / 10 ^ 30.
(** A local function that has one entry. *)
Definition single (v : R) : vec := fun i => match i with O => v | _ => 0 end.
Definition msingle (v : R) : mat := fun i j => match i, j with O, O => v | _, _ => 0 end.

Section Ccfv.
  Variables (Q : fvgeo) (P : fvparam).

  (** n_F*(A n_F): 154-158 (and 240-244, 340-343). *)
  Definition permeability (t : R) (c : nat) (n : vec) : R := dotp (gdim Q) n (mv (gdim Q) (pA P t c) n).
  (** k_avg: 159, 245. *)
  Definition k_avg (t : R) (c : nat) (f : face) : R :=
    let n := normal Q c f in
    2 / (1 / (permeability t c n + tiny) + 1 / (permeability t (outside f) n + tiny)).
  (** vn: 163-164, 249-250. *)
  Definition vn (t : R) (c : nat) (f : face) : R := dotp (gdim Q) (pb P t c f) (normal Q c f).
  (** distance between the cell centres: 169-174, 253-258; between cell and face centre: 333-336, 417-420. *)
  Definition cell_distance (c : nat) (f : face) : R := distance (gdim Q) (center Q c) (center Q (outside f)).
  Definition face_distance (c : nat) (f : face) : R := distance (gdim Q) (center Q c) (fcenter Q c f).

  (** alpha_volume, jacobian_volume: 67-107. *)
  Definition fv_alpha_volume (c : cell) (t : R) (x : vec) : vec := single (pc P t (cid c) * x O * volume Q (cid c)).
  Definition fv_j_volume (c : cell) (t : R) (x : vec) : mat := msingle (pc P t (cid c) * volume Q (cid c)).
  (** lambda_volume: 449-464. *)
  Definition fv_lambda_volume (c : cell) (t : R) : vec := single (- pf P t (cid c) * volume Q (cid c)).

  (** alpha_skeleton: 112-179. *)
  Definition fv_alpha_skeleton (c : cell) (f : face) (i : nat) (t : R) (xs xn : vec) : vec * vec :=
    let n := cid c in
    let upwind := if Rle_dec 0 (vn t n f) then xs O else xn O in
    (single (upwind * vn t n f * area Q n f + k_avg t n f * (xs O - xn O) * area Q n f / cell_distance n f),
     single (- (upwind * vn t n f) * area Q n f - k_avg t n f * (xs O - xn O) * area Q n f / cell_distance n f)).
  (** jacobian_skeleton: 193-277. *)
  Definition fv_j_skeleton (c : cell) (f : face) (i : nat) (t : R) (xs xn : vec) : (mat * mat) * (mat * mat) :=
    let n := cid c in
    let k := k_avg t n f * area Q n f / cell_distance n f in
    let v := vn t n f * area Q n f in
    if Rle_dec 0 (vn t n f)
    then ((msingle (k + v), msingle (- k)), (msingle (- k + - v), msingle k))
    else ((msingle k, msingle (- k + v)), (msingle (- k), msingle (k + - v))).

  (** alpha_boundary: 305-391; no condition: nothing is accumulated. *)
  Definition fv_alpha_boundary (c : cell) (f : face) (i : nat) (t : R) (x : vec) : vec :=
    let n := cid c in
    single match pbc P t n f with
    | BDirichlet => vn t n f * pg P t n f * area Q n f
                    + permeability t n (normal Q n f) * (x O - pg P t n f) * area Q n f / face_distance n f
    | BNeumann => pj P t n f * area Q n f
    | BOutflow => (vn t n f * x O + po P t n f) * area Q n f
    | BNone => 0
    end.
  (** jacobian_boundary: 394-446. *)
  Definition fv_j_boundary (c : cell) (f : face) (i : nat) (t : R) (x : vec) : mat :=
    let n := cid c in
    msingle match pbc P t n f with
    | BDirichlet => permeability t n (normal Q n f) * area Q n f / face_distance n f
    | BOutflow => vn t n f * area Q n f
    | _ => 0
    end.

  (** ConvectionDiffusionCCFV as a local operator: flags 49-58, LocalOperatorDefaultFlags (one-sided, no post-skeleton
      terms although alpha_volume_post_skeleton is implemented). *)
  Definition ccfv : terms R :=
    mkterms R true true true false true false false false false
      fv_alpha_volume fv_lambda_volume fv_alpha_skeleton (fun _ _ _ _ => (vzero, vzero))
      fv_alpha_boundary (fun _ _ _ _ => vzero) (fun _ _ _ => vzero) (fun _ _ => vzero).
  Definition ccfv_j : jterms := mkjterms fv_j_volume fv_j_skeleton fv_j_boundary (fun _ _ _ => mzero).
  (** jacobian_apply_volume and jacobian_apply_skeleton call alpha_* with the update (84-88, 182-190); the boundary
      term comes from NumericalJacobianApplyBoundary with epsilon 1e-7 (42, 61), which receives the update only. *)
  Definition ccfv_apply : terms (R * R) :=
    mkterms (R * R) true false true false true false false false false
      (fun c t p => fv_alpha_volume c t (fun i => snd (p i))) (fun _ _ => vzero)
      (fun c f i t p q => fv_alpha_skeleton c f i t (fun i => snd (p i)) (fun i => snd (q i))) (fun _ _ _ _ => (vzero, vzero))
      (fun c f i t p => num_apply_boundary_linear (/ 10 ^ 7) (fv_alpha_boundary c f i t) 1 1 1 (fun i => snd (p i)) vzero)
      (fun _ _ _ _ => vzero) (fun _ _ _ => vzero) (fun _ _ => vzero).

  (** ConvectionDiffusionCCFVTemporalOperator: 525-602. *)
  Definition ccfv_temporal : terms R :=
    mkterms R true false false false false false false false false
      (fun c t x => single (pd P t (cid c) * x O * volume Q (cid c))) (fun _ _ => vzero)
      (fun _ _ _ _ _ _ => (vzero, vzero)) (fun _ _ _ _ => (vzero, vzero))
      (fun _ _ _ _ _ => vzero) (fun _ _ _ _ => vzero) (fun _ _ _ => vzero) (fun _ _ => vzero).
  Definition ccfv_temporal_j : jterms :=
    mkjterms (fun c t x => msingle (pd P t (cid c) * volume Q (cid c))) (fun _ _ _ _ _ _ => ((mzero, mzero), (mzero, mzero)))
      (fun _ _ _ _ _ => mzero) (fun _ _ _ => mzero).
End Ccfv.

(** One DOF per cell (P0) on a grid with N cells; numbers from N on do not occur as cells. *)
Definition fv_space (N : nat) : space :=
  let ds := fun c => [if (c <? N)%nat then c else O] in mkspace ds ds.

(** The time step suggestion: members first_stage and dtmin, None while not initialised. *)
Record fvstate := mkfvstate { first_stage : option bool; dtmin : option R }.
(** preStage(time, r): 479-487. *)
Definition fv_pre_stage (r : nat) (s : fvstate) : fvstate :=
  if (r =? 1)%nat then mkfvstate (Some true) (Some (10 ^ 100)) else mkfvstate (Some false) (dtmin s).
(** An assembly: dtmin is lowered in alpha_volume_post_skeleton (281-300), from the member cellinflux that is never
    assigned; the assembler calls it only if doAlphaVolumePostSkeleton is set. *)
Definition fv_assembly (Q : fvgeo) (P : fvparam) (s : fvstate) : res fvstate :=
  if do_alpha_post (ccfv Q P) then UB else Ok s.
(** suggestTimestep(dt): 495-498. *)
Definition fv_suggest (s : fvstate) (dt : R) : res R := match dtmin s with Some v => Ok v | None => UB end.
