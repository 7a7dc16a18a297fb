(** Model of the one-step grid operator (dune/pdelab/gridoperator/onestep.hh and gridoperator/onestep/): two
    operators, spatial (index 0) and temporal (index 1), assembled together.

    Each operator has its own engine (EngineModel.v) and its own weight and time.  Not modelled: preStage/preStep
    notifications to the local operators, coupling (enriched) calls, skipEntity/skipIntersection of operators that
    disagree (enginebase.hh throws). *)
From Verif Require Export EngineModel.
Local Open Scope R_scope.

(** DTAssemblingMode, preStep: localassembler.hh 98-127, 153. *)
Inductive dtmode := DivideOperator1ByDT | MultiplyOperator0ByDT | DoNotAssembleDT.
Record os := mkos { T : tab; t0 : R; dt : R; f0 : R; f1 : R; stage : nat }.
Definition pre_step (m : dtmode) (T : tab) (t h : R) (r : nat) : os :=
  match m with
  | DivideOperator1ByDT => mkos T t h 1 (1 / h) r
  | MultiplyOperator0ByDT => mkos T t h h 1 r
  | DoNotAssembleDT => mkos T t h 1 1 r
  end.
(** timeAtStage: 165-174. *)
Definition time_at (o : os) (i : nat) : R := t0 o + d (T o) i * dt o.
(** "std::abs(v) > 1E-6": prestageengine.hh 180-181, residualengine.hh 151. *)
Definition big (v : R) : bool := if Rlt_dec (/ 1000000) (Rabs v) then true else false.

(** Combined requirements: enginebase.hh 60-108 (or of both engines). *)
Definition either (f g : flags) : flags :=
  mkflags (uv_skeleton f || uv_skeleton g) (v_skeleton f || v_skeleton g) (uv_boundary f || uv_boundary g)
          (v_boundary f || v_boundary g) (uv_post f || uv_post g) (v_post f || v_post g) (two_sided f || two_sided g).

Definition is_post (y : call) : bool := match y with AsmVPost _ | AsmUVPost _ => true | _ => false end.
Definition is_asm (y : call) : bool :=
  match y with
  | AsmVVolume _ | AsmUVVolume _ | AsmVSkeleton _ _ _ | AsmUVSkeleton _ _ _ | AsmVBoundary _ _ _ | AsmUVBoundary _ _ _
  | AsmVProcessor _ _ _ | AsmUVProcessor _ _ _ | AsmVPost _ | AsmUVPost _ => true
  | _ => false
  end.

(** ** The constant part: OneStepLocalPreStageAssemblerEngine (prestageengine.hh) *)
(** One operator: weight and time of its assembler, state of its engine. *)
Notation opst := (la * rest R)%type.
Section PreStage.
  Variables (G : space) (L0 L1 : terms R) (o : os) (xs : nat -> vec).


  Definition set_time (t : R) (p : opst) : opst := (mkla (weight (fst p)) t, snd p).
  (** setSolution, onBindLFSUV(Inside/Outside), loadCoefficients before an assembleUV* call; assembleV* calls do not
      rebind: 202-219 (volume), 251-277 (skeleton), 305-322 (boundary), 350-367 (processor), post-skeleton alike. *)
  Definition prepare (x : vec) (y : call) (s : rest R) : rest R :=
    match y with
    | AsmUVVolume c | AsmUVBoundary c _ _ | AsmUVProcessor c _ _ | AsmUVPost c =>
        load_inside 0 (bind_uv G c (set_solution x s))
    | AsmUVSkeleton c f _ =>
        load_outside 0 (load_inside 0 (bind_uv_outside G f (bind_uv G c (set_solution x s))))
    | _ => s
    end.
  Definition assemble_with (L : terms R) (w : R) (x : vec) (y : call) (p : opst) : opst :=
    let a := mkla w (time (fst p)) in (a, fst (res_step 0 G L a y (prepare x y (snd p)))).
  (** The loop "for s < stage" of every assemble* method. *)
  Definition pre_asm (y : call) (p : opst * opst) : opst * opst :=
    fold_left (fun p s =>
      let p0 := set_time (time_at o s) (fst p) in
      let p1 := set_time (time_at o s) (snd p) in
      let p0 := if big (b (T o) (stage o) s) then assemble_with L0 (b (T o) (stage o) s * f0 o) (xs s) y p0 else p0 in
      let p1 := if big (a (T o) (stage o) s) then assemble_with L1 (a (T o) (stage o) s * f1 o) (xs s) y p1 else p1 in
      (p0, p1)) (seq 0 (stage o)) p.

  (** One call: new state and what is added to const_residual_0 and const_residual_1.
      onBindLFSUV*, loadCoefficients* are empty (113-147); test space binds go to both engines (enginebase.hh). *)
  Definition pre_call (y : call) (p : opst * opst) : (opst * opst) * (vec * vec) :=
    match y with
    | OnBindUV _ | OnBindUVOutside _ _ _ | LoadInside _ | LoadOutside _ _ _ => (p, (vzero, vzero))
    | _ =>
        if is_asm y then (pre_asm y p, (vzero, vzero))
        else
          let '((a0, s0), (a1, s1)) := p in
          let (s0', v0) := res_step 0 G L0 a0 y s0 in
          let (s1', v1) := res_step 0 G L1 a1 y s1 in
          (((a0, s0'), (a1, s1')), (v0, v1))
    end.
  Fixpoint pre_run (l : list call) (p : opst * opst) (r : vec * vec) : (opst * opst) * (vec * vec) :=
    match l with
    | [] => (p, r)
    | y :: l' => let (p', v) := pre_call y p in pre_run l' p' (vadd (fst r) (fst v), vadd (snd r) (snd v))
    end.
End PreStage.

(** OneStepGridOperator::preStage (onestep.hh 143-153): const_residual starts from zero (prestageengine.hh 166-167),
    both operators add to the same vector, and only the second post-processes it (constrain_residual, setupGridOperators:
    gridoperator.hh 124-150).  [C] is constrain_residual. *)
Definition pre_stage (G : space) (L0 L1 : terms R) (C : vec -> vec) (e : env) (cells : list cell) (o : os)
    (xs : nat -> vec) (p : opst * opst) : vec :=
  let r := snd (pre_run G L0 L1 o xs (sweep e (either (res_flags L0) (res_flags L1)) cells) p (vzero, vzero)) in
  C (vadd (fst r) (snd r)).

(** ** The current stage: enginebase.hh with residualengine.hh or jacobianapplyengine.hh *)
Section Stage.
  Context {X : Type} (x0 : X).
  Variables (G : space) (L0 L1 : terms X) (a0 a1 : la) (imp : bool).
  (** assemble*: the spatial engine only in implicit stages; post-skeleton calls never reach the temporal engine
      (enginebase.hh 314-484). *)
  Definition two_step (y : call) (p : rest X * rest X) : (rest X * rest X) * vec :=
    let (s0, s1) := p in
    let (s0', v0) := if negb (is_asm y) || imp then res_step x0 G L0 a0 y s0 else (s0, vzero) in
    let (s1', v1) := if is_post y then (s1, vzero) else res_step x0 G L1 a1 y s1 in
    ((s0', s1'), vadd v0 v1).
  Fixpoint two_run (l : list call) (p : rest X * rest X) (r : vec) : (rest X * rest X) * vec :=
    match l with
    | [] => (p, r)
    | y :: l' => let (p', v) := two_step y p in two_run l' p' (vadd r v)
    end.
End Stage.
(** preAssembly: residualengine.hh 142-161 (weights b_rr*f0 and f1, time at the stage). *)
Definition la_spatial (o : os) : la := mkla (b (T o) (stage o) (stage o) * f0 o) (time_at o (stage o)).
Definition la_temporal (o : os) : la := mkla (f1 o) (time_at o (stage o)).
Definition implicit_stage (o : os) : bool := big (b (T o) (stage o) (stage o)).

(** OneStepGridOperator::residual (onestep.hh 156-165); postAssembly: residualengine.hh 163-178. *)
Definition stage_residual (G : space) (L0 L1 : terms R) (C : vec -> vec) (e : env) (cells : list cell) (o : os)
    (const : vec) (p : rest R * rest R) (x r : vec) : vec :=
  let fl := either (res_flags L0) (res_flags L1) in
  let r' := snd (two_run 0 G L0 L1 (la_spatial o) (la_temporal o) (implicit_stage o) (sweep e fl cells)
                   (set_solution x (fst p), set_solution x (snd p)) r) in
  C (vadd r' const).

(** OneStepGridOperator::jacobian_apply with a solution (197-203): engines for pairs (solution, update). *)
Definition apply_flags {X} (L : terms X) : flags :=
  mkflags (do_alpha_skeleton L) false (do_alpha_boundary L) false (do_alpha_post L) false (do_two_sided L).
Definition stage_apply (G : space) (LA0 LA1 : terms (R * R)) (e : env) (cells : list cell) (o : os)
    (p : rest (R * R) * rest (R * R)) (x z r : vec) : vec :=
  let fl := either (apply_flags LA0) (apply_flags LA1) in
  let xz := fun g => (x g, z g) in
  snd (two_run (0, 0) G LA0 LA1 (la_spatial o) (la_temporal o) (implicit_stage o) (sweep e fl cells)
         (set_solution xz (fst p), set_solution xz (snd p)) r).
(** The two public variants of jacobian_apply (onestep.hh 189-203) on the engine kept by the local assembler: the one
    with a solution throws for linear operators, the one without throws for all others and passes on the solution of an
    earlier call (jacobianapplyengine.hh 88-99, localassembler.hh 253-270).  State: the solution pointer of the engine,
    null after construction.  The operators may ignore the values at a null solution, but forming the reference is
    undefined behaviour. *)
Inductive apply_call := ApplyAt (x z : vec) | ApplyLinear (z : vec).
Definition one_apply (linear : bool) (G : space) (LA0 LA1 : terms (R * R)) (e : env) (cells : list cell) (o : os)
    (p : rest (R * R) * rest (R * R)) (r : vec) (pointer : option vec) (y : apply_call) : option vec * res vec :=
  match y with
  | ApplyAt x z => if linear then (pointer, Throw) else (Some x, Ok (stage_apply G LA0 LA1 e cells o p x z r))
  | ApplyLinear z =>
      if linear then
        match pointer with
        | None => (None, UB)
        | Some x => (pointer, Ok (stage_apply G LA0 LA1 e cells o p x z r))
        end
      else (pointer, Throw)
  end.
Definition applies (linear : bool) (G : space) (LA0 LA1 : terms (R * R)) (e : env) (cells : list cell) (o : os)
    (p : rest (R * R) * rest (R * R)) (r : vec) (l : list apply_call) : option vec :=
  fold_left (fun pointer y => fst (one_apply linear G LA0 LA1 e cells o p r pointer y)) l None.

(** ** Jacobian: jacobianengine.hh *)
Section StageJ.
  Variables (G : space) (L0 L1 : terms R) (J0 J1 : jterms) (a0 a1 : la) (imp : bool).
  Definition twoj_step (y : call) (p : jest * jest) : (jest * jest) * mat :=
    let (s0, s1) := p in
    let (s0', v0) := if negb (is_asm y) || imp then jac_step G L0 J0 a0 y s0 else (s0, mzero) in
    let (s1', v1) := if is_post y then (s1, mzero) else jac_step G L1 J1 a1 y s1 in
    ((s0', s1'), madd v0 v1).
  Fixpoint twoj_run (l : list call) (p : jest * jest) (m : mat) : (jest * jest) * mat :=
    match l with
    | [] => (p, m)
    | y :: l' => let (p', v) := twoj_step y p in twoj_run l' p' (madd m v)
    end.
End StageJ.
(** OneStepGridOperator::jacobian (168-176). *)
Definition stage_jacobian (G : space) (L0 L1 : terms R) (J0 J1 : jterms) (e : env) (cells : list cell) (o : os)
    (p : jest * jest) (x : vec) (m : mat) : mat :=
  let fl := either (jac_flags L0) (jac_flags L1) in
  snd (twoj_run G L0 L1 J0 J1 (la_spatial o) (la_temporal o) (implicit_stage o) (sweep e fl cells)
         (jset_solution x (fst p), jset_solution x (snd p)) m).

(** ** Explicit stages: OneStepExplicitLocalJacobianResidualAssemblerEngine (jacobianresidualengine.hh) *)
Section Explicit.
  Variables (G : space) (L0 L1 : terms R) (J1 : jterms) (o : os) (xs : nat -> vec).
  (** requirements of the prestage engine; the Jacobian engine (of the temporal operator) never asks for test-only
      terms *)
  Let p_uvv := do_alpha_volume L0 || do_alpha_volume L1.
  Let p_vv := do_lambda_volume L0 || do_lambda_volume L1.
  Let p_uvs := do_alpha_skeleton L0 || do_alpha_skeleton L1.
  Let p_vs := do_lambda_skeleton L0 || do_lambda_skeleton L1.
  Let p_uvb := do_alpha_boundary L0 || do_alpha_boundary L1.
  Let p_vb := do_lambda_boundary L0 || do_lambda_boundary L1.
  Let p_uvp := do_alpha_post L0 || do_alpha_post L1.
  Let p_vp := do_lambda_post L0 || do_lambda_post L1.

  (** Does the prestage engine, resp. the Jacobian engine, see this call?  116-233 (binds), 236-255 (loads),
      288-419 (assemble); assembleUVProcessor/assembleVProcessor are not forwarded. *)
  Definition to_pre (y : call) : bool :=
    match y with
    | OnBindV _ | OnUnbindV _ | OnBindUV _ | OnUnbindUV _ => p_uvv || p_vv
    | OnBindVOutside _ _ _ | OnUnbindVOutside _ _ _ | OnBindUVOutside _ _ _ | OnUnbindUVOutside _ _ _ => p_uvs || p_vs
    | LoadInside _ => p_uvv
    | LoadOutside _ _ _ => p_uvs
    | AsmUVVolume _ => p_uvv | AsmVVolume _ => p_vv
    | AsmUVSkeleton _ _ _ => p_uvs | AsmVSkeleton _ _ _ => p_vs
    | AsmUVBoundary _ _ _ => p_uvb | AsmVBoundary _ _ _ => p_vb
    | AsmUVPost _ => p_uvp | AsmVPost _ => p_vp
    | AsmUVProcessor _ _ _ | AsmVProcessor _ _ _ => false
    end.
  Definition to_jac (y : call) : bool :=
    match y with
    | OnBindV _ | OnUnbindV _ | OnBindUV _ | OnUnbindUV _ | LoadInside _ | AsmUVVolume _ => do_alpha_volume L1
    | OnBindVOutside _ _ _ | OnUnbindVOutside _ _ _ | OnBindUVOutside _ _ _ | OnUnbindUVOutside _ _ _
    | LoadOutside _ _ _ | AsmUVSkeleton _ _ _ => do_alpha_skeleton L1
    | AsmUVBoundary _ _ _ => do_alpha_boundary L1
    | AsmUVPost _ => do_alpha_post L1
    | _ => false
    end.
  (** la.setWeight(-1) before every Jacobian call; setTimeInLastStage only for volume calls (288-315; the others only
      set the weight, 317-419). *)
  Definition reset (y : call) (p : opst * opst) : opst * opst :=
    let '((a0, s0), (a1, s1)) := p in
    match y with
    | AsmUVVolume _ | AsmVVolume _ => ((mkla (-1) (time a0), s0), (mkla (-1) (time_at o (stage o)), s1))
    | _ => if is_asm y then ((mkla (-1) (time a0), s0), (mkla (-1) (time a1), s1)) else p
    end.
  Definition ex_step (y : call) (q : (opst * opst) * jest) : ((opst * opst) * jest) * ((vec * vec) * mat) :=
    let (p, j) := q in
    let (p1, v) := if to_pre y then pre_call G L0 L1 o xs y p else (p, (vzero, vzero)) in
    let p2 := reset y p1 in
    let (j', m) := if to_jac y then jac_step G L1 J1 (fst (snd p2)) y j else (j, mzero) in
    ((p2, j'), (v, m)).
  Fixpoint ex_run (l : list call) (q : (opst * opst) * jest) (r : (vec * vec) * mat) : ((opst * opst) * jest) * ((vec * vec) * mat) :=
    match l with
    | [] => (q, r)
    | y :: l' =>
        let (q', v) := ex_step y q in
        ex_run l' q' ((vadd (fst (fst r)) (fst (fst v)), vadd (snd (fst r)) (snd (fst v))), madd (snd r) (snd v))
    end.
End Explicit.
(** explicit_jacobian_residual (onestep.hh 178-187): residual vectors start from zero (prestageengine.hh 166-167), the
    matrix from [m]; only the vector of the temporal operator is post-processed.  Result: D, alpha, beta. *)
Definition explicit_jacobian_residual (G : space) (L0 L1 : terms R) (J1 : jterms) (C : vec -> vec) (e : env)
    (cells : list cell) (o : os) (xs : nat -> vec) (p : opst * opst) (j : jest) (m : mat) : mat * vec * vec :=
  let fl := either (either (res_flags L0) (res_flags L1)) (jac_flags L1) in
  let r := snd (ex_run G L0 L1 J1 o xs (sweep e fl cells) (p, jset_solution (xs (stage o)) j) ((vzero, vzero), m)) in
  (snd r, C (snd (fst r)), fst (fst r)).
(** ExplicitOneStepMethod::apply, one stage: D = 0, assemble, alpha += dt*beta with the dt chosen in the first stage
    (explicitonestep.hh 386-442); the right hand side of the linear system for x[r]. *)
Definition explicit_system (G : space) (L0 L1 : terms R) (J1 : jterms) (C : vec -> vec) (e : env)
    (cells : list cell) (o : os) (xs : nat -> vec) (p : opst * opst) (j : jest) (newdt : R) : mat * vec :=
  let '(D, alpha, beta) := explicit_jacobian_residual G L0 L1 J1 C e cells o xs p j mzero in
  (D, vadd alpha (vscal newdt beta)).

(** ** Dirichlet constraints: [K g] tells whether DOF [g] is constrained (hanging nodes: ConsModel.v) *)
(** constrain_residual for Dirichlet constraints: constraints.hh 904-914; called by the second operator only (residualengine.hh 229-233,
    jacobianapplyengine.hh 249-254) *)
Definition zero_on (K : nat -> bool) (v : vec) : vec := fun i => if K i then 0 else v i.
(** handle_dirichlet_constraints, set_trivial_rows: assemblerutilities.hh 664-686, called by the second operator (jacobianengine.hh 197-210) *)
Definition trivial_rows (K : nat -> bool) (m : mat) : mat := fun g h => if K g then (if (g =? h)%nat then 1 else 0) else m g h.
(** jacobian and jacobian_apply including postAssembly *)
Definition dirichlet_jacobian (K : nat -> bool) (G : space) (L0 L1 : terms R) (J0 J1 : jterms) (e : env) (cells : list cell) (o : os)
    (p : jest * jest) (x : vec) (m : mat) : mat := trivial_rows K (stage_jacobian G L0 L1 J0 J1 e cells o p x m).
Definition dirichlet_apply (K : nat -> bool) (G : space) (LA0 LA1 : terms (R * R)) (e : env) (cells : list cell) (o : os)
    (p : rest (R * R) * rest (R * R)) (x z r : vec) : vec := zero_on K (stage_apply G LA0 LA1 e cells o p x z r).
(** The system of an explicit stage: beta belongs to the first operator and is not post-processed. *)
Definition dirichlet_system (K : nat -> bool) (G : space) (L0 L1 : terms R) (J1 : jterms) (e : env) (cells : list cell) (o : os)
    (xs : nat -> vec) (p : opst * opst) (j : jest) (newdt : R) : mat * vec :=
  let '(D, rhs) := explicit_system G L0 L1 J1 (zero_on K) e cells o xs p j newdt in (trivial_rows K D, rhs).
(** native(D).mv *)
Definition row_product (N : nat) (D : mat) (x : vec) (g : nat) : R := fold_left (fun s h => s + D g h * x h) (seq 0 N) 0.
(** One stage of ExplicitOneStepMethod::apply with boundary values: explicitonestep.hh 607-668.  [values]: the interpolated function,
    [guess]: the initial guess, [solve]: the linear solver, N: number of DOFs. *)
Definition explicit_boundary_stage (N : nat) (K : nat -> bool) (G : space) (L0 L1 : terms R) (J1 : jterms) (e : env) (cells : list cell) (o : os)
    (xs : nat -> vec) (p : opst * opst) (j : jest) (newdt : R) (values guess : vec) (solve : mat -> vec -> vec) : vec :=
  let x := fun g => if K g then values g else guess g in
  let '(D, rhs) := dirichlet_system K G L0 L1 J1 e cells o (fun i => if (i =? stage o)%nat then x else xs i) p j newdt in
  let residual := zero_on K (fun g => row_product N D x g - rhs g) in
  fun g => x g - solve D residual g.
(** One stage of the variant without boundary values: 386-446 *)
Definition explicit_plain_stage (K : nat -> bool) (G : space) (L0 L1 : terms R) (J1 : jterms) (e : env) (cells : list cell) (o : os)
    (xs : nat -> vec) (p : opst * opst) (j : jest) (newdt : R) (solve : mat -> vec -> vec) : vec :=
  let '(D, rhs) := dirichlet_system K G L0 L1 J1 e cells o xs p j newdt in solve D rhs.
