(** Model of the default assembler engines (dune/pdelab/gridoperator/default/residualengine.hh,
    jacobianapplyengine.hh and jacobianengine.hh) driven by the sweep of DriverModel.v.

    Vectors are functions from an index to a real number (rounding is not modelled); a local vector is indexed by the
    position in the local function space, a global one by the DOF number.  Local function spaces are given by the
    list of DOF numbers of a cell.  Constraints enter only at postAssembly (see OneStepModel.v); the Jacobian is
    modelled without constraints. *)
From Verif Require Export DriverModel RKModel.
Local Open Scope R_scope.

Definition vec := nat -> R.
Definition mat := nat -> nat -> R.
Definition vzero : vec := fun _ => 0.
Definition vadd (u v : vec) : vec := fun i => u i + v i.
Definition vscal (w : R) (u : vec) : vec := fun i => w * u i.
(** WeightedAccumulationView::accumulate: gridfunctionspace/localvector.hh (weight times the contribution). *)
Definition vacc (w : R) (u v : vec) : vec := vadd u (vscal w v).
Definition mzero : mat := fun _ _ => 0.
Definition madd (a b : mat) : mat := fun i j => a i j + b i j.
Definition macc (w : R) (a b : mat) : mat := fun i j => a i j + w * b i j.

(** LocalView::read: entry i is the value of the i-th DOF of the bound space. *)
Definition gather {X} (x0 : X) (x : nat -> X) (ds : list nat) : nat -> X :=
  fun i => match nth_error ds i with Some g => x g | None => x0 end.
(** LocalView::add: every local entry is added to its DOF. *)
Fixpoint scatter_from (i : nat) (ds : list nat) (v : vec) : vec :=
  match ds with
  | [] => vzero
  | g :: ds' => fun h => (if (g =? h)%nat then v i else 0) + scatter_from (S i) ds' v h
  end.
Definition scatter := scatter_from 0.
(** scatter_jacobian without constraints: assemblerutilities.hh 383-404. *)
Definition mscatter (rows cols : list nat) (a : mat) : mat :=
  fun g h => scatter rows (fun i => scatter cols (fun j => a i j) h) g.

(** DOFs of the trial and test space on a cell (by unique index). *)
Record space := mkspace { lfsu : nat -> list nat; lfsv : nat -> list nat }.

(** What a local operator contributes; the do* switches are those of LocalOperatorDefaultFlags, and the contributions
    are only requested when the switch is set (LocalAssemblerCallSwitch).  [X] is R for the residual (coefficients of
    the solution) and R*R for jacobian_apply (coefficients of solution and update). *)
Record terms (X : Type) := mkterms {
  do_alpha_volume : bool; do_lambda_volume : bool; do_alpha_skeleton : bool; do_lambda_skeleton : bool;
  do_alpha_boundary : bool; do_lambda_boundary : bool; do_alpha_post : bool; do_lambda_post : bool; do_two_sided : bool;
  alpha_volume : cell -> R -> (nat -> X) -> vec;
  lambda_volume : cell -> R -> vec;
  alpha_skeleton : cell -> face -> nat -> R -> (nat -> X) -> (nat -> X) -> vec * vec;
  lambda_skeleton : cell -> face -> nat -> R -> vec * vec;
  alpha_boundary : cell -> face -> nat -> R -> (nat -> X) -> vec;
  lambda_boundary : cell -> face -> nat -> R -> vec;
  alpha_post : cell -> R -> (nat -> X) -> vec;
  lambda_post : cell -> R -> vec }.
Arguments do_alpha_volume {X}. Arguments do_lambda_volume {X}. Arguments do_alpha_skeleton {X}.
Arguments do_lambda_skeleton {X}. Arguments do_alpha_boundary {X}. Arguments do_lambda_boundary {X}.
Arguments do_alpha_post {X}. Arguments do_lambda_post {X}. Arguments do_two_sided {X}.
Arguments alpha_volume {X}. Arguments lambda_volume {X}. Arguments alpha_skeleton {X}. Arguments lambda_skeleton {X}.
Arguments alpha_boundary {X}. Arguments lambda_boundary {X}. Arguments alpha_post {X}. Arguments lambda_post {X}.

(** The part of the local assembler the engines read: weight and time (localassembler base, setWeight/setTime). *)
Record la := mkla { weight : R; time : R }.

(** Members of the engine: local vectors, what the global views are bound to, the attached solution. *)
Record rest (X : Type) := mkrest {
  rl : vec; rn : vec; xl : nat -> X; xn : nat -> X;
  rl_dofs : list nat; rn_dofs : list nat; sl_dofs : list nat; sn_dofs : list nat; sol : nat -> X }.
Arguments rl {X}. Arguments rn {X}. Arguments xl {X}. Arguments xn {X}. Arguments rl_dofs {X}. Arguments rn_dofs {X}.
Arguments sl_dofs {X}. Arguments sn_dofs {X}. Arguments sol {X}. Arguments mkrest {X}.

Section Residual.
  Context {X : Type}.
  Variable x0 : X.
  Variable G : space.
  Variable L : terms X.

  (** setSolution: residualengine.hh 120-124. *)
  Definition set_solution (x : nat -> X) (s : rest X) : rest X :=
    mkrest (rl s) (rn s) (xl s) (xn s) (rl_dofs s) (rn_dofs s) (sl_dofs s) (sn_dofs s) x.
  Definition set_rl (r : vec) (s : rest X) : rest X :=
    mkrest r (rn s) (xl s) (xn s) (rl_dofs s) (rn_dofs s) (sl_dofs s) (sn_dofs s) (sol s).
  Definition set_rn (r : vec) (s : rest X) : rest X :=
    mkrest (rl s) r (xl s) (xn s) (rl_dofs s) (rn_dofs s) (sl_dofs s) (sn_dofs s) (sol s).
  (** onBindLFSUV, onBindLFSUVInside: 128-133, 142-147. *)
  Definition bind_uv (c : cell) (s : rest X) : rest X :=
    mkrest (rl s) (rn s) (xl s) (xn s) (rl_dofs s) (rn_dofs s) (lfsu G (cid c)) (sn_dofs s) (sol s).
  (** onBindLFSUVOutside: 149-157. *)
  Definition bind_uv_outside (f : face) (s : rest X) : rest X :=
    mkrest (rl s) (rn s) (xl s) (xn s) (rl_dofs s) (rn_dofs s) (sl_dofs s) (lfsu G (outside f)) (sol s).
  (** loadCoefficientsLFSUInside, loadCoefficientsLFSUOutside: 208-217. *)
  Definition load_inside (s : rest X) : rest X :=
    mkrest (rl s) (rn s) (gather x0 (sol s) (sl_dofs s)) (xn s) (rl_dofs s) (rn_dofs s) (sl_dofs s) (sn_dofs s) (sol s).
  Definition load_outside (s : rest X) : rest X :=
    mkrest (rl s) (rn s) (xl s) (gather x0 (sol s) (sn_dofs s)) (rl_dofs s) (rn_dofs s) (sl_dofs s) (sn_dofs s) (sol s).

  Definition acc_in (on : bool) (w : R) (v : vec) (s : rest X) : rest X :=
    if on then set_rl (vacc w (rl s) v) s else s.
  Definition acc_both (on : bool) (w : R) (v : vec * vec) (s : rest X) : rest X :=
    if on then set_rn (vacc w (rn s) (snd v)) (set_rl (vacc w (rl s) (fst v)) s) else s.

  (** One engine call: the new engine state, and what is added to the global residual.
      residualengine.hh 126-394 (jacobianapplyengine.hh 113-330 for X = R*R). *)
  Definition res_step (a : la) (x : call) (s : rest X) : rest X * vec :=
    let w := weight a in let t := time a in
    match x with
    | OnBindV c => (mkrest vzero (rn s) (xl s) (xn s) (lfsv G (cid c)) (rn_dofs s) (sl_dofs s) (sn_dofs s) (sol s), vzero)
    | OnBindVOutside _ f _ =>
        (mkrest (rl s) vzero (xl s) (xn s) (rl_dofs s) (lfsv G (outside f)) (sl_dofs s) (sn_dofs s) (sol s), vzero)
    | OnBindUV c => (bind_uv c s, vzero)
    | OnBindUVOutside _ f _ => (bind_uv_outside f s, vzero)
    | LoadInside _ => (load_inside s, vzero)
    | LoadOutside _ _ _ => (load_outside s, vzero)
    | AsmVVolume c => (acc_in (do_lambda_volume L) w (lambda_volume L c t) s, vzero)
    | AsmUVVolume c => (acc_in (do_alpha_volume L) w (alpha_volume L c t (xl s)) s, vzero)
    | AsmVSkeleton c f i => (acc_both (do_lambda_skeleton L) w (lambda_skeleton L c f i t) s, vzero)
    | AsmUVSkeleton c f i => (acc_both (do_alpha_skeleton L) w (alpha_skeleton L c f i t (xl s) (xn s)) s, vzero)
    | AsmVBoundary c f i => (acc_in (do_lambda_boundary L) w (lambda_boundary L c f i t) s, vzero)
    | AsmUVBoundary c f i => (acc_in (do_alpha_boundary L) w (alpha_boundary L c f i t (xl s)) s, vzero)
    | AsmVPost c => (acc_in (do_lambda_post L) w (lambda_post L c t) s, vzero)
    | AsmUVPost c => (acc_in (do_alpha_post L) w (alpha_post L c t (xl s)) s, vzero)
    | AsmVProcessor _ _ _ | AsmUVProcessor _ _ _ => (s, vzero)   (* common/localassemblerenginebase.hh 330-337 *)
    | OnUnbindUV _ | OnUnbindUVOutside _ _ _ => (s, vzero)
    | OnUnbindV _ => (s, scatter (rl_dofs s) (rl s))
    | OnUnbindVOutside _ _ _ => (s, scatter (rn_dofs s) (rn s))
    end.

  (** Requirements reported to the sweep: residualengine.hh 72-94. *)
  Definition res_flags : flags :=
    mkflags (do_alpha_skeleton L) (do_lambda_skeleton L) (do_alpha_boundary L) (do_lambda_boundary L)
            (do_alpha_post L) (do_lambda_post L) (do_two_sided L).

  (** GridOperator::residual (gridoperator.hh): a sweep with fixed weight and time. *)
  Fixpoint res_run (a : la) (l : list call) (s : rest X) (r : vec) : rest X * vec :=
    match l with
    | [] => (s, r)
    | x :: l' => let (s', v) := res_step a x s in res_run a l' s' (vadd r v)
    end.
  Definition assemble_residual (e : env) (cells : list cell) (a : la) (s : rest X) (x : nat -> X) (r : vec) : vec :=
    snd (res_run a (sweep e res_flags cells) (set_solution x s) r).
End Residual.

(** Derivative terms of a local operator: jacobian_volume etc.; for skeleton the blocks ss, sn, ns, nn. *)
Record jterms := mkjterms {
  j_volume : cell -> R -> vec -> mat;
  j_skeleton : cell -> face -> nat -> R -> vec -> vec -> (mat * mat) * (mat * mat);
  j_boundary : cell -> face -> nat -> R -> vec -> mat;
  j_post : cell -> R -> vec -> mat }.

Record jest := mkjest {
  al : mat; al_sn : mat; al_ns : mat; al_nn : mat; jxl : vec; jxn : vec;
  ss_dofs : list nat * list nat; sn_d : list nat * list nat; ns_d : list nat * list nat; nn_d : list nat * list nat;
  js_dofs : list nat; jn_dofs : list nat; jsol : vec }.

Section Jacobian.
  Variable G : space.
  Variable L : terms R.
  Variable J : jterms.

  Definition jset_al (m : mat) (s : jest) : jest :=
    mkjest m (al_sn s) (al_ns s) (al_nn s) (jxl s) (jxn s) (ss_dofs s) (sn_d s) (ns_d s) (nn_d s) (js_dofs s) (jn_dofs s) (jsol s).
  Definition jset_solution (x : vec) (s : jest) : jest :=
    mkjest (al s) (al_sn s) (al_ns s) (al_nn s) (jxl s) (jxn s) (ss_dofs s) (sn_d s) (ns_d s) (nn_d s) (js_dofs s) (jn_dofs s) x.
  Definition jacc (on : bool) (w : R) (m : mat) (s : jest) : jest := if on then jset_al (macc w (al s) m) s else s.

  (** DefaultLocalJacobianAssemblerEngine: jacobianengine.hh 119-290. *)
  Definition jac_step (a : la) (x : call) (s : jest) : jest * mat :=
    let w := weight a in let t := time a in
    match x with
    | OnBindUV c =>
        (mkjest mzero (al_sn s) (al_ns s) (al_nn s) (jxl s) (jxn s)
           (lfsv G (cid c), lfsu G (cid c)) (sn_d s) (ns_d s) (nn_d s) (lfsu G (cid c)) (jn_dofs s) (jsol s), mzero)
    | OnBindUVOutside c f _ =>
        let c := cid c in let n := outside f in
        (mkjest (al s) mzero mzero mzero (jxl s) (jxn s) (ss_dofs s)
           (lfsv G c, lfsu G n) (lfsv G n, lfsu G c) (lfsv G n, lfsu G n) (js_dofs s) (lfsu G n) (jsol s), mzero)
    | LoadInside _ =>
        (mkjest (al s) (al_sn s) (al_ns s) (al_nn s) (gather 0 (jsol s) (js_dofs s)) (jxn s)
           (ss_dofs s) (sn_d s) (ns_d s) (nn_d s) (js_dofs s) (jn_dofs s) (jsol s), mzero)
    | LoadOutside _ _ _ =>
        (mkjest (al s) (al_sn s) (al_ns s) (al_nn s) (jxl s) (gather 0 (jsol s) (jn_dofs s))
           (ss_dofs s) (sn_d s) (ns_d s) (nn_d s) (js_dofs s) (jn_dofs s) (jsol s), mzero)
    | AsmUVVolume c => (jacc (do_alpha_volume L) w (j_volume J c t (jxl s)) s, mzero)
    | AsmUVBoundary c f i => (jacc (do_alpha_boundary L) w (j_boundary J c f i t (jxl s)) s, mzero)
    | AsmUVPost c => (jacc (do_alpha_post L) w (j_post J c t (jxl s)) s, mzero)
    | AsmUVSkeleton c f i =>
        if do_alpha_skeleton L then
          let '((ss, sn), (ns, nn)) := j_skeleton J c f i t (jxl s) (jxn s) in
          (mkjest (macc w (al s) ss) (macc w (al_sn s) sn) (macc w (al_ns s) ns) (macc w (al_nn s) nn) (jxl s) (jxn s)
             (ss_dofs s) (sn_d s) (ns_d s) (nn_d s) (js_dofs s) (jn_dofs s) (jsol s), mzero)
        else (s, mzero)
    | OnUnbindUV _ => (s, mscatter (fst (ss_dofs s)) (snd (ss_dofs s)) (al s))
    | OnUnbindUVOutside _ _ _ =>
        (s, madd (mscatter (fst (sn_d s)) (snd (sn_d s)) (al_sn s))
              (madd (mscatter (fst (ns_d s)) (snd (ns_d s)) (al_ns s))
                    (mscatter (fst (nn_d s)) (snd (nn_d s)) (al_nn s))))
    | _ => (s, mzero)   (* test-only calls do nothing in this engine (common/localassemblerenginebase.hh) *)
    end.

  (** jacobianengine.hh 76-86. *)
  Definition jac_flags : flags :=
    mkflags (do_alpha_skeleton L) false (do_alpha_boundary L) false (do_alpha_post L) false (do_two_sided L).

  Fixpoint jac_run (a : la) (l : list call) (s : jest) (m : mat) : jest * mat :=
    match l with
    | [] => (s, m)
    | x :: l' => let (s', v) := jac_step a x s in jac_run a l' s' (madd m v)
    end.
  Definition assemble_jacobian (e : env) (cells : list cell) (a : la) (s : jest) (x : vec) (m : mat) : mat :=
    snd (jac_run a (sweep e jac_flags cells) (jset_solution x s) m).
End Jacobian.
