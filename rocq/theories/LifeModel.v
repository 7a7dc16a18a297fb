(** Model of the calls a local operator receives while time steps are made: the life cycle methods preStep, preStage,
    setTime, suggestTimestep, postStage and postStep (dune/pdelab/localoperator/idefault.hh) and the evaluations
    between them, as issued by OneStepMethod, ExplicitOneStepMethod and the one-step grid operator.

    Every call may throw; the calls made so far stay made.  Values, weights and vectors are not part of this model
    (OneStepModel.v, MethodModel.v). *)
From Verif Require Export OneStepModel.
Local Open Scope R_scope.

(** The two operators: la0 (spatial), la1 (temporal) of gridoperator/onestep/localassembler.hh 60-76. *)
Inductive op := Spatial | Temporal.
(** The coefficients of an evaluation: solutions[i] (prestageengine.hh 215) or the unknown of the stage. *)
Inductive at_state := Old (i : nat) | New.
(** One assemble* call of the sweep over the grid (default/assembler.hh 107-270): [cell] for assemble(UV|V)Volume,
    false for skeleton, boundary and post-skeleton calls; [uv] for the assembleUV* methods; which operator has a
    term there (its doAlpha and doLambda flags). *)
Record place := mkplace { cell : bool; uv : bool; has0 : bool; has1 : bool }.

Inductive event :=
| PreStep (o : op) (t h : R) (s : nat)
| PreStage (o : op) (t : R) (r : nat)
| SetTime (o : op) (t : R)
| Eval (o : op) (x : at_state) (p : place)
| Suggest (o : op)
| PostStage (o : op)
| PostStep (o : op).

(** Calls that may throw: [until_throw] calls succeed, the next throws ([None]: none throws).  A call that throws has been
    made. *)
Record st := mkst { log : list event; until_throw : option nat }.
Definition act := st -> st * bool.
Definition emit (e : event) : act := fun s =>
  match until_throw s with
  | None => (mkst (log s ++ [e]) None, true)
  | Some O => (mkst (log s ++ [e]) (Some O), false)
  | Some (S k) => (mkst (log s ++ [e]) (Some k), true)
  end.
Definition skip : act := fun s => (s, true).
Definition raise : act := fun s => (s, false).
Definition chain (m n : act) : act := fun s => let (s1, ok) := m s in if ok then n s1 else (s1, false).
Definition when (c : bool) (m : act) : act := if c then m else skip.
Fixpoint each {X : Type} (f : X -> act) (l : list X) : act :=
  match l with [] => skip | x :: l => chain (f x) (each f l) end.
(** try { m } catch (...) { h; throw; } *)
Definition on_throw (m h : act) : act := fun s => let (s1, ok) := m s in if ok then (s1, true) else (fst (h s1), false).
Infix ";;" := chain (at level 61, right associativity).

(** The step an assembler has been prepared for: localassembler.hh 111-145 (time, dt, osp_method). *)
Record step := mkstep { tabl : tab; start : R; size : R }.
Section Step.
  Variable z : step.
  (** timeAtStage: localassembler.hh 164-167; prestageengine.hh 189, 205; residualengine.hh 155. *)
  Definition when_stage (i : nat) : R := start z + d (tabl z) i * size z.
  Definition both (f : op -> event) : act := emit (f Spatial) ;; emit (f Temporal).

  (** preStep: onestep.hh 235-239, localassembler.hh 137-138; postStage and postStep: onestep.hh 242-253. *)
  Definition pre_step_all : act := both (fun o => PreStep o (start z) (size z) (stages (tabl z))).
  Definition post_stage_all : act := both PostStage.
  Definition post_step_all : act := both PostStep.

  (** preAssembly of the pre-stage engine: prestageengine.hh 166-191. *)
  Definition announce (r : nat) : act := both (fun o => PreStage o (when_stage r) r).
  (** One assemble* method of the pre-stage engine: prestageengine.hh 202-231 and alike. *)
  Definition pre_place (r : nat) (p : place) : act :=
    each (fun i => both (fun o => SetTime o (when_stage i)) ;;
                   when (big (b (tabl z) r i) && has0 p) (emit (Eval Spatial (Old i) p)) ;;
                   when (big (a (tabl z) r i) && has1 p) (emit (Eval Temporal (Old i) p))) (seq 0 r).
  (** OneStepGridOperator::preStage: onestep.hh 145-156. *)
  Definition prestage (r : nat) (sweep : list place) : act := announce r ;; each (pre_place r) sweep.

  (** One assemble* method of the residual, Jacobian and Jacobian-application engines: enginebase.hh 362-461; their
      preAssembly: residualengine.hh 143-159, jacobianengine.hh 100-117, jacobianapplyengine.hh 110-127. *)
  Definition new_place (r : nat) (p : place) : act :=
    when (big (b (tabl z) r r) && has0 p) (emit (Eval Spatial New p)) ;; when (has1 p) (emit (Eval Temporal New p)).
  Definition assembly (r : nat) (sweep : list place) : act :=
    both (fun o => SetTime o (when_stage r)) ;; each (new_place r) sweep.
  (** OneStepGridOperator::interpolate: onestep.hh 212-218 (only the spatial operator is told the time). *)
  Definition boundary_values (r : nat) : act := emit (SetTime Spatial (when_stage r)).

  (** What happens in a stage: with boundary values or not, the grid sweep of the constant part, the sweeps of the
      solver, whether the solver gives up, and whether the time controller asks the operators. *)
  Record plan := mkplan { values : bool; sweep : list place; solves : list (list place); fails : bool; asks : bool }.

  (** A stage of OneStepMethod: implicitonestep.hh 177-243 (plain), 325-388 (with boundary values).  The handler only
      updates statistics and deletes vectors. *)
  Definition implicit_stage (P : plan) (r : nat) : act :=
    prestage r (sweep P) ;;
    when (values P) (boundary_values r) ;;
    on_throw (each (assembly r) (solves P) ;; when (fails P) raise) skip ;;
    post_stage_all.
  Definition implicit_step (P : nat -> plan) : act :=
    pre_step_all ;; each (fun r => implicit_stage (P r) r) (seq 1 (stages (tabl z))) ;; post_step_all.

  (** One assemble* method of the combined engine: jacobianresidualengine.hh 298-402 (setTimeInLastStage,
      prestageengine.hh 159-162, only in the two volume methods; the Jacobian engine is that of the temporal operator
      and has no assembleV* work). *)
  Definition explicit_place (r : nat) (p : place) : act :=
    when (has0 p || has1 p) (pre_place r p) ;;
    when (cell p) (emit (SetTime Temporal (when_stage r))) ;;
    when (uv p && has1 p) (emit (Eval Temporal New p)).
  (** A stage of ExplicitOneStepMethod: explicitonestep.hh 348-463 (plain), 570-699 (with boundary values, line 612
      before the assembly).  suggestTimestep: onestep.hh 256-262 asks both operators (in unspecified order; here
      spatial first).  [fails]: the linear solver or a limiter throws; nothing is caught. *)
  Definition explicit_stage (P : plan) (r : nat) : act :=
    when (values P) (boundary_values r) ;;
    announce r ;; each (explicit_place r) (sweep P) ;;
    when (Nat.eqb r 1 && asks P) (both Suggest) ;;
    when (fails P) raise ;;
    post_stage_all.
  Definition explicit_step (P : nat -> plan) : act :=
    pre_step_all ;; each (fun r => explicit_stage (P r) r) (seq 1 (stages (tabl z))) ;; post_step_all.
  (** The step size apply returns: explicitonestep.hh 402-424, 473. *)
  Definition explicit_size (suggested : R) : R := if Nat.ltb 0 (stages (tabl z)) then Rmin suggested (size z) else size z.
End Step.

(** A call of apply: the step, which driver, what happens in it, and how many calls succeed before one throws. *)
Record attempt := mkattempt { of : step; implicitly : bool; does : nat -> plan; budget : option nat }.
Definition perform (x : attempt) : st * bool :=
  (if implicitly x then implicit_step (of x) (does x) else explicit_step (of x) (does x)) (mkst [] (budget x)).
Definition calls (x : attempt) : list event := log (fst (perform x)).
Definition succeeded (x : attempt) : bool := snd (perform x).
(** A run: one attempt after the other, whatever their outcome (a failed step is usually repeated with a smaller
    step). *)
Definition history (l : list attempt) : list event := flat_map calls l.
