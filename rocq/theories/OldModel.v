(** Model of the deprecated Newton solver: dune/pdelab/newton/newton.hh (line numbers below refer to it).

    The grid operator, the norms and the linear solver are arbitrary functions as in NewtonModel, whose numbers, records of
    options and records of the state are used again: [core] holds *u_, *r_ and res_.defect, [run] the object in the middle
    of apply (A_, reassembled_, prev_defect_, res_).  Not modelled: output, timings, conv_rate, the lifetime and the sizes
    of the vectors r_ and z_ kept between calls, result() before the first call, rounding and overflow of finite numbers. *)
From Coq Require Export String.
From Verif Require Export NewtonModel.
Local Open Scope R_scope.

(** Strategy: 631-639 *)
Inductive strategy := NoLineSearch | HackbuschReusken | HackbuschReuskenAcceptBest.

(** Options.  [opt]: those which the new solver has as well (its fields hanging_nodes and matrix_free are not used);
    [strat], [tries], [damp]: 782-784; [hang_defect], [hang_prepare]: hanging_node_modifications_ of NewtonSolver (258) and
    of NewtonPrepareStep (618), None: never initialised. *)
Record oparams := mko { opt : params; strat : strategy; tries : nat; damp : R;
                        hang_defect : option bool; hang_prepare : option bool }.

(** Values of the constructors: 120, 162, 443-447, 508-510. *)
Definition common_defaults : params :=
  mkparams (1 / 10 ^ 8) (1 / 10 ^ 12) true false false (1 / 10 ^ 3) false 0 40 false false.
(** Newton(go, u, solver): 799-805, 643-645; 158-163 and 506-511 leave hanging_node_modifications_ alone *)
Definition with_vector : oparams := mko common_defaults HackbuschReusken 10 (1 / 2) None None.
(** Newton(go, solver): 807-813, 650-652, 170, 518 *)
Definition without_vector : oparams := mko common_defaults HackbuschReusken 10 (1 / 2) (Some false) (Some false).

(** NewtonDefectError, an exception of the grid operator, NewtonLinearSolverError, NewtonLineSearchError,
    NewtonNotConverged *)
Inductive ofailure := ODefect | OAssembly | OLinear | OSearch | ONotConverged.
(** normal, exception (with the state it leaves), undefined behaviour *)
Inductive oout (A : Type) := ONorm (s : A) | ORaise (f : ofailure) (s : A) | OUndef.
Arguments ONorm {A}. Arguments ORaise {A}. Arguments OUndef {A}.

(** A value of a parameter tree, by the type its text can be read as (simplified: a number read as a flag is a VBool here). *)
Inductive pval := VReal (r : R) | VNat (n : nat) | VBool (b : bool) | VString (s : string).
(** strategyFromName: 771-779 *)
Definition strategy_from_name (s : string) : Common.res strategy :=
  if String.eqb s "noLineSearch" then Ok NoLineSearch
  else if String.eqb s "hackbuschReusken" then Ok HackbuschReusken
  else if String.eqb s "hackbuschReuskenAcceptBest" then Ok HackbuschReuskenAcceptBest
  else Throw.
Definition set_opt (o : params) (p : oparams) : oparams :=
  mko o (strat p) (tries p) (damp p) (hang_defect p) (hang_prepare p).
(** ParameterTree::get of the three types: throws if the text is not of that type *)
Definition as_real (v : pval) : Common.res R := match v with VReal r => Ok r | VNat n => Ok (INR n) | _ => Throw end.
Definition as_nat (v : pval) : Common.res nat := match v with VNat n => Ok n | _ => Throw end.
Definition as_bool (v : pval) : Common.res bool := match v with VBool b => Ok b | _ => Throw end.
Definition as_string (v : pval) : Common.res string := match v with VString s => Ok s | _ => Throw end.
(** The setters of 83-86, 186-189, 459-477, 527-550, 660-673 with the keys of 839-877, in this order *)
Definition settings : list (string * (pval -> oparams -> Common.res oparams)) := [
  ("VerbosityLevel"%string, fun v p => let* _ := as_nat v in Ok p);
  ("Reduction"%string, fun v p => let* r := as_real v in let o := opt p in
     Ok (set_opt (mkparams r (absolute_limit o) (keep_matrix o) (use_max_norm o) (hanging_nodes o) (min_linear_reduction o) (fixed_linear_reduction o) (reassemble_threshold o) (max_iterations o) (force_iteration o) (matrix_free o)) p));
  ("MaxIterations"%string, fun v p => let* n := as_nat v in let o := opt p in
     Ok (set_opt (mkparams (reduction o) (absolute_limit o) (keep_matrix o) (use_max_norm o) (hanging_nodes o) (min_linear_reduction o) (fixed_linear_reduction o) (reassemble_threshold o) n (force_iteration o) (matrix_free o)) p));
  ("ForceIteration"%string, fun v p => let* b := as_bool v in let o := opt p in
     Ok (set_opt (mkparams (reduction o) (absolute_limit o) (keep_matrix o) (use_max_norm o) (hanging_nodes o) (min_linear_reduction o) (fixed_linear_reduction o) (reassemble_threshold o) (max_iterations o) b (matrix_free o)) p));
  ("AbsoluteLimit"%string, fun v p => let* r := as_real v in let o := opt p in
     Ok (set_opt (mkparams (reduction o) r (keep_matrix o) (use_max_norm o) (hanging_nodes o) (min_linear_reduction o) (fixed_linear_reduction o) (reassemble_threshold o) (max_iterations o) (force_iteration o) (matrix_free o)) p));
  ("MinLinearReduction"%string, fun v p => let* r := as_real v in let o := opt p in
     Ok (set_opt (mkparams (reduction o) (absolute_limit o) (keep_matrix o) (use_max_norm o) (hanging_nodes o) r (fixed_linear_reduction o) (reassemble_threshold o) (max_iterations o) (force_iteration o) (matrix_free o)) p));
  ("FixedLinearReduction"%string, fun v p => let* b := as_bool v in let o := opt p in
     Ok (set_opt (mkparams (reduction o) (absolute_limit o) (keep_matrix o) (use_max_norm o) (hanging_nodes o) (min_linear_reduction o) b (reassemble_threshold o) (max_iterations o) (force_iteration o) (matrix_free o)) p));
  ("ReassembleThreshold"%string, fun v p => let* r := as_real v in let o := opt p in
     Ok (set_opt (mkparams (reduction o) (absolute_limit o) (keep_matrix o) (use_max_norm o) (hanging_nodes o) (min_linear_reduction o) (fixed_linear_reduction o) r (max_iterations o) (force_iteration o) (matrix_free o)) p));
  ("LineSearchStrategy"%string, fun v p => let* s := as_string v in let* t := strategy_from_name s in
     Ok (mko (opt p) t (tries p) (damp p) (hang_defect p) (hang_prepare p)));
  ("LineSearchMaxIterations"%string, fun v p => let* n := as_nat v in
     Ok (mko (opt p) (strat p) n (damp p) (hang_defect p) (hang_prepare p)));
  ("LineSearchDampingFactor"%string, fun v p => let* r := as_real v in
     Ok (mko (opt p) (strat p) (tries p) r (hang_defect p) (hang_prepare p)));
  ("KeepMatrix"%string, fun v p => let* b := as_bool v in let o := opt p in
     Ok (set_opt (mkparams (reduction o) (absolute_limit o) b (use_max_norm o) (hanging_nodes o) (min_linear_reduction o) (fixed_linear_reduction o) (reassemble_threshold o) (max_iterations o) (force_iteration o) (matrix_free o)) p));
  ("UseMaxNorm"%string, fun v p => let* b := as_bool v in let o := opt p in
     Ok (set_opt (mkparams (reduction o) (absolute_limit o) (keep_matrix o) b (hanging_nodes o) (min_linear_reduction o) (fixed_linear_reduction o) (reassemble_threshold o) (max_iterations o) (force_iteration o) (matrix_free o)) p)) ].
(** setParameters: 836-878.  [t]: the tree.  An exception leaves the options set so far; that state is not kept here. *)
Definition set_parameters (t : string -> option pval) (p : oparams) : Common.res oparams :=
  foldM (fun p k => match t (fst k) with Some v => snd k v p | None => Ok p end) settings p.

Section Old.
  Context {V W : Type}.
  (** as in NewtonModel; repair: 200-208 = 564-572 *)
  Context (repair : V -> V) (residual : V -> option W) (jacobian_ok : V -> bool) (norm : bool -> W -> ext)
          (axpy : R -> V -> V -> V).
  Notation core := (core (V := V) (W := W)).
  Notation event := (event (V := V)).
  Notation run := (run (V := V) (W := W)).
  Context (linear_solver : list event -> option (list V) -> W -> ext -> bool * V * Z).

  (** NewtonSolver::defect: 197-228.  The defect is stored before it is found not to be finite. *)
  Definition odefect (p : oparams) (c : core) : oout core :=
    match hang_defect p with
    | None => OUndef
    | Some h =>
        let x := if h then repair (sol c) else sol c in
        match residual x with
        | None => ORaise OAssembly (mkcore x (NewtonModel.res c) (defect c) (x :: evals c))
        | Some r =>
            let c1 := mkcore x r (norm (use_max_norm (opt p)) r) (x :: evals c) in
            match defect c1 with Fin _ => ONorm c1 | _ => ORaise ODefect c1 end
        end
    end.

  (** The loop of the line search: 693-762; [n]: trials left after this one.  A NewtonDefectError is ignored (702-709).
      TExhausted: the condition of 724 holds. *)
  Inductive otrial := TAccepted (c : core) | TExhausted (lambda best : R) (c : core) | TRaised (f : ofailure) (c : core)
                    | TUndef.
  Fixpoint otrials (p : oparams) (corr x0 : V) (previous : ext) (n : nat) (lambda best : R) (dbest : ext) (c : core)
    : otrial :=
    let judge c1 :=
      if le (defect c1) (mul (Fin (1 - lambda / 4)) previous) then TAccepted c1
      else
        let better := lt (defect c1) dbest in
        let best1 := if better then lambda else best in
        match n with
        | O => TExhausted lambda best1 c1
        | S n' => otrials p corr x0 previous n' (lambda * damp p) best1 (if better then defect c1 else dbest)
                          (with_sol x0 c1)
        end in
    match odefect p (with_sol (axpy (- lambda) corr (sol c)) c) with
    | OUndef => TUndef
    | ONorm c1 => judge c1
    | ORaise ODefect c1 => judge c1
    | ORaise f c1 => TRaised f c1
    end.
  (** 731-736, 740-745 *)
  Definition ogive_up (p : oparams) (x0 : V) (c : core) : oout core :=
    match odefect p (with_sol x0 c) with
    | ONorm c1 => ORaise OSearch c1
    | o => o
    end.
  (** line_search: 675-767.  The test at the end of the body makes at least one trial.  [previous]: prev_defect_. *)
  Definition osearch (p : oparams) (previous : ext) (c : core) (corr : V) : oout core :=
    if match strat p with NoLineSearch => true | _ => false end || lt (defect c) (Fin (absolute_limit (opt p))) then
      odefect p (with_sol (axpy (-1) corr (sol c)) c)
    else
      match otrials p corr (sol c) previous (pred (tries p)) 1 0 (defect c) c with
      | TUndef => OUndef
      | TRaised f c1 => ORaise f c1
      | TAccepted c1 => ONorm c1
      | TExhausted lambda best c1 =>
          match strat p with
          | HackbuschReusken => ogive_up p (sol c) c1
          | HackbuschReuskenAcceptBest =>
              if Req_EM_T best 0 then ogive_up p (sol c) c1
              else if Req_EM_T best lambda then ONorm c1
              else odefect p (with_sol (axpy (- best) corr (sol c)) c1)
          | NoLineSearch => ONorm c1
          end
      end.

  (** terminate: 479-489.  None: throws. *)
  Definition oterminate (p : oparams) (s : run) : option bool * run :=
    if force_iteration (opt p) && (iterations s =? 0)%nat then (Some false, s)
    else
      let ok := lt (defect (vecs s)) (Fin (absolute_limit (opt p))) ||
                lt (defect (vecs s)) (mul (first s) (Fin (reduction (opt p)))) in
      let s1 := set_converged ok s in
      if (max_iterations (opt p) <=? iterations s)%nat && negb ok then (None, s1) else (Some ok, s1).

  (** prepare_step, first half: 560-580 *)
  Definition oreassemble (p : oparams) (s : run) : oout run :=
    let s0 := set_matrix (matrix s) false s in
    if lt (Fin (reassemble_threshold (opt p))) (div (defect (vecs s)) (previous s)) then
      match hang_prepare p with
      | None => OUndef
      | Some h =>
          let x := if h then repair (sol (vecs s)) else sol (vecs s) in
          let s1 := set_vecs (with_sol x (vecs s)) s0 in
          let zeroed := Some (@nil V) in
          if jacobian_ok x then ONorm (set_matrix (Some (option_map (cons x) zeroed)) true s1)
          else ORaise OAssembly (set_matrix (Some None) false s1)
      end
    else ONorm s0.
  (** prepare_step, second half: 582-602 *)
  Definition olinear_reduction (p : oparams) (s : run) : ext :=
    let d := defect (vecs s) in
    if fixed_linear_reduction (opt p) || ((iterations s =? 0)%nat && lt (first s) (Fin (absolute_limit (opt p)))) then
      Fin (min_linear_reduction (opt p))
    else
      let stop := emax (mul (first s) (Fin (reduction (opt p)))) (Fin (absolute_limit (opt p))) in
      emax (div stop (mul (Fin 10) d))
           (emin (Fin (min_linear_reduction (opt p))) (div (mul d d) (mul (previous s) (previous s)))).

  (** linearSolve and the bookkeeping around it: 232-253, 345-361; prev_defect_ was set at the end of prepare_step (604) *)
  Definition osolve (p : oparams) (red : ext) (s : run) : bool * run * V :=
    let m := match matrix s with Some m => m | None => None end in
    match linear_solver (log s) m (NewtonModel.res (vecs s)) red with
    | (ok, corr, its) =>
        let e := mkevent m (sol (vecs s)) (defect (vecs s)) (previous s) (reassemble_threshold (opt p))
                         (negb (reassembled s)) red its (iterations s) in
        (ok, mkrun (vecs s) (matrix s) (reassembled s) (defect (vecs s)) (first s) (converged s) (iterations s)
                   (result_reduction s) (linear_its s + its)%Z (e :: log s), corr)
    end.

  (** One pass through the body of the loop: 317-380.  After a failed line search with a matrix that was not reassembled in
      this pass the loop goes on (369-376). *)
  Definition oiterate (p : oparams) (s : run) : oout run :=
    match oreassemble p s with
    | OUndef => OUndef
    | ORaise f s1 => ORaise f s1
    | ONorm s1 =>
        match osolve p (olinear_reduction p s1) s1 with
        | (false, s2, _) => ORaise OLinear s2
        | (true, s2, corr) =>
            match osearch p (previous s2) (vecs s2) corr with
            | OUndef => OUndef
            | ORaise OSearch c => if reassembled s2 then ORaise OSearch (set_vecs c s2) else ONorm (set_vecs c s2)
            | ORaise f c => ORaise f (set_vecs c s2)
            | ONorm c =>
                ONorm (mkrun c (matrix s2) (reassembled s2) (previous s2) (first s2) (converged s2)
                             (S (iterations s2)) (div (defect c) (first s2)) (linear_its s2) (log s2))
            end
        end
    end.

  (** The loop: 315-407; every pass counts as one unit of fuel, None: fuel used up. *)
  Fixpoint oloop (p : oparams) (fuel : nat) (s : run) : option (oout run) :=
    match oterminate p s with
    | (None, s1) => Some (ORaise ONotConverged s1)
    | (Some true, s1) => Some (ONorm s1)
    | (Some false, s1) =>
        match fuel with
        | O => None
        | S fuel' =>
            match oiterate p s1 with
            | ONorm s2 => oloop p fuel' s2
            | o => Some o
            end
        end
    end.

  (** apply(u): 261-430; [s]: the object before, [x]: u. *)
  Definition oapply (p : oparams) (fuel : nat) (s : run) (x : V) : option (oout run) :=
    let s0 := mkrun (mkcore x (NewtonModel.res (vecs s)) (defect (vecs s)) []) (matrix s) (reassembled s) (previous s)
                    (first s) false 0 (Fin 1) 0 (log s) in
    match odefect p (vecs s0) with
    | OUndef => Some OUndef
    | ORaise f c => Some (ORaise f (set_vecs c s0))
    | ONorm c =>
        let s1 := mkrun c (match matrix s0 with None => Some None | m => m end) (reassembled s0) (defect c) (defect c)
                        (converged s0) (iterations s0) (result_reduction s0) (linear_its s0) (log s0) in
        match oloop p fuel s1 with
        | Some (ONorm s2) => Some (ONorm (if keep_matrix (opt p) then s2 else set_matrix None (reassembled s2) s2))
        | o => o
        end
    end.
End Old.
