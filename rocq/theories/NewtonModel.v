(** Model of NewtonMethod (dune/pdelab/solver/newton.hh), its termination criterion (solver/terminate.hh) and the line
    searches (solver/linesearch.hh).

    The grid operator, the norms and the linear solver are arbitrary functions: the residual and the Jacobian assembly may
    throw, the linear solver may depend on everything that happened before.  Norms take values in the reals extended by
    infinities and NaN.  Not modelled: rounding and overflow of finite numbers, output, timings, conv_rate, counter
    overflow; exceptions thrown by the linear solver itself are counted as "not converged". *)
From Coq Require Export Reals ZArith.
From Verif Require Export Common.
Local Open Scope R_scope.

(** IEEE-like numbers; finite operations are exact. *)
Inductive ext := Fin (r : R) | PInf | MInf | NaN.
Definition lt (a b : ext) : bool :=
  match a, b with
  | Fin x, Fin y => if Rlt_dec x y then true else false
  | Fin _, PInf | MInf, Fin _ | MInf, PInf => true
  | _, _ => false
  end.
Definition le (a b : ext) : bool :=
  match a, b with
  | Fin x, Fin y => if Rle_dec x y then true else false
  | Fin _, PInf | MInf, Fin _ | MInf, PInf | PInf, PInf | MInf, MInf => true
  | _, _ => false
  end.
(** -1, 0, 1 of a finite number, as an infinity times it *)
Definition signed_inf (r : R) (pos neg : ext) : ext :=
  if Rlt_dec 0 r then pos else if Rlt_dec r 0 then neg else NaN.
Definition mul (a b : ext) : ext :=
  match a, b with
  | Fin x, Fin y => Fin (x * y)
  | Fin x, PInf | PInf, Fin x => signed_inf x PInf MInf
  | Fin x, MInf | MInf, Fin x => signed_inf x MInf PInf
  | PInf, PInf | MInf, MInf => PInf
  | PInf, MInf | MInf, PInf => MInf
  | _, _ => NaN
  end.
(** zero divisors count as +0 *)
Definition div (a b : ext) : ext :=
  match a, b with
  | Fin x, Fin y => if Req_EM_T y 0 then signed_inf x PInf MInf else Fin (x / y)
  | Fin _, PInf | Fin _, MInf => Fin 0
  | PInf, Fin y => if Rlt_dec y 0 then MInf else PInf
  | MInf, Fin y => if Rlt_dec y 0 then PInf else MInf
  | _, _ => NaN
  end.
(** std::max, std::min *)
Definition emax (a b : ext) : ext := if lt a b then b else a.
Definition emin (a b : ext) : ext := if lt b a then b else a.

(** Options: newton.hh 648-668, terminate.hh 73-74, linesearch.hh 208-212; matrix_free = linearSolverIsMatrixFree. *)
Record params := mkparams {
  reduction : R; absolute_limit : R; keep_matrix : bool; use_max_norm : bool; hanging_nodes : bool;
  min_linear_reduction : R; fixed_linear_reduction : bool; reassemble_threshold : R;
  max_iterations : nat; force_iteration : bool; matrix_free : bool }.

Inductive failure := AssemblyError | LinearSolverError | LineSearchError | TerminateError.
Inductive outcome (A : Type) := Normal (s : A) | Raised (f : failure) (s : A).
Arguments Normal {A}. Arguments Raised {A}.
Definition final {A} (o : outcome A) : A := match o with Normal s => s | Raised _ s => s end.

Section Newton.
  (** vectors of the trial space, of the test space *)
  Context {V W : Type}.
  (** what the grid operator and the vector backend do: interpolation of constrained values (newton.hh 104-111 =
      347-354), residual (None: throws), whether assembling the Jacobian succeeds, norms (argument: maximum norm?),
      axpy l c x = x + l c *)
  Context (repair : V -> V) (residual : V -> option W) (jacobian_ok : V -> bool) (norm : bool -> W -> ext)
          (axpy : R -> V -> V -> V) (r0 : W).

  (** The user's solution vector, _residual, _result.defect; [evals]: points at which the residual was evaluated,
      newest first. *)
  Record core := mkcore { sol : V; res : W; defect : ext; evals : list V }.

  (** updateDefect: newton.hh 342-368. *)
  Definition update_defect (p : params) (c : core) : outcome core :=
    let x := if hanging_nodes p then repair (sol c) else sol c in
    match residual x with
    | None => Raised AssemblyError (mkcore x (res c) (defect c) (x :: evals c))
    | Some r => Normal (mkcore x r (norm (use_max_norm p) r) (x :: evals c))
    end.
  Definition with_sol (x : V) (c : core) : core := mkcore x (res c) (defect c) (evals c).

  (** LineSearchNone::lineSearch: linesearch.hh 45-49. *)
  Definition search_none (p : params) (c : core) (corr : V) : outcome core :=
    update_defect p (with_sol (axpy (-1) corr (sol c)) c).

  (** Options of LineSearchHackbuschReusken: linesearch.hh 208-212; accept = _acceptBest or _forceAcceptBest. *)
  Record lsparams := mkls { ls_max : nat; damping : R; accept : bool }.

  (** The loop: linesearch.hh 102-134.  [x0], [d0]: *_previousSolution, previousDefect. *)
  Inductive trial := Accepted (c : core) | Exhausted (lambda best : R) (c : core) | Broken (c : core).
  Fixpoint trials (p : params) (q : lsparams) (corr x0 : V) (d0 : ext) (n : nat) (lambda best : R) (dbest : ext)
           (c : core) : trial :=
    match n with
    | O => Exhausted lambda best c
    | S n' =>
        match update_defect p (with_sol (axpy (- lambda) corr (sol c)) c) with
        | Raised _ c1 => Broken c1
        | Normal c1 =>
            if le (defect c1) (mul (Fin (1 - lambda / 4)) d0) then Accepted c1
            else
              let better := lt (defect c1) dbest in
              trials p q corr x0 d0 n' (lambda * damping q) (if better then lambda else best)
                     (if better then defect c1 else dbest) (with_sol x0 c1)
        end
    end.

  (** LineSearchHackbuschReusken::lineSearch: linesearch.hh 81-169. *)
  Definition give_up (p : params) (x0 : V) (c : core) : outcome core :=
    match update_defect p (with_sol x0 c) with
    | Normal c1 => Raised LineSearchError c1
    | Raised f c1 => Raised f c1
    end.
  Definition search_hr (q : lsparams) (p : params) (c : core) (corr : V) : outcome core :=
    if lt (defect c) (Fin (absolute_limit p)) then update_defect p (with_sol (axpy (-1) corr (sol c)) c)
    else
      let x0 := sol c in
      match trials p q corr x0 (defect c) (ls_max q) 1 0 (defect c) c with
      | Broken c1 => Raised AssemblyError c1
      | Accepted c1 => Normal c1
      | Exhausted lambda best c1 =>
          if negb (accept q) then give_up p x0 c1
          else if Req_EM_T best 0 then give_up p x0 c1
          else if Req_EM_T best lambda then Normal c1
          else update_defect p (with_sol (axpy (- best) corr x0) c1)
      end.

  (** Contents of the matrix: unknown, or the sum of the Jacobians at the listed points. *)
  Notation contents := (option (list V)).
  (** One linear solve: matrix, current solution, its defect, the defect before the step that led to it, threshold,
      reuse flag given to the backend, requested reduction, iterations it took, number of Newton iterations before. *)
  Record event := mkevent { e_matrix : contents; e_at : V; e_defect : ext; e_previous : ext; e_threshold : R;
                            e_reuse : bool; e_reduction : ext; e_its : Z; e_iteration : nat }.
  Context (linear_solver : list event -> contents -> W -> ext -> bool * V * Z).

  (** A NewtonMethod in the middle of apply: vectors, _jacobian (None: null pointer), _reassembled, _previousDefect,
      _result.{first_defect,converged,iterations,reduction,linear_solver_iterations}; all linear solves so far, newest
      first. *)
  Record run := mkrun { vecs : core; matrix : option contents; reassembled : bool; previous : ext; first : ext;
                        converged : bool; iterations : nat; result_reduction : ext; linear_its : Z; log : list event }.
  Definition set_vecs (c : core) (s : run) : run :=
    mkrun c (matrix s) (reassembled s) (previous s) (first s) (converged s) (iterations s) (result_reduction s)
          (linear_its s) (log s).
  Definition set_matrix (m : option contents) (b : bool) (s : run) : run :=
    mkrun (vecs s) m b (previous s) (first s) (converged s) (iterations s) (result_reduction s) (linear_its s) (log s).
  Definition set_converged (b : bool) (s : run) : run :=
    mkrun (vecs s) (matrix s) (reassembled s) (previous s) (first s) b (iterations s) (result_reduction s)
          (linear_its s) (log s).

  (** DefaultTerminate::terminate: terminate.hh 36-46.  None: throws. *)
  Definition terminate (p : params) (s : run) : option bool * run :=
    if force_iteration p && (iterations s =? 0)%nat then (Some false, s)
    else
      let ok := lt (defect (vecs s)) (Fin (absolute_limit p)) ||
                lt (defect (vecs s)) (mul (first s) (Fin (reduction p))) in
      let s1 := set_converged ok s in
      if (max_iterations p <=? iterations s)%nat && negb ok then (None, s1) else (Some ok, s1).

  Definition ratio (s : run) : ext := div (defect (vecs s)) (previous s).
  (** prepareStep, first half: newton.hh 99-121. *)
  Definition reassemble (p : params) (s : run) : outcome run :=
    if lt (Fin (reassemble_threshold p)) (ratio s) then
      let x := if hanging_nodes p then repair (sol (vecs s)) else sol (vecs s) in
      let s1 := set_vecs (with_sol x (vecs s)) (set_matrix (matrix s) false s) in
      if matrix_free p then Normal s1
      else
        let zeroed := Some (@nil V) in
        if jacobian_ok x then Normal (set_matrix (Some (option_map (cons x) zeroed)) true s1)
        else Raised AssemblyError (set_matrix (Some None) false s1)
    else Normal (set_matrix (matrix s) false s).
  (** prepareStep, second half: newton.hh 123-137. *)
  Definition linear_reduction (p : params) (s : run) : ext :=
    let d := defect (vecs s) in
    if negb (fixed_linear_reduction p) &&
       negb ((iterations s =? 0)%nat && lt (first s) (Fin (absolute_limit p))) then
      let stop := emax (mul (first s) (Fin (reduction p))) (Fin (absolute_limit p)) in
      emax (div stop (mul (Fin 10) d))
           (emin (Fin (min_linear_reduction p)) (div (mul d d) (mul (previous s) (previous s))))
    else Fin (min_linear_reduction p).

  (** linearSolve and the bookkeeping around it: newton.hh 145-174, 236-265.  [red]: requested linear reduction as computed by
      prepareStep. *)
  Definition linear_solve (p : params) (red : ext) (s : run) : outcome (run * V) :=
    let m := if matrix_free p then Some [sol (vecs s)]
             else match matrix s with Some m => m | None => None end in
    match linear_solver (log s) m (res (vecs s)) red with
    | (ok, corr, its) =>
        let e := mkevent m (sol (vecs s)) (defect (vecs s)) (previous s) (reassemble_threshold p)
                         (negb (matrix_free p) && negb (reassembled s)) red its (iterations s) in
        let s1 := mkrun (vecs s) (matrix s) (reassembled s) (defect (vecs s)) (first s) (converged s) (iterations s)
                        (result_reduction s) (linear_its s + its)%Z (e :: log s) in
        if ok then Normal (s1, corr) else Raised LinearSolverError (s1, corr)
    end.

  (** A line search: anything that may change the vectors and the defect. *)
  Definition linesearch := params -> core -> V -> outcome core.

  (** One pass through the body of the loop: newton.hh 212-280. *)
  Definition iterate (p : params) (ls : linesearch) (s : run) : outcome run :=
    match reassemble p s with
    | Raised f s1 => Raised f s1
    | Normal s1 =>
        match linear_solve p (linear_reduction p s1) s1 with
        | Raised f (s2, _) => Raised f s2
        | Normal (s2, corr) =>
            match ls p (vecs s2) corr with
            | Raised f c => Raised f (set_vecs c s2)
            | Normal c =>
                Normal (mkrun c (matrix s2) (reassembled s2) (previous s2) (first s2) (converged s2)
                              (S (iterations s2)) (div (defect c) (first s2)) (linear_its s2) (log s2))
            end
        end
    end.

  (** The loop: newton.hh 212-311; every pass counts as one unit of fuel, None: fuel used up. *)
  Fixpoint loop (p : params) (ls : linesearch) (fuel : nat) (s : run) : option (outcome run) :=
    match terminate p s with
    | (None, s1) => Some (Raised TerminateError s1)
    | (Some true, s1) => Some (Normal s1)
    | (Some false, s1) =>
        match fuel with
        | O => None
        | S fuel' =>
            match iterate p ls s1 with
            | Normal s2 => loop p ls fuel' s2
            | Raised f s2 => Some (Raised f s2)
            end
        end
    end.

  (** newton.hh 202-206: the state in which the loop starts. *)
  Definition begin_loop (p : params) (m : option contents) (tr : list event) (c : core) : run :=
    mkrun c (if matrix_free p then m else match m with None => Some None | Some _ => m end)
          true (defect c) (defect c) false 0 (Fin 0) 0 tr.
  (** newton.hh 334-337 *)
  Definition end_loop (p : params) (s : run) : run :=
    if matrix_free p || keep_matrix p then s else set_matrix None (reassembled s) s.
  (** apply: newton.hh 177-339.  [m], [tr]: matrix kept from before, linear solves so far. *)
  Definition apply (p : params) (ls : linesearch) (m : option contents) (tr : list event) (x : V)
    : option (outcome run) :=
    match update_defect p (mkcore x r0 (Fin 0) []) with
    | Raised f c => Some (Raised f (mkrun c m true (Fin 0) (Fin 0) false 0 (Fin 0) 0 tr))
    | Normal c =>
        match loop p ls (S (max_iterations p)) (begin_loop p m tr c) with
        | Some (Normal s) => Some (Normal (end_loop p s))
        | o => o
        end
    end.

  (** A history of calls of apply on one object, each with its options, line search and start vector; the linear solver
      object is only used by this Newton method.  [discard]: discardMatrix (newton.hh 421-425) before the call. *)
  Record call := mkcall { options : params; search : linesearch; discard : bool; start : V }.
  Definition one_call (st : option contents * list event) (k : call) : option contents * list event :=
    match apply (options k) (search k) (if discard k then None else fst st) (snd st) (start k) with
    | Some o => (matrix (final o), log (final o))
    | None => st
    end.
  Definition history (ks : list call) : option contents * list event := fold_left one_call ks (None, []).
End Newton.
