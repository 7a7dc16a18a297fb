(** The linear problem StationaryLinearProblemSolver gets from a stage of a one-step method (instationary/onestep.hh 170-215,
    stationary/linearproblem.hh 193-300): residual and matrix of OneStepGridOperator, both assembled into zeroed targets. *)
From Verif Require Export HangStepModel.
From Verif Require LinModel.
Local Open Scope R_scope.

Definition stage_problem (t : transformation) (symmetric : bool) (G : space) (L0 L1 : terms R) (J0 J1 : jterms) (e : env) (cells : list cell)
    (o : os) (const : vec) (p : rest R * rest R) (q : jest * jest) (norm : vec -> R) (matrix_free : bool)
    (solve : option mat -> vec -> option R -> LinModel.ls_out) : LinModel.problem :=
  LinModel.mkproblem (fun x => hanging_residual t G L0 L1 e cells o const p x vzero)
    (fun x => hanging_jacobian t t symmetric G L0 L1 J0 J1 e cells o q x mzero) (entries t) norm matrix_free solve.
