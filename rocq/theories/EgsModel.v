(** backend/eigen/solvers.hh: linear solver backends on top of the solvers of Eigen.  The solvers themselves (compute and solve) belong to
    Eigen and are a parameter. *)
From Coq Require Export Reals List.
From Verif Require Export EngineModel.
Export ListNotations.
Local Open Scope R_scope.

(** The backends: BiCGSTAB 26-99 (_IILU, _Diagonal) and CG 101-184 (_Up, _Lo).  EigenBackend_SPD_Base (186-252) and EigenBackend_LeastSquares
    (302-343) are left out: their apply asks direct solvers of Eigen for iterations() and error(), which these do not have. *)
Inductive half := Up | Lo.
Inductive kind := BiCGSTAB | CG (t : half).
(** The matrix a solver of Eigen works with: those with the template argument Upper or Lower read one triangle (with the diagonal) and take
    the other one as its mirror image (selfadjointView, Eigen). *)
Definition seen (k : kind) (A : mat) : mat :=
  match k with
  | BiCGSTAB => A
  | CG Up => fun i j => if (i <=? j)%nat then A i j else A j i
  | CG Lo => fun i j => if (j <=? i)%nat then A i j else A j i
  end.
(** What compute and solve leave behind: the vector, info() == Success, iterations() and error() (63-67, 137-141). *)
Record outcome := mkout { o_vec : nat -> R; o_success : bool; o_iterations : nat; o_error : R }.
(** solve: for the matrix, the right hand side, setTolerance and setMaxIterations (55-60, 128-133) *)
Definition eigen := mat -> (nat -> R) -> R -> nat -> outcome.
(** LinearSolverResult, backend/solver.hh 28-51 (elapsed time left out) *)
Record result := mkresult { converged : bool; iterations : nat; reduction : R; conv_rate : R }.
Definition cleared_result : result := mkresult false 0 0 0.
(** A backend object; [maxiter] is fixed at construction: 35-37, 76-79, 110-112, 144-146. *)
Record backend := mkb { b_kind : kind; b_maxiter : nat; b_res : result }.
Definition make (k : kind) (maxiter : nat) : backend := mkb k maxiter cleared_result.
(** apply: 47-69, 122-142.  z is assigned, r and A are not written. *)
Definition apply (E : eigen) (b : backend) (A : mat) (z r : nat -> R) (red : R) : backend * (nat -> R) * (nat -> R) :=
  let o := E (seen (b_kind b) A) r red (b_maxiter b) in
  (mkb (b_kind b) (b_maxiter b) (mkresult (o_success o) (o_iterations o) (o_error o) 0), o_vec o, r).
(** A program of calls on one backend. *)
Definition call := (mat * (nat -> R) * (nat -> R) * R)%type.
Definition calls (E : eigen) (l : list call) (b : backend) : backend :=
  fold_left (fun b '(A, z, r, red) => fst (fst (apply E b A z r red))) l b.
