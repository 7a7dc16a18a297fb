(** Errors of grid functions: gridfunctionspace/gridfunctionadapter.hh 11-100 together with integrateGridFunction
    (common/functionutilities.hh 81-108, GfModel.v). *)
From Coq Require Export Reals List.
From Verif Require Export CdModel GfModel.
Export ListNotations.
Local Open Scope R_scope.

(** FieldVector::operator-= on vectors with n components (dune-common), used at gridfunctionadapter.hh 42 and 88 *)
Definition subtract (n : nat) (y1 y2 : vec) : vec := fun c => if (c <? n)%nat then y1 c - y2 c else y1 c.
(** FieldVector::two_norm2 (dune-common), used at gridfunctionadapter.hh 89 *)
Definition two_norm2 (n : nat) (y : vec) : R := fold_left (fun s c => s + y c * y c) (seq 0 n) 0.
(** DifferenceAdapter::evaluate, gridfunctionadapter.hh 33-44: values with one component *)
Definition difference (f1 f2 : field) : field := fun e x => subtract 1 (f1 e x) (f2 e x).
(** DifferenceSquaredAdapter::evaluate, gridfunctionadapter.hh 79-90; the result has one component, a vector made of a number has it everywhere *)
Definition difference_squared (n : nat) (f1 f2 : field) : field := fun e x _ => two_norm2 n (subtract n (f1 e x) (f2 e x)).
(** How the adapter is used, test/testconvectiondiffusiondg.cc 157-160 (there on one process and without the root): the root of the integral,
    summed over the processes *)
Definition l2_error (n : nat) (f1 f2 : field) (procs : list (list gcell)) : R :=
  sqrt (comm_sum (map (integrate (difference_squared n f1 f2)) procs) 0%nat).
