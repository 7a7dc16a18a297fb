(** Model of StationaryLinearProblemSolver: dune/pdelab/stationary/linearproblem.hh.
    Timings and output are left out.  Vectors live in a store and are named by numbers, since the solver keeps a pointer to
    the vector it was given. *)
From Coq Require Import RIneq.
From Verif Require Export ConsModel.
Local Open Scope R_scope.

(** What the linear solver backend returns: backend/solver.hh, LinearSolverResult (fields used here). *)
Inductive ls_out :=
| LsThrow
| LsDone (z : vec) (converged : bool) (iterations : nat) (reduction : R).

(** The grid operator (residual and Jacobian assembly, both additive and called with zeroed targets), the trial constraints
    of its local assembler, the norm and the apply method of the linear solver.  The solver gets no matrix when it is matrix
    free (linearSolverIsMatrixFree), and the requested reduction, where [None] stands for infinity. *)
Record problem := mkproblem {
  residual : vec -> vec;
  jacobian : vec -> mat;
  trial : container;
  norm : vec -> R;
  matrix_free : bool;
  solve : option mat -> vec -> option R -> ls_out }.

(** Members: 326-336.  [matrix]: no matrix, allocated but not assembled, assembled. *)
Inductive matrix_state := NoMatrix | Allocated | Assembled (m : mat).
Record solver := mksolver {
  store : nat -> vec;
  target : option nat;
  reduction : R;
  min_defect : R;
  hanging : bool;
  keep : bool;
  matrix : matrix_state;
  res_converged : bool;
  res_iterations : nat;
  res_reduction : R;
  first_defect : R;
  defect : R }.
(** Constructors 71-91 (the ones from a ParameterTree, 111-149, only differ in where the values come from). *)
Definition construct (st : nat -> vec) (x : option nat) (red md : R) : solver :=
  mksolver st x red md false true NoMatrix false 0 0 0 0.

Definition set_store f s := mksolver f (target s) (reduction s) (min_defect s) (hanging s) (keep s) (matrix s)
  (res_converged s) (res_iterations s) (res_reduction s) (first_defect s) (defect s).
Definition set_target i s := mksolver (store s) i (reduction s) (min_defect s) (hanging s) (keep s) (matrix s)
  (res_converged s) (res_iterations s) (res_reduction s) (first_defect s) (defect s).
Definition set_matrix m s := mksolver (store s) (target s) (reduction s) (min_defect s) (hanging s) (keep s) m
  (res_converged s) (res_iterations s) (res_reduction s) (first_defect s) (defect s).
(** setReduction 320-323, setHangingNodeModifications 152-155, setKeepMatrix 164-167 *)
Definition set_reduction r s := mksolver (store s) (target s) r (min_defect s) (hanging s) (keep s) (matrix s)
  (res_converged s) (res_iterations s) (res_reduction s) (first_defect s) (defect s).
Definition set_hanging b s := mksolver (store s) (target s) (reduction s) (min_defect s) b (keep s) (matrix s)
  (res_converged s) (res_iterations s) (res_reduction s) (first_defect s) (defect s).
Definition set_keep b s := mksolver (store s) (target s) (reduction s) (min_defect s) (hanging s) b (matrix s)
  (res_converged s) (res_iterations s) (res_reduction s) (first_defect s) (defect s).
(** 282-289 *)
Definition set_result c it r f d s := mksolver (store s) (target s) (reduction s) (min_defect s) (hanging s) (keep s) (matrix s)
  c it r f d.

(** max(_reduction, _min_defect/defect): 260; for a zero defect the quotient is infinite, or NaN, which max drops, if the
    minimal defect is zero as well. *)
Definition requested (red md d : R) : option R :=
  if Req_EM_T d 0 then (if Rlt_dec 0 md then None else Some red)
  else Some (if Rlt_dec red (md / d) then md / d else red).

(** Where an exception may come from besides the linear solver. *)
Inductive fault := NoFault | InJacobian | InResidual.
Inductive outcome := Fine | Raised | Undefined.
Definition place (i : nat) (v : vec) (st : nat -> vec) : nat -> vec := fun k => if (k =? i)%nat then v else st k.
Definition vsub (x z : vec) : vec := fun g => x g - z g.

(** apply: 188-302 *)
Definition apply (p : problem) (reuse : bool) (f : fault) (s : solver) : solver * outcome :=
  (* 196-212 *)
  let s := if matrix_free p then s else match matrix s with NoMatrix => set_matrix Allocated s | _ => s end in
  match target s with
  | None => (s, Undefined)
  | Some i =>
      (* 214-218 *)
      let s := if hanging s then set_store (place i (backward false (trial p) (set_shifted (trial p) 0 (store s i))) (store s)) s else s in
      let x := store s i in
      (* 221-227 *)
      let assemble := negb (matrix_free p) && negb reuse in
      match f with
      | InJacobian => if assemble then (set_matrix Allocated s, Raised) else (s, Raised)
      | _ =>
          let s := if assemble then set_matrix (Assembled (jacobian p x)) s else s in
          match f with
          | InResidual => (s, Raised)
          | _ =>
              (* 245-260 *)
              let r := residual p x in
              let d := norm p r in
              let red := requested (reduction s) (min_defect s) d in
              (* 269-274 *)
              let answer :=
                if matrix_free p then Some (solve p None r red)
                else match matrix s with Assembled m => Some (solve p (Some m) r red) | _ => None end in
              match answer with
              | None => (s, Undefined)
              | Some LsThrow => (s, Raised)
              | Some (LsDone z c it rr) =>
                  let s := set_result c it rr d (d * rr) s in
                  (* 292-296 *)
                  let x1 := if hanging s then set_shifted (trial p) 0 x else x in
                  let x2 := vsub x1 z in
                  let x3 := if hanging s then backward false (trial p) x2 else x2 in
                  let s := set_store (place i x3 (store s)) s in
                  (* 298-301 *)
                  (if negb (matrix_free p) && negb (keep s) then set_matrix NoMatrix s else s, Fine)
              end
          end
      end
  end.

(** The calls of a user: apply with or without a vector (182-191), discardMatrix (305-309), the setters, and changing a vector. *)
Inductive call :=
| Apply (reuse : bool) (f : fault)
| ApplyTo (i : nat) (reuse : bool) (f : fault)
| Discard
| SetKeep (b : bool)
| SetHanging (b : bool)
| SetReduction (r : R)
| Change (i : nat) (v : vec).
Definition step (p : problem) (s : solver) (c : call) : solver * outcome :=
  match c with
  | Apply reuse f => apply p reuse f s
  | ApplyTo i reuse f => apply p reuse f (set_target (Some i) s)
  | Discard => (set_matrix NoMatrix s, Fine)
  | SetKeep b => (set_keep b s, Fine)
  | SetHanging b => (set_hanging b s, Fine)
  | SetReduction r => (set_reduction r s, Fine)
  | Change i v => (set_store (place i v (store s)) s, Fine)
  end.
(** A sequence of calls; it goes on after an exception, and nothing is said about what follows undefined behaviour. *)
Fixpoint run (p : problem) (s : solver) (l : list call) : option solver :=
  match l with
  | [] => Some s
  | c :: l' => match step p s c with (_, Undefined) => None | (s', _) => run p s' l' end
  end.
