(** Model of the sequential matrix-free solver backend and of its use in Newton's method.

    Modelled code:
    - dune/pdelab/backend/istl/seqistlsolverbackend.hh 45-100 (OnTheFlyOperator)
    - dune/pdelab/backend/istl/matrixfree/gridoperatorpreconditioner.hh 32-91
    - dune/pdelab/backend/istl/matrixfree/backends.hh 61-142 (ISTLBackend_SEQ_MatrixFree_Base)
    - dune/pdelab/gridoperator/gridoperator.hh 191-205 (jacobian_apply)
    - dune/pdelab/solver/newton.hh 200-275 (the steps of a matrix-free Newton iteration, without line search control,
      statistics and output)

    Simplifications: vectors are functions to the real numbers; the vectors of the caller are a store from addresses to
    contents, because the backend keeps the address of the linearization point and not its content; the Krylov solver of
    dune-istl is any program that calls the operator and the preconditioner and nothing else, after calling pre once. *)
From Coq Require Import Reals.
From Verif Require Import Common.

Definition vec := nat -> R.
Definition zero_vec : vec := fun _ => 0%R.
Definition axpy (y : vec) (alpha : R) (x : vec) : vec := fun i => (y i + alpha * x i)%R.

(** The living vectors of the caller. *)
Definition store := nat -> option vec.
Definition put (H : store) (a : nat) (v : option vec) : store := fun b => if b =? a then v else H b.

(** What a Krylov solver does. *)
Inductive prog :=
| Return (z : vec)
| CallApply (x : vec) (k : vec -> prog)                              (** y = A x *)
| CallScaleAdd (alpha : R) (x y : vec) (k : vec -> prog)             (** y = y + alpha A x *)
| CallPrec (d : vec) (k : vec -> prog).                              (** v = 0; v = v + B d *)

Section backend.
  Variable is_linear : bool.
  (** The assembly of the Jacobian at [u] applied to [x], added to the result; a linear operator has no [u]. *)
  Variable assemble : option vec -> vec -> vec.
  (** Cached blocks of the local operator of the preconditioner; assembled by its residual, at the point it is given. *)
  Variable blocks : Type.
  Variable setup : option vec -> blocks.
  (** jacobian_apply of the preconditioner: uses the cache, and the point (off-diagonal blocks of SOR). *)
  Variable precondition : blocks -> option vec -> vec -> vec.

  (** gridoperator.hh 191-197 *)
  Definition jacobian_apply_linear (x y : vec) : res vec :=
    if negb is_linear then Throw else Ok (fun i => (y i + assemble None x i)%R).
  (** gridoperator.hh 199-205 *)
  Definition jacobian_apply_nonlinear (u x y : vec) : res vec :=
    if is_linear then Throw else Ok (fun i => (y i + assemble (Some u) x i)%R).

  (** Dereference of a pointer to a vector. *)
  Definition deref (H : store) (a : nat) : res vec := match H a with Some v => Ok v | None => UB end.

  (** seqistlsolverbackend.hh 66-76 *)
  Definition fly_apply (H : store) (u_ : option nat) (x y : vec) : res vec :=
    let y := zero_vec in
    if is_linear then jacobian_apply_linear x y else
    match u_ with
    | None => Throw
    | Some a => let* u := deref H a in jacobian_apply_nonlinear u x y
    end.
  (** seqistlsolverbackend.hh 78-90 *)
  Definition fly_applyscaleadd (H : store) (u_ : option nat) (alpha : R) (x y : vec) : res vec :=
    let temp := zero_vec in
    let* temp :=
      if is_linear then jacobian_apply_linear x temp else
      match u_ with
      | None => Throw
      | Some a => let* u := deref H a in jacobian_apply_nonlinear u x temp
      end in
    Ok (axpy y alpha temp).

  (** The state of the backend: the pointers of the operator and of the preconditioner, the flag and the cache of the
      local operator of the preconditioner. *)
  Record state := State { op_point : option nat; prec_point : option nat; require_setup : bool; cache : option blocks }.
  Definition init : state := State None None true None.

  (** backends.hh 126-130 *)
  Definition set_linearization_point (a : nat) (s : state) : state := State (Some a) (Some a) (require_setup s) (cache s).
  (** setRequireSetup(true) of the local operator of the preconditioner *)
  Definition demand_setup (s : state) : state := State (op_point s) (prec_point s) true (cache s).

  (** gridoperatorpreconditioner.hh 44-75 *)
  Definition pre (H : store) (s : state) : res state :=
    if negb is_linear && match prec_point s with None => true | Some _ => false end then Throw else
    if require_setup s then
      let* point := if is_linear then Ok None else
                    match prec_point s with None => UB | Some a => let* u := deref H a in Ok (Some u) end in
      Ok (State (op_point s) (prec_point s) false (Some (setup point)))
    else Ok s.

  (** gridoperatorpreconditioner.hh 77-83; the local operators assert that they are set up. *)
  Definition prec_apply (H : store) (s : state) (d v : vec) : res vec :=
    match cache s with
    | None => UB
    | Some c =>
        if require_setup s then UB else
        if is_linear then Ok (fun i => (v i + precondition c None d i)%R) else
        match prec_point s with
        | None => UB
        | Some a => let* u := deref H a in Ok (fun i => (v i + precondition c (Some u) d i)%R)
        end
    end.

  (** A run of a solver. *)
  Fixpoint run (H : store) (s : state) (p : prog) : res vec :=
    match p with
    | Return z => Ok z
    | CallApply x k => let* y := fly_apply H (op_point s) x zero_vec in run H s (k y)
    | CallScaleAdd alpha x y k => let* y := fly_applyscaleadd H (op_point s) alpha x y in run H s (k y)
    | CallPrec d k => let* v := prec_apply H s d zero_vec in run H s (k v)
    end.

  Variable solver : vec -> vec -> prog.     (** initial guess, right hand side *)

  (** backends.hh 112-122: a new solver object for every call; the solvers call pre first. *)
  Definition backend_apply (H : store) (s : state) (z r : vec) : res (state * vec) :=
    let* s := pre H s in
    let* z := run H s (solver z r) in
    Ok (s, z).

  (** Calls of the user, and what the user does to the vectors between them. *)
  Inductive op :=
  | Write (a : nat) (v : vec)          (** create or overwrite the vector at [a] *)
  | Free (a : nat)
  | SetPoint (a : nat)
  | Demand
  | Solve (z r : vec).
  Definition step (Hs : store * state) (o : op) : res (store * state) :=
    let '(H, s) := Hs in
    match o with
    | Write a v => Ok (put H a (Some v), s)
    | Free a => Ok (put H a None, s)
    | SetPoint a => match H a with Some _ => Ok (H, set_linearization_point a s) | None => UB end
    | Demand => Ok (H, demand_setup s)
    | Solve z r => let* sz := backend_apply H s z r in Ok (H, fst sz)
    end.

  (** newton.hh 216-275 with a full step: defect at the solution, setLinearizationPoint(solution), solve with start value
      zero, solution -= correction. The solution lives at [a]. *)
  Variable residual : vec -> vec.
  Definition newton_step (a : nat) (Hs : store * state) : res (store * state) :=
    let '(H, s) := Hs in
    let* u := deref H a in
    let r := residual u in
    let s := set_linearization_point a s in
    let* sz := backend_apply H s zero_vec r in
    let '(s, z) := sz in
    Ok (put H a (Some (axpy u (-1) z)), s).
  Fixpoint newton_steps (n : nat) (a : nat) (Hs : store * state) : res (store * state) :=
    match n with
    | 0 => Ok Hs
    | S n => let* Hs := newton_steps n a Hs in newton_step a Hs
    end.
End backend.
Arguments State {blocks}.
Arguments op_point {blocks}.
Arguments prec_point {blocks}.
Arguments require_setup {blocks}.
Arguments cache {blocks}.
Arguments init {blocks}.
