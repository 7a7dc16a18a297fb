(** Specification for C177: what a history says about the vectors of the caller and the linearization point, and a solver
    run on two mathematical maps. *)
From Coq Require Import Reals.
From Verif Require Import Common MfbModel.

(** The content of the vector at [a] after a history. *)
Fixpoint content (h : list op) (a : nat) : option vec :=   (** newest call first *)
  match h with
  | [] => None
  | Write b v :: h => if a =? b then Some v else content h a
  | Free b :: h => if a =? b then None else content h a
  | _ :: h => content h a
  end.
(** The vector given to the last setLinearizationPoint. *)
Fixpoint last_point (h : list op) : option nat :=
  match h with
  | [] => None
  | SetPoint a :: _ => Some a
  | _ :: h => last_point h
  end.
(** No system was solved since setup was demanded last. *)
Fixpoint fresh (h : list op) : Prop :=
  match h with
  | [] => True
  | Demand :: _ => True
  | Solve _ _ :: _ => False
  | _ :: h => fresh h
  end.
Definition no_demand (o : op) : Prop := match o with Demand => False | _ => True end.

(** The solver with the operator [A] and the preconditioner [P]. *)
Fixpoint result (A P : vec -> vec) (p : prog) : vec :=
  match p with
  | Return z => z
  | CallApply x k => result A P (k (A x))
  | CallScaleAdd alpha x y k => result A P (k (fun i => y i + alpha * A x i)%R)
  | CallPrec d k => result A P (k (P d))
  end.

(** Newton's method in which the [k]-th correction is computed with the Jacobian at the [k]-th iterate, and the
    preconditioner with blocks at [w] . *)
Fixpoint iterate (assemble : option vec -> vec -> vec) {B} (setup : option vec -> B) (precondition : B -> option vec -> vec -> vec)
  (solver : vec -> vec -> prog) (residual : vec -> vec) (w u0 : vec) (n : nat) : vec :=
  match n with
  | 0 => u0
  | S n => let u := iterate assemble setup precondition solver residual w u0 n in
           let z := result (assemble (Some u)) (precondition (setup (Some w)) (Some u)) (solver zero_vec (residual u)) in
           fun i => (u i - z i)%R
  end.
