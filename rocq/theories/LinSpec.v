(** What solving a linear problem means. *)
From Verif Require Import LinModel EngineSpec ConsSpec.
Local Open Scope R_scope.

(** Corrections that do not touch constrained DOFs. *)
Definition free_part (cg : container) (z : vec) : Prop := forall g, constrained cg g -> z g = 0.
(** How a correction changes the coefficients: as it is, or with the constrained DOFs interpolated. *)
Definition correction (h : bool) (cg : container) (z : vec) : vec :=
  if h then (fun g => match find g cg with Some ((_ :: _) as r) => lsum (fun e => snd e * z (fst e)) r | _ => z g end) else z.
(** A linear problem with matrix [A]: a correction of the coefficients changes the residual by the product with [A]. *)
Definition linear_problem (N : nat) (h : bool) (p : problem) (A : mat) : Prop :=
  (forall x, jacobian p x = A) /\
  forall x z g, free_part (trial p) z -> residual p (vsub x (correction h (trial p) z)) g = residual p x g - mv N A z g.
(** What the linear solver promises: a converged answer reduces the norm of the residual as requested (a matrix free solver
    knows the matrix), and constrained DOFs stay as they are. *)
Definition keeps_promise (N : nat) (p : problem) (A : mat) : Prop :=
  forall m r red z it rr, solve p m r red = LsDone z true it rr -> m = (if matrix_free p then None else Some A) ->
    free_part (trial p) z /\
    match red with Some q => 0 <= q -> norm p (vsub r (mv N A z)) <= q * norm p r | None => True end.

(** The coefficients the residual is computed for: with the hanging node modification, values of Dirichlet DOFs are kept and
    all others start from zero, constrained ones interpolated. *)
Definition start (p : problem) (h : bool) (x : vec) : vec :=
  if h then (fun g => match find g (trial p) with
                      | Some ((_ :: _) as r) => lsum (fun e => snd e * match find (fst e) (trial p) with Some [] => x (fst e) | _ => 0 end) r
                      | Some [] => x g
                      | None => 0 end)
  else x.

(** The linear solver reports the reduction it achieved. *)
Definition reports_reduction (N : nat) (p : problem) (A : mat) : Prop :=
  forall m r red z c it rr, solve p m r red = LsDone z c it rr -> m = (if matrix_free p then None else Some A) ->
    free_part (trial p) z /\ norm p r * rr = norm p (vsub r (mv N A z)).

(** The vector a call works on, if it is a call of apply. *)
Definition works_on (s : solver) (c : call) : option nat :=
  match c with Apply _ _ => target s | ApplyTo i _ _ => Some i | _ => None end.
(** Calls that leave an assembled matrix in place. *)
Definition keeps_matrix (c : call) : Prop :=
  match c with
  | Discard | SetKeep false => False
  | Apply reuse f | ApplyTo _ reuse f => reuse = true \/ f <> InJacobian
  | _ => True
  end.

(** Linear problems assembled from element matrices, with right hand side [b]. *)
Definition residual_of (cg : container) (els : list element) (b : vec) (x : vec) : vec :=
  constrain_residual cg (vsub (apply_elements els x) b).
