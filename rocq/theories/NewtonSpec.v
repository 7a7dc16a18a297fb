(** What the Newton solver and its line searches have to do, in terms of the residual norm as a function of the point. *)
From Verif Require Import NewtonModel.
Local Open Scope R_scope.

Section Spec.
  Context {V W : Type} (repair : V -> V) (residual : V -> option W) (norm : bool -> W -> ext) (axpy : R -> V -> V -> V).

  (** The point the solver works with when handed [x]: constrained values are interpolated first. *)
  Definition point (p : params) (x : V) : V := if hanging_nodes p then repair x else x.
  (** Norm of the residual at a point, if it can be evaluated. *)
  Definition value (p : params) (x : V) : option ext := option_map (norm (use_max_norm p)) (residual x).
  (** The point reached from [x] by a step of length [l] along the correction. *)
  Definition step_to (p : params) (x corr : V) (l : R) : V := point p (axpy (- l) corr x).

  (** The stored residual and defect are those of the stored solution. *)
  Definition consistent (p : params) (c : core (V := V) (W := W)) : Prop :=
    residual (sol c) = Some (res c) /\ value p (sol c) = Some (defect c).

  (** Termination criterion. *)
  Definition criterion (p : params) (first d : ext) : Prop :=
    lt d (Fin (absolute_limit p)) = true \/ lt d (mul first (Fin (reduction p))) = true.

  (** Sufficient decrease of Hackbusch and Reusken for step length [l]. *)
  Definition decreases (l : R) (d d0 : ext) : Prop := le d (mul (Fin (1 - l / 4)) d0) = true.

  (** What the line search has to deliver when it starts in [x] with defect [d0]. *)
  Record contract (p : params) (q : lsparams) (x corr : V) (d0 : ext) (y : V) (d : ext) : Prop := {
    ct_value : value p y = Some d;
    ct_step : exists k, (k < ls_max q)%nat /\ y = step_to p x corr (damping q ^ k) /\
      (decreases (damping q ^ k) d d0 \/
       accept q = true /\ lt d d0 = true /\
       forall j, (j < ls_max q)%nat -> exists v, value p (step_to p x corr (damping q ^ j)) = Some v /\ lt v d = false) }.

  (** No step length decreases enough. *)
  Definition hopeless (p : params) (q : lsparams) (x corr : V) (d0 : ext) : Prop :=
    forall j, (j < ls_max q)%nat -> exists v, value p (step_to p x corr (damping q ^ j)) = Some v /\
      ~ decreases (damping q ^ j) v d0 /\ (accept q = true -> lt v d0 = false).

  (** A line search that leaves the stored defect in agreement with the solution. *)
  Definition honest (p : params) (ls : linesearch (V := V) (W := W)) : Prop :=
    forall c corr c', ls p c corr = Normal c' -> consistent p c'.
End Spec.

(** Sum of the linear iterations of some solves. *)
Definition total_its {V} (l : list (event (V := V))) : Z := fold_right (fun e z => (e_its e + z)%Z) 0%Z l.

(** The linear solves of one call, newest first: the first one starts from the initial defect and each later one knows
    the defect before the step that led to its point. *)
Fixpoint sequence {V} (first : ext) (l : list (event (V := V))) : Prop :=
  match l with
  | [] => True
  | e :: l' =>
      match l' with
      | [] => e_iteration e = 0%nat /\ e_defect e = first /\ e_previous e = first
      | e' :: _ => e_iteration e = S (e_iteration e') /\ e_previous e = e_defect e'
      end /\ sequence first l'
  end.

(** The matrix is the Jacobian at the current point. *)
Definition fresh {V} (e : event (V := V)) : Prop := e_matrix e = Some [e_at e].
(** The last step reduced the defect by less than the threshold asks for. *)
Definition too_slow {V} (e : event (V := V)) : Prop :=
  exists d q, e_defect e = Fin d /\ e_previous e = Fin q /\ 0 < q /\ e_threshold e * q < d.
(** Whenever the backend is told to reuse what it knows about the matrix, the matrix is that of the solve before. *)
Definition reuse_justified {V} (l : list (event (V := V))) : Prop :=
  forall later e before, l = later ++ e :: before -> e_reuse e = true -> e_matrix e <> None ->
    exists e' before', before = e' :: before' /\ e_matrix e' = e_matrix e.
(** Requested linear reduction: at least what is needed to finish in this step, otherwise no weaker than the minimum
    and than quadratic convergence asks for. *)
Definition reduction_rule (p : params) (first d q r : R) : Prop :=
  let goal := Rmax (first * reduction p) (absolute_limit p) / (10 * d) in
  goal <= r /\ (r = goal \/ r <= min_linear_reduction p /\ r <= (d / q) ^ 2).
