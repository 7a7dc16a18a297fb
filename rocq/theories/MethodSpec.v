(** What a time step is, without memory. *)
From Verif Require Export MethodModel.
Local Open Scope R_scope.

Section Spec.
  Context {V : Type}.
  (** The stages r, r+1, ... of a step: stage values found so far, start vector of the first stage.  Each stage starts
      from the previous stage (the first from the given start vector), with boundary values interpolated if wanted.
      Result: success, values of all stages attempted, work. *)
  Fixpoint ideal_stages (solve : solver V) (interpolate : option (nat -> V -> V)) (k r : nat) (start : V)
      (us : list V) (acc : stats) : bool * list V * stats :=
    match k with
    | O => (true, us, acc)
    | S k' =>
        let guess := match interpolate with None => start | Some f => f r start end in
        let '(ok, v, w) := solve r us guess in
        if ok then ideal_stages solve interpolate k' (S r) v (us ++ [v]) (add_stats acc w)
        else (false, us ++ [v], add_stats acc w)
    end.
  (** A step from u0 with start vector u: success, value of xnew afterwards, work.  If the step fails before its last
      stage, xnew keeps its value. *)
  Definition ideal_step (c : call V) (u0 u : V) : bool * V * stats :=
    let '(ok, us, w) := ideal_stages (solve c) (interpolate c) (s c) 1 u [u0] no_stats in
    (ok, nth (s c) us u, w).
  Definition ideal_apply (c : call V) (sigma : nat -> V) : bool * (nat -> V) * stats :=
    let '(ok, v, w) := ideal_step c (sigma (xold c)) (sigma (xnew c)) in
    (ok, (fun l => if (l =? xnew c)%nat then v else sigma l), w).
  (** A history of steps: for each call success and work, and the values at the end. *)
  Fixpoint ideal_history (cs : list (call V)) (sigma : nat -> V) : list (bool * stats) * (nat -> V) :=
    match cs with
    | [] => ([], sigma)
    | c :: cs' =>
        let '(ok, sigma', w) := ideal_apply c sigma in
        let (l, sigma'') := ideal_history cs' sigma' in ((ok, w) :: l, sigma'')
    end.

  (** The stages r, r+1, ... of an explicit step: [us] are the earlier stage values as the limiter left them, [cur] is the
      newest one.  The limiter treats it, the assembly sees all of them, the first assembly may shorten the step, the linear
      solver starts from [start], and the limiter treats its result.  Result: all stage values and the step size. *)
  Fixpoint ideal_explicit (c : xcall V) (k r : nat) (us : list V) (cur start : V) (dt : R) : option (list V * R) :=
    match k with
    | O => Some (us ++ [cur], dt)
    | S k' =>
        let us := us ++ [limit_before c cur] in
        let dt := if (r =? 1)%nat then Rmin (suggest c us) dt else dt in
        match system c r us dt start with
        | None => None
        | Some v => ideal_explicit c k' (S r) us (limit_after c v) (limit_after c v) dt
        end
    end.
End Spec.
Definition sum_stats (l : list stats) : stats := fold_left add_stats l no_stats.
