(** Model of the time stepping drivers: OneStepMethod (dune/pdelab/instationary/implicitonestep.hh),
    ExplicitOneStepMethod and CFLTimeController (explicitonestep.hh).

    Coefficient vectors are values of an arbitrary type [V] in a store indexed by locations, so that aliasing of xold
    and xnew and the lifetime of the stage vectors are visible.  The grid operator and the solver are arbitrary
    functions.  Not modelled: output, verbosity; unsigned/int overflow of the counters; times are real numbers. *)
From Coq Require Export Reals ZArith.
From Verif Require Export Common.
Local Open Scope R_scope.

(** PDESOLVER::Result as far as it is read; OneStepMethodPartialResult, OneStepMethodResult: implicitonestep.hh 20-44. *)
Record stats := mkstats { assembler_time : R; solver_time : R; linear_its : Z; nonlinear_its : Z }.
Definition no_stats : stats := mkstats 0 0 0 0.
Definition add_stats (p q : stats) : stats :=
  mkstats (assembler_time p + assembler_time q) (solver_time p + solver_time q)
          (linear_its p + linear_its q)%Z (nonlinear_its p + nonlinear_its q)%Z.
Record part := mkpart { timesteps : nat; work : stats }.
Definition add_part (p : part) (s : stats) : part := mkpart (S (timesteps p)) (add_stats (work p) s).
Record method := mkmethod { total : part; successful : part; step : nat }.
Definition new_method : method := mkmethod (mkpart 0 no_stats) (mkpart 0 no_stats) 1.
(** setResult: 111-121. *)
Definition set_result (t s : part) : method := mkmethod t s (S (timesteps s)).

(** Memory: values, locations allocated with new and not deleted, next fresh location, whether something not allocated
    was deleted. *)
Record mem (V : Type) := mkmem { val : nat -> V; live : list nat; next : nat; bad : bool }.
Arguments val {V}. Arguments live {V}. Arguments next {V}. Arguments bad {V}. Arguments mkmem {V}.

Section Drivers.
  Context {V : Type} (v0 : V).
  Definition put (l : nat) (v : V) (m : mem V) : mem V :=
    mkmem (fun k => if (k =? l)%nat then v else val m k) (live m) (next m) (bad m).
  (** new TrlV(gfs) *)
  Definition alloc (m : mem V) : nat * mem V :=
    (next m, put (next m) v0 (mkmem (val m) (next m :: live m) (S (next m)) (bad m))).
  Definition delete (l : nat) (m : mem V) : mem V :=
    mkmem (val m) (remove Nat.eq_dec l (live m)) (next m) (bad m || negb (existsb (Nat.eqb l) (live m))).
  Definition delete_all (ls : list nat) (m : mem V) : mem V := fold_left (fun m l => delete l m) ls m.

  (** pdesolver.apply in stage [r]: depends on the stage vectors handed to preStage and on the start vector; says
      whether it returned normally, what it left in the vector and what result() reports. *)
  Definition solver := nat -> list V -> V -> bool * V * stats.
  (** One call of apply: number of stages, solver, optionally igos.interpolate (stage, old values), arguments. *)
  Record call := mkcall { s : nat; solve : solver; interpolate : option (nat -> V -> V); xold : nat; xnew : nat }.

  (** The loop over the stages: implicitonestep.hh 169-240 and 333-407.  [k] stages are left, [xs] is the vector x. *)
  Fixpoint stages (c : call) (k r : nat) (xs : list nat) (m : mem V) (acc : stats) : bool * list nat * mem V * stats :=
    match k with
    | O => (true, xs, m, acc)
    | S k' =>
        let history := map (val m) xs in                                 (* preStage(r,x) *)
        let last := (r =? s c)%nat in
        let (l, m1) := if last then (xnew c, m) else alloc m in          (* x.push_back *)
        let previous := nth (r - 1) xs O in
        let m2 :=
          match interpolate c with
          | None =>
              if last then (if (1 <? r)%nat then put l (val m1 previous) m1 else m1)
              else put l (val m1 (if (1 <? r)%nat then previous else xnew c)) m1
          | Some f => put l (f r (val m1 (if (r =? 1)%nat then xnew c else previous))) m1
          end in
        let '(ok, v, w) := solve c r history (val m2 l) in
        let m3 := put l v m2 in
        let acc := add_stats acc w in
        if ok then stages c k' (S r) (xs ++ [l]) m3 acc
        else
          let m4 := delete_all (slice 1 (r - 1) xs) m3 in                (* for i in [1,r) delete x[i] *)
          (false, xs ++ [l], if (r <? s c)%nat then delete l m4 else m4, acc)
    end.
  (** apply: 134-278, 291-444.  Result: normal return?, memory, members. *)
  Definition apply (c : call) (p : mem V * method) : bool * (mem V * method) :=
    let (m, o) := p in
    let '(ok, xs, m1, w) := stages c (s c) 1 [xold c] m no_stats in
    if ok then
      (true, (delete_all (slice 1 (s c - 1) xs) m1,
              mkmethod (add_part (total o) w) (add_part (successful o) w) (S (step o))))
    else (false, (m1, mkmethod (add_part (total o) w) (successful o) (step o))).
  Definition history (cs : list call) (p : mem V * method) : mem V * method :=
    fold_left (fun p c => snd (apply c p)) cs p.

  (** *** ExplicitOneStepMethod::apply: explicitonestep.hh 307-464 *)
  (** One stage of the linear system (explicit_jacobian_residual, axpy with dt, ls.apply): [None] is an exception. *)
  Record xcall := mkxcall { xs_ : nat; system : nat -> list V -> R -> V -> option V; suggest : list V -> R;
    limit_before : V -> V; limit_after : V -> V; xold_ : nat; xnew_ : nat }.
  Fixpoint xstages (c : xcall) (k r : nat) (xs : list nat) (m : mem V) (dt : R) : option (list nat * mem V * R) * mem V :=
    match k with
    | O => (Some (xs, m, dt), m)
    | S k' =>
        let last := (r =? xs_ c)%nat in
        let (l, m1) := if last then (xnew_ c, m) else alloc m in
        let previous := nth (r - 1) xs O in
        let m2 := if last then (if (1 <? r)%nat then put l (val m1 previous) m1 else m1)
                  else put l (val m1 (if (1 <? r)%nat then previous else xnew_ c)) m1 in
        let m3 := put previous (limit_before c (val m2 previous)) m2 in
        let vals := map (val m3) xs in                                   (* explicit_jacobian_residual *)
        let dt := if (r =? 1)%nat then Rmin (suggest c vals) dt else dt in
        match system c r vals dt (val m3 l) with
        | None => (None, m3)                                             (* nothing is caught *)
        | Some v => xstages c k' (S r) (xs ++ [l]) (put l (limit_after c v) m3) dt
        end
    end.
  Definition xapply (c : xcall) (m : mem V) (dt : R) : option R * mem V :=
    match xstages c (xs_ c) 1 [xold_ c] m dt with
    | (Some (xs, m1, dt'), _) => (Some dt', delete_all (slice 1 (xs_ c - 1) xs) m1)
    | (None, m1) => (None, m1)
    end.
End Drivers.
Arguments call V : clear implicits. Arguments xcall V : clear implicits. Arguments solver V : clear implicits.
Arguments mkcall {V}. Arguments mkxcall {V}.

(** CFLTimeController::suggestTimestep: explicitonestep.hh 82-90, with [s] = cfl*igos.suggestTimestep(givendt). *)
Definition cfl_suggest (target time s : R) : R :=
  if Rlt_dec (time + 2 * s) target then s
  else if Rlt_dec (time + s) target then (1 / 2) * (target - time)
  else target - time.
(** One explicit step with this controller: newdt = min(suggested, dt), the caller advances by the returned dt
    (explicitonestep.hh 401-424, 463). *)
Definition cfl_step (target : R) (time : R) (p : R * R) : R :=
  let (s, dt) := p in time + Rmin (cfl_suggest target time s) dt.
Definition cfl_run (target : R) (l : list (R * R)) (time : R) : R := fold_left (cfl_step target) l time.
