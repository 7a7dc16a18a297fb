(** What the deprecated Newton solver has to do.  The defect as a function of the point, agreement of the stored defect
    with the solution, the termination criterion and sufficient decrease are those of NewtonSpec. *)
From Verif Require Export OldModel NewtonSpec.
Local Open Scope R_scope.

Definition finite (d : ext) : Prop := exists r, d = Fin r.

Section Spec.
  Context {V W : Type} (repair : V -> V) (residual : V -> option W) (norm : bool -> W -> ext) (axpy : R -> V -> V -> V).

  (** The point at which the residual is evaluated for the vector [x]. *)
  Definition opoint (p : oparams) (x : V) : V := match hang_defect p with Some true => repair x | _ => x end.
  Definition ostep_to (p : oparams) (x corr : V) (l : R) : V := opoint p (axpy (- l) corr x).
  (** Number of step lengths a line search may try. *)
  Definition lengths (p : oparams) : nat := Nat.max 1 (tries p).

  (** What a line search started in [x] with defect [d0] delivers: a damped step that decreases the defect enough or, if
      this is allowed, the best of all damped steps, which must decrease it. *)
  Definition good_step (p : oparams) (x corr : V) (d0 : ext) (y : V) (d : ext) : Prop :=
    exists k, (k < lengths p)%nat /\ y = ostep_to p x corr (damp p ^ k) /\
      (decreases (damp p ^ k) d d0 \/
       strat p = HackbuschReuskenAcceptBest /\ lt d d0 = true /\
       forall j, (j < lengths p)%nat ->
         exists v, value residual norm (opt p) (ostep_to p x corr (damp p ^ j)) = Some v /\ lt v d = false).
  (** No step length is good enough. *)
  Definition no_good_step (p : oparams) (x corr : V) (d0 : ext) : Prop :=
    forall j, (j < lengths p)%nat ->
      exists v, value residual norm (opt p) (ostep_to p x corr (damp p ^ j)) = Some v /\
        ~ decreases (damp p ^ j) v d0 /\ (strat p = HackbuschReuskenAcceptBest -> lt v d0 = false).
End Spec.

(** The linear solves of one call, newest first: the backend is told to reuse the linear system exactly if the matrix is
    that of the solve before in the same call, otherwise the matrix is the Jacobian at the current point. *)
Definition well_assembled {V} (l : list (event (V := V))) : Prop :=
  forall later e before, l = later ++ e :: before ->
    (e_reuse e = false /\ fresh e) \/
    (e_reuse e = true /\ exists e' before', before = e' :: before' /\ e_matrix e = e_matrix e').

(** Two objects in the same state, as far as a user can see; the number of residual evaluations may differ. *)
Definition same_state {V W} (a b : run (V := V) (W := W)) : Prop :=
  sol (vecs a) = sol (vecs b) /\ res (vecs a) = res (vecs b) /\ defect (vecs a) = defect (vecs b) /\
  matrix a = matrix b /\ first a = first b /\ converged a = converged b /\ iterations a = iterations b /\
  linear_its a = linear_its b /\ log a = log b /\
  (iterations a <> 0%nat -> result_reduction a = result_reduction b).
(** The line search of the new solver for the options of the old one. *)
Definition same_search {V W} repair residual norm axpy (p : oparams) : linesearch (V := V) (W := W) :=
  match strat p with
  | NoLineSearch => search_none repair residual norm axpy
  | HackbuschReusken => search_hr repair residual norm axpy (mkls (tries p) (damp p) false)
  | HackbuschReuskenAcceptBest => search_hr repair residual norm axpy (mkls (tries p) (damp p) true)
  end.

(** The value of an option after reading a parameter tree. *)
Definition read {A} (t : string -> option pval) (key : string) (conv : pval -> option A) (old : A) : A :=
  match t key with Some v => match conv v with Some a => a | None => old end | None => old end.
Definition real_of (v : pval) : option R := match v with VReal r => Some r | VNat n => Some (INR n) | _ => None end.
Definition nat_of (v : pval) : option nat := match v with VNat n => Some n | _ => None end.
Definition bool_of (v : pval) : option bool := match v with VBool b => Some b | _ => None end.
Definition names : list (string * strategy) :=
  [("noLineSearch", NoLineSearch); ("hackbuschReusken", HackbuschReusken);
   ("hackbuschReuskenAcceptBest", HackbuschReuskenAcceptBest)]%string.
Definition strategy_of (v : pval) : option strategy :=
  match v with
  | VString s => option_map snd (List.find (fun n => if string_dec (fst n) s then true else false) names)
  | _ => None
  end.
(** The entry is absent or can be read. *)
Definition readable {A} (t : string -> option pval) (key : string) (conv : pval -> option A) : Prop :=
  forall v, t key = Some v -> conv v <> None.
Local Open Scope string_scope.
(** What the options are after reading the tree. *)
Definition result_options (t : string -> option pval) (p : oparams) : oparams :=
  let o := opt p in
  mko (mkparams (read t "Reduction" real_of (reduction o)) (read t "AbsoluteLimit" real_of (absolute_limit o))
                (read t "KeepMatrix" bool_of (keep_matrix o)) (read t "UseMaxNorm" bool_of (use_max_norm o))
                (hanging_nodes o) (read t "MinLinearReduction" real_of (min_linear_reduction o))
                (read t "FixedLinearReduction" bool_of (fixed_linear_reduction o))
                (read t "ReassembleThreshold" real_of (reassemble_threshold o))
                (read t "MaxIterations" nat_of (max_iterations o)) (read t "ForceIteration" bool_of (force_iteration o))
                (matrix_free o))
      (read t "LineSearchStrategy" strategy_of (strat p)) (read t "LineSearchMaxIterations" nat_of (tries p))
      (read t "LineSearchDampingFactor" real_of (damp p)) (hang_defect p) (hang_prepare p).
(** Every entry that is looked at can be read. *)
Definition all_readable (t : string -> option pval) : Prop :=
  readable t "VerbosityLevel" nat_of /\ readable t "Reduction" real_of /\ readable t "MaxIterations" nat_of /\
  readable t "ForceIteration" bool_of /\ readable t "AbsoluteLimit" real_of /\ readable t "MinLinearReduction" real_of /\
  readable t "FixedLinearReduction" bool_of /\ readable t "ReassembleThreshold" real_of /\
  readable t "LineSearchStrategy" strategy_of /\ readable t "LineSearchMaxIterations" nat_of /\
  readable t "LineSearchDampingFactor" real_of /\ readable t "KeepMatrix" bool_of /\ readable t "UseMaxNorm" bool_of.
