(** C178: the deprecated Newton solver. *)
From Coq Require Import Lra.
From Verif Require Import NewtonModel NewtonSpec NewtonProofs NewtonProofs2 NewtonProofs3 NewtonProps OldModel OldSpec
  OldProofs OldProofs2 OldProofs3 OldProofs4 OldProofs5.
Local Open Scope R_scope.

Section C178.
  Context {V W : Type} (repair : V -> V) (residual : V -> option W) (jacobian_ok : V -> bool) (norm : bool -> W -> ext)
          (axpy : R -> V -> V -> V)
          (linear_solver : list (event (V := V)) -> option (list V) -> W -> ext -> bool * V * Z).
  Notation oapply := (oapply repair residual jacobian_ok norm axpy linear_solver).
  Notation opoint := (opoint repair).
  Notation value p := (value residual norm (opt p)).
  Notation consistent p := (consistent residual norm (opt p)).

  (** Normal return: reported as converged, the criterion holds for the reported defects, these are the norms of the
      residual at the solution handed back and at the start vector, and the iteration budget was kept. *)
  Theorem c178_normal_return p fuel s x s' : matrix_free (opt p) = false -> oapply p fuel s x = Some (ONorm s') ->
    converged s' = true /\ criterion (opt p) (first s') (defect (vecs s')) /\ consistent p (vecs s') /\
    value p (opoint p x) = Some (first s') /\ finite (first s') /\
    (iterations s' <= Nat.max (max_iterations (opt p)) (if force_iteration (opt p) then 1 else 0))%nat.
  Proof.
    intros F A. destruct (oapply_sound repair residual jacobian_ok norm axpy linear_solver p fuel s x _ F A) as (? & ? & ? & ? & ? & ?). auto 8.
  Qed.
  Print Assumptions c178_normal_return.

  (** The reported reduction is that of the reported defects, one if there was no iteration. *)
  Theorem c178_reduction p fuel s x s' : matrix_free (opt p) = false -> (forall x, repair (repair x) = repair x) ->
    oapply p fuel s x = Some (ONorm s') ->
    result_reduction s' = if (iterations s' =? 0)%nat then Fin 1 else div (defect (vecs s')) (first s').
  Proof. apply oapply_reduction. Qed.
  Print Assumptions c178_reduction.

  (** Exceptions: never marked as converged.  NewtonNotConverged: the budget is used up and the criterion does not hold.
      NewtonNotConverged and NewtonLineSearchError leave a solution with its own defect, NewtonDefectError one whose defect
      is not a number. *)
  Theorem c178_exception p fuel s x f s' : matrix_free (opt p) = false -> oapply p fuel s x = Some (ORaise f s') ->
    converged s' = false /\
    (f = ONotConverged -> ~ criterion (opt p) (first s') (defect (vecs s')) /\ (max_iterations (opt p) <= iterations s')%nat) /\
    (f = ONotConverged \/ f = OSearch -> consistent p (vecs s') /\ value p (opoint p x) = Some (first s')) /\
    (f = ODefect -> consistent p (vecs s') /\ ~ finite (defect (vecs s'))).
  Proof. intros F A. exact (oapply_sound repair residual jacobian_ok norm axpy linear_solver p fuel s x _ F A). Qed.
  Print Assumptions c178_exception.

  (** Undefined behaviour only by the uninitialised flags. *)
  Theorem c178_defined p fuel s x : matrix_free (opt p) = false -> hang_defect p <> None -> hang_prepare p <> None ->
    oapply p fuel s x <> Some OUndef.
  Proof.
    intros F H1 H2 A. destruct (oapply_sound repair residual jacobian_ok norm axpy linear_solver p fuel s x _ F A); contradiction.
  Qed.
  Print Assumptions c178_defined.

  (** The linear iterations reported are those of all solves of this call, also of repeated passes and when an exception is
      raised. *)
  Theorem c178_linear_iterations p fuel s x o s' : matrix_free (opt p) = false -> oapply p fuel s x = Some o ->
    o = ONorm s' \/ (exists f, o = ORaise f s') ->
    exists new, log s' = new ++ log s /\ linear_its s' = total_its new.
  Proof.
    intros F A H. pose proof (oapply_work repair residual jacobian_ok norm axpy linear_solver p fuel s x o F A) as L.
    destruct H as [->|(f & ->)]; exact L.
  Qed.
  Print Assumptions c178_linear_iterations.

  (** apply comes to an end if the absolute limit is positive and the threshold less than one: a line search that failed is
      repeated at most once per iteration. *)
  Theorem c178_terminates p fuel s x : matrix_free (opt p) = false -> (forall x, repair (repair x) = repair x) ->
    (forall b r, norm b r <> MInf) -> 0 < absolute_limit (opt p) -> reassemble_threshold (opt p) < 1 ->
    (2 * S (max_iterations (opt p)) <= fuel)%nat -> exists o, oapply p fuel s x = Some o.
  Proof. apply oapply_terminates. Qed.
  Print Assumptions c178_terminates.

  (** If the threshold is less than one and the initial norm is not zero, every matrix used was assembled in this call, the
      backend is told to reuse the linear system exactly if the matrix is that of the solve before, after slow convergence the
      matrix is the Jacobian at the current point, and the call only fails for want of a good step after such a matrix was
      used. *)
  Theorem c178_matrices p fuel s x o d s' : matrix_free (opt p) = false -> reassemble_threshold (opt p) < 1 ->
    value p (opoint p x) = Some (Fin d) -> d <> 0 -> oapply p fuel s x = Some o ->
    o = ONorm s' \/ (exists f, o = ORaise f s') ->
    exists new, log s' = new ++ log s /\ well_assembled new /\ (forall e, In e new -> too_slow e -> fresh e) /\
      (o = ORaise OSearch s' -> exists e rest, new = e :: rest /\ e_reuse e = false /\ fresh e /\
         sol (vecs s') = opoint p (e_at e) /\
         (damp p <> 0 -> exists corr, no_good_step repair residual norm axpy p (e_at e) corr (e_defect e))).
  Proof.
    intros F Ht Hv Hd A H. pose proof (oapply_matrices repair residual jacobian_ok norm axpy linear_solver p fuel s x o d F Ht Hv Hd A) as M.
    destruct H as [->|(f & ->)]; cbv beta iota in M.
    - destruct M as (new & M1 & M2 & M3). exists new. split; [exact M1|]. split; [exact M2|]. split; [exact M3|discriminate].
    - destruct M as (new & M1 & M2 & M3 & M4). exists new. split; [exact M1|]. split; [exact M2|]. split; [exact M3|].
      intros E. injection E as ->. auto.
  Qed.
  Print Assumptions c178_matrices.

  (** Line search, for every damping factor: a full step if there is no search or the defect is below the absolute limit,
      else a good step. *)
  Theorem c178_line_search p c corr c' : osearch repair residual norm axpy p (defect c) c corr = ONorm c' ->
    consistent p c' /\
    (((strat p = NoLineSearch \/ lt (defect c) (Fin (absolute_limit (opt p))) = true) /\
      sol c' = ostep_to repair axpy p (sol c) corr 1 /\ finite (defect c')) \/
     good_step repair residual norm axpy p (sol c) corr (defect c) (sol c') (defect c')).
  Proof.
    intros E. pose proof (osearch_cases repair residual norm axpy p c corr) as H. rewrite E in H.
    destruct H as (H1 & _ & [H2|(_ & H2)]); auto.
  Qed.
  Print Assumptions c178_line_search.

  (** Failure: no step length is good enough and the old solution is back with its defect. *)
  Theorem c178_line_search_failed p c corr c' : damp p <> 0 ->
    osearch repair residual norm axpy p (defect c) c corr = ORaise OSearch c' ->
    no_good_step repair residual norm axpy p (sol c) corr (defect c) /\ sol c' = opoint p (sol c) /\
    consistent p c' /\ finite (defect c').
  Proof.
    intros Hd E. pose proof (osearch_cases repair residual norm axpy p c corr) as H. rewrite E in H.
    destruct H as [(X & _)|[(X & _)|(_ & _ & _ & H1 & H2 & H3 & H4)]]; try discriminate X. auto.
  Qed.
  Print Assumptions c178_line_search_failed.

  (** A search does not stop at points where the defect is infinite or not a number. *)
  Theorem c178_line_search_nan p c corr c' : (forall x, repair (repair x) = repair x) -> (forall b r, norm b r <> MInf) ->
    strat p <> NoLineSearch -> lt (defect c) (Fin (absolute_limit (opt p))) = false ->
    consistent p c -> (exists y, sol c = opoint p y) -> finite (defect c) ->
    osearch repair residual norm axpy p (defect c) c corr <> ORaise ODefect c' /\
    (osearch repair residual norm axpy p (defect c) c corr = ONorm c' -> finite (defect c')).
  Proof.
    intros Hr Hn Hs Hl Hc (y & Hy) Hf.
    pose proof (osearch_cases repair residual norm axpy p c corr) as H. split.
    - intros E. rewrite E in H. destruct H as [(X & _)|[(_ & Cc & Nf & H)|(X & _)]]; try discriminate X.
      destruct H as [([X|X] & _)|[H|H]]; [contradiction|congruence| |].
      + apply Nf. assert (Es : sol c' = sol c).
        { rewrite H, Hy. unfold OldSpec.opoint. destruct (hang_defect p) as [[|]|]; auto. }
        destruct Cc as (_ & Cc), Hc as (_ & Hc). rewrite Es, Hc in Cc. injection Cc as <-. exact Hf.
      + destruct Hf as (r & Hf). rewrite Hf in H. apply Nf. destruct (defect c') as [d| | |] eqn:D; cbn in H; try discriminate H.
        * exists d. reflexivity.
        * destruct Cc as (_ & Cc). rewrite D in Cc. unfold NewtonSpec.value in Cc.
          destruct (residual (sol c')) as [w|]; [|discriminate Cc]. cbn in Cc. injection Cc as Cc. destruct (Hn _ _ Cc).
    - intros E. rewrite E in H. destruct H as (Cc & _ & [([X|X] & _)|(_ & G)]); [contradiction|congruence|].
      eapply good_finite; [exact Hn|exact Hf|apply Cc|exact G].
  Qed.
  Print Assumptions c178_line_search_nan.

  (** With norms that are numbers and the same options the new solver and this one agree, except that this one may repeat a
      pass where the new one gives up on the line search. *)
  Theorem c178_agrees (r0 : W) p fuel s x : hang_defect p = Some (hanging_nodes (opt p)) ->
    hang_prepare p = Some (hanging_nodes (opt p)) -> matrix_free (opt p) = false -> (forall b r, finite (norm b r)) ->
    strat p = NoLineSearch \/ (0 < damp p < 1 /\ tries p <> 0%nat) -> (S (max_iterations (opt p)) <= fuel)%nat ->
    let new := apply repair residual jacobian_ok norm r0 linear_solver (opt p) (same_search repair residual norm axpy p)
                     (matrix s) (log s) x in
    (forall a, new = Some (Normal a) -> exists b, oapply p fuel s x = Some (ONorm b) /\ same_state a b) /\
    (forall f a, new = Some (Raised f a) -> f <> LineSearchError ->
       exists b, oapply p fuel s x = Some (ORaise (translate f) b) /\
         sol (vecs a) = sol (vecs b) /\ iterations a = iterations b /\ log a = log b).
  Proof.
    intros H1 H2 H3 H4 H5 H6 new.
    pose proof (apply_same repair residual jacobian_ok norm axpy r0 linear_solver p H1 H2 H3 H4 H5 s x fuel H6) as A. fold new in A.
    split.
    - intros a E. rewrite E in A. exact A.
    - intros f a E. rewrite E in A. exact A.
  Qed.
  Print Assumptions c178_agrees.

  (** Finding: a solver constructed with a solution vector reads a flag that was never set, whatever the problem and whatever
      the parameters read from a file. *)
  Theorem c178_uninitialised_refuted t p fuel s x : set_parameters t with_vector = Ok p -> oapply p fuel s x = Some OUndef.
  Proof.
    intros E. apply set_parameters_ok in E. destruct E as (_ & ->). reflexivity.
  Qed.
  Print Assumptions c178_uninitialised_refuted.
End C178.

(** Reading options: entries of the right type replace the option of that name and nothing else. *)
Theorem c178_parameters t p p' : set_parameters t p = Ok p' -> all_readable t /\ p' = result_options t p.
Proof. apply set_parameters_ok. Qed.
Print Assumptions c178_parameters.
Theorem c178_parameters_accepted t p : all_readable t -> exists p', set_parameters t p = Ok p'.
Proof. apply set_parameters_works. Qed.
Print Assumptions c178_parameters_accepted.
Theorem c178_parameters_refused t p : ~ all_readable t -> set_parameters t p = Throw.
Proof. apply set_parameters_throws. Qed.
Print Assumptions c178_parameters_refused.
(** Finding: the key LineSearchDamping of the documented example is ignored: for every value the damping factor stays. *)
Theorem c178_documented_key_refuted v p : exists p',
  set_parameters (fun k => if String.eqb k "LineSearchDamping" then Some v else None) p = Ok p' /\ damp p' = damp p.
Proof.
  destruct (set_parameters_works (fun k => if String.eqb k "LineSearchDamping" then Some v else None) p) as (p' & E).
  { unfold all_readable, readable. cbn. repeat split; discriminate. }
  exists p'. split; [exact E|]. apply set_parameters_ok in E. destruct E as (_ & ->). reflexivity.
Qed.
Print Assumptions c178_documented_key_refuted.
Example c178_parameters_meets : exists p',
  set_parameters (fun k => if String.eqb k "LineSearchStrategy" then Some (VString "noLineSearch")
                           else if String.eqb k "MaxIterations" then Some (VNat 7) else None) without_vector = Ok p' /\
  strat p' = NoLineSearch /\ max_iterations (opt p') = 7%nat /\ damp p' = 1 / 2.
Proof. eexists. split; [reflexivity|]. auto. Qed.

(** The problem of NewtonProps with the old solver. *)
Definition old_toy (p : params) (st : strategy) (n : nat) : oparams := mko p st n (1/2) (Some false) (Some false).
Definition old_start : run (V := R) (W := R) := mkrun (mkcore 0 0 (Fin 0) []) None false (Fin 0) (Fin 0) false 0 (Fin 0) 0 [].
Definition toy_old solver axpy p fuel x :=
  oapply (V := R) (fun x => x) (fun x => Some x) (fun _ => true) toy_norm axpy solver p fuel old_start x.
Ltac old_run := unfold toy_old, OldModel.oapply, OldModel.oloop, OldModel.oterminate, OldModel.oiterate, OldModel.oreassemble, OldModel.osolve,
  OldModel.osearch, OldModel.otrials, OldModel.odefect, old_toy, old_start, toy_axpy, toy_norm; crunch; reflexivity.

Example c178_meets : exists s, toy_old toy_solver toy_axpy (old_toy toy_params HackbuschReusken 3) 12 1 = Some (ONorm s) /\
  iterations s = 1%nat /\ sol (vecs s) = 0 /\ length (log s) = 1%nat.
Proof. eexists. split; [old_run|]. cbn. repeat split; lra. Qed.

(** Four points with given norms; the correction names the point to go to.  With the matrix of the current point the solver
    names the next point, with any other one the last point. *)
Definition table (b : bool) (n : nat) : ext := match n with 0 => Fin 1 | 1 => Fin (1/4) | 2 => Fin (1/16) | _ => Fin 100 end%nat.
Definition moody (tr : list (event (V := nat))) (m : option (list nat)) (r : nat) (red : ext) : bool * nat * Z :=
  match m with Some [y] => if (y =? r)%nat then (true, S r, 1%Z) else (true, 3%nat, 1%Z) | _ => (true, 3%nat, 1%Z) end.
Definition lazy_params (thr : R) : params := mkparams (1/10) (1/100) true false false (1/1000) false thr 5 false false.
Definition old_start_nat : run (V := nat) (W := nat) :=
  mkrun (mkcore 0%nat 0%nat (Fin 0) []) None false (Fin 0) (Fin 0) false 0 (Fin 0) 0 [].
Definition table_old thr fuel :=
  oapply (V := nat) (fun x => x) (fun x => Some x) (fun _ => true) table (fun _ c _ => c) moody
         (old_toy (lazy_params thr) HackbuschReusken 1) fuel old_start_nat 0%nat.
Definition table_new thr :=
  apply (V := nat) (fun x => x) (fun x => Some x) (fun _ => true) table 0%nat moody (lazy_params thr)
        (same_search (fun x => x) (fun x => Some x) table (fun _ c _ => c) (old_toy (lazy_params thr) HackbuschReusken 1))
        None [] 0%nat.
(** Where the two differ: the line search fails with the matrix of the step before; the new solver gives up, this one tries
    again with the matrix of the current point and converges. *)
Example c178_retry_meets : exists s,
  table_old (1/2) 12 = Some (ONorm s) /\ iterations s = 2%nat /\ sol (vecs s) = 2%nat /\ length (log s) = 3%nat.
Proof.
  eexists. split.
  - unfold table_old, OldModel.oapply, OldModel.oloop, OldModel.oterminate, OldModel.oiterate, OldModel.oreassemble, OldModel.osolve,
      OldModel.osearch, OldModel.otrials, OldModel.ogive_up, OldModel.odefect, old_toy, old_start_nat, moody, table, lazy_params. crunch. reflexivity.
  - cbn. auto.
Qed.
Example c178_retry_new_gives_up : exists s, table_new (1/2) = Some (Raised LineSearchError s).
Proof.
  eexists. unfold table_new, apply, loop, terminate, iterate, reassemble, linear_solve, same_search, search_hr, trials, give_up, update_defect,
    old_toy, moody, table, lazy_params. crunch. reflexivity.
Qed.

(** A problem on which the two agree. *)
Example c178_agrees_meets : (forall b r, finite (table b r)) /\
  exists s, table_new 0 = Some (Normal s) /\ iterations s = 2%nat /\ sol (vecs s) = 2%nat /\ length (log s) = 2%nat.
Proof.
  split; [intros b [|[|[|n]]]; cbn; unfold finite; eauto|].
  eexists. split; [unfold table_new, apply, loop, terminate, iterate, reassemble, linear_solve, same_search, search_hr, trials, give_up,
    update_defect, old_toy, moody, table, lazy_params; crunch; reflexivity|]. cbn. auto.
Qed.

(** Finding: with a threshold of one or more and a line search that fails, apply never returns: the pass is repeated without
    reassembling and without counting. *)
Theorem c178_retry_forever_refuted fuel : table_old 1 fuel = None.
Proof.
  unfold table_old, OldModel.oapply. cbn [old_toy hang_defect vecs sol old_start_nat].
  unfold OldModel.odefect at 1. cbn [hang_defect old_toy sol table defect matrix log converged iterations result_reduction linear_its reassembled old_start_nat].
  match goal with |- match oloop _ _ _ _ _ _ ?p fuel ?s with _ => _ end = None => set (q := p); set (s0 := s) end.
  enough (H : forall s : run (V := nat) (W := nat), sol (vecs s) = 0%nat -> res (vecs s) = 0%nat -> defect (vecs s) = Fin 1 ->
            previous s = Fin 1 -> first s = Fin 1 -> iterations s = 0%nat -> matrix s = Some None ->
            oloop (fun x => x) (fun x => Some x) (fun _ => true) table (fun _ c _ => c) moody q fuel s = None).
  { rewrite H; reflexivity. }
  clear s0. induction fuel as [|fuel IH]; intros [[x r d ev] m re pr fi co it rr li lo]; cbn [vecs sol res defect previous first iterations matrix];
    intros -> -> -> -> -> -> ->.
  - cbn [oloop]. unfold oterminate, q, old_toy, lazy_params. crunch. reflexivity.
  - cbn [oloop].
    assert (T : oterminate q (mkrun (mkcore 0%nat 0%nat (Fin 1) ev) (Some None) re (Fin 1) (Fin 1) co 0 rr li lo) =
                (Some false, mkrun (mkcore 0%nat 0%nat (Fin 1) ev) (Some None) re (Fin 1) (Fin 1) false 0 rr li lo)).
    { unfold oterminate, q, old_toy, lazy_params. crunch. reflexivity. }
    rewrite T.
    assert (E : exists s2, oiterate (fun x => x) (fun x => Some x) (fun _ => true) table (fun _ c _ => c) moody q
              (mkrun (mkcore 0%nat 0%nat (Fin 1) ev) (Some None) re (Fin 1) (Fin 1) false 0 rr li lo) = ONorm s2 /\
              sol (vecs s2) = 0%nat /\ res (vecs s2) = 0%nat /\ defect (vecs s2) = Fin 1 /\ previous s2 = Fin 1 /\
              first s2 = Fin 1 /\ iterations s2 = 0%nat /\ matrix s2 = Some None).
    { eexists. split; [unfold oiterate, oreassemble, osolve, osearch, otrials, ogive_up, odefect, q, old_toy, moody, table, lazy_params; crunch; reflexivity|].
      cbn. repeat split. }
    destruct E as (s2 & -> & ? & ? & ? & ? & ? & ? & ?). apply IH; assumption.
Qed.
Print Assumptions c178_retry_forever_refuted.
