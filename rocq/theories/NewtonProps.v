(** C20, C21, C22, C48: the Newton solver and its line searches. *)
From Coq Require Import Lra.
From Verif Require Import NewtonModel NewtonSpec NewtonProofs NewtonProofs2 NewtonProofs3.
Local Open Scope R_scope.

(** A small problem: find a zero of x; the linear solver is exact. *)
Definition toy_params : params := mkparams (1/10) (1/100) true false false (1/1000) false 0 5 false false.
Definition toy_solver (tr : list (event (V := R))) (m : option (list R)) (r : R) (red : ext) : bool * R * Z := (true, r, 1%Z).
Definition toy_norm (b : bool) (r : R) : ext := Fin (r * r).
Definition toy_axpy (l c x : R) : R := x + l * c.
Definition toy_apply p ls m tr x := apply (V := R) (fun x => x) (fun x => Some x) (fun _ => true) toy_norm 0 toy_solver p ls m tr x.
(** evaluate a comparison of numbers *)
Ltac decide1 :=
  match goal with
  | |- context [Rlt_dec ?a ?b] => destruct (Rlt_dec a b); [try (exfalso; lra)|try (exfalso; lra)]; []
  | |- context [Rle_dec ?a ?b] => destruct (Rle_dec a b); [try (exfalso; lra)|try (exfalso; lra)]; []
  | |- context [Req_EM_T ?a ?b] => destruct (Req_EM_T a b); [try (exfalso; lra)|try (exfalso; lra)]; []
  end.
Ltac crunch := repeat (cbn; unfold signed_inf; try decide1); cbn.
Ltac evl := unfold toy_apply, update_defect, toy_axpy, toy_norm; crunch; reflexivity.

(** Two runs of the loop, step by step. *)
Lemma one_iteration {V W} repair residual jacobian_ok norm (r0 : W) linear_solver p ls m tr (x : V) c s0 s1 s2 :
  update_defect repair residual norm p (mkcore x r0 (Fin 0) []) = Normal c ->
  terminate p (begin_loop p m tr c) = (Some false, s0) -> iterate repair jacobian_ok linear_solver p ls s0 = Normal s1 ->
  terminate p s1 = (Some true, s2) ->
  apply repair residual jacobian_ok norm r0 linear_solver p ls m tr x = Some (Normal (end_loop p s2)).
Proof.
  intros E0 E1 E2 E3. unfold apply. rewrite E0. cbn [loop]. rewrite E1, E2. destruct (max_iterations p); cbn [loop]; rewrite E3; reflexivity.
Qed.
Lemma two_iterations {V W} repair residual jacobian_ok norm (r0 : W) linear_solver p ls m tr (x : V) c s0 s1 s2 s3 s4 :
  max_iterations p <> 0%nat ->
  update_defect repair residual norm p (mkcore x r0 (Fin 0) []) = Normal c ->
  terminate p (begin_loop p m tr c) = (Some false, s0) -> iterate repair jacobian_ok linear_solver p ls s0 = Normal s1 ->
  terminate p s1 = (Some false, s2) -> iterate repair jacobian_ok linear_solver p ls s2 = Normal s3 ->
  terminate p s3 = (Some true, s4) ->
  apply repair residual jacobian_ok norm r0 linear_solver p ls m tr x = Some (Normal (end_loop p s4)).
Proof.
  intros N E0 E1 E2 E3 E4 E5. unfold apply. rewrite E0. destruct (max_iterations p) as [|n]; [congruence|].
  cbn [loop]. rewrite E1, E2, E3, E4. destruct n; cbn [loop]; rewrite E5; reflexivity.
Qed.
Ltac one_it := eapply one_iteration; [evl|unfold terminate; evl|
    unfold iterate, reassemble, linear_solve, search_hr, search_none, trials; evl|unfold terminate; evl].
Ltac two_it := eapply two_iterations; [discriminate|evl|unfold terminate; evl|
    unfold iterate, reassemble, linear_solve, search_hr, search_none, trials; evl|unfold terminate; evl|
    unfold iterate, reassemble, linear_solve, search_hr, search_none, trials; evl|unfold terminate; evl].

Section C20.
  Context {V W : Type} (repair : V -> V) (residual : V -> option W) (jacobian_ok : V -> bool) (norm : bool -> W -> ext)
          (axpy : R -> V -> V -> V) (r0 : W)
          (linear_solver : list (event (V := V)) -> option (list V) -> W -> ext -> bool * V * Z).
  Notation apply := (apply repair residual jacobian_ok norm r0 linear_solver).

  (** apply always comes to an end (if its callbacks do). *)
  Theorem c20_terminates p ls m tr x : exists o, apply p ls m tr x = Some o.
  Proof. pose proof (apply_terminates repair residual jacobian_ok norm r0 linear_solver p ls m tr x). destruct (apply p ls m tr x); [eauto|congruence]. Qed.

  (** Normal return: reported as converged, the reported defect meets the criterion with respect to the norm of the
      residual at the start vector, and the iteration budget was kept. *)
  Theorem c20_normal_return p ls m tr x s : apply p ls m tr x = Some (Normal s) ->
    converged s = true /\ criterion p (first s) (defect (vecs s)) /\
    value residual norm p (point repair p x) = Some (first s) /\
    (iterations s <= Nat.max (max_iterations p) (if force_iteration p then 1 else 0))%nat.
  Proof. exact (apply_normal repair residual jacobian_ok norm r0 linear_solver p ls m tr x s). Qed.

  (** The reported reduction is that of the reported defects; without an iteration it is zero, although the defect was not
      reduced at all. *)
  Theorem c20_reduction p ls m tr x s : apply p ls m tr x = Some (Normal s) ->
    (iterations s <> 0%nat -> result_reduction s = div (defect (vecs s)) (first s)) /\
    (iterations s = 0%nat -> result_reduction s = Fin 0 /\ defect (vecs s) = first s).
  Proof.
    pose (good := fun s : run (V := V) (W := W) =>
      (iterations s <> 0%nat -> result_reduction s = div (defect (vecs s)) (first s)) /\
      (iterations s = 0%nat -> result_reduction s = Fin 0 /\ defect (vecs s) = first s)).
    assert (T : forall s b s1, good s -> terminate p s = (b, s1) -> good s1).
    { unfold terminate. intros t b s1 G. destruct (force_iteration p && _); [now intros [= _ <-]|].
      cbn zeta. destruct ((max_iterations p <=? iterations t)%nat && _); intros [= _ <-]; exact G. }
    assert (L : forall fuel s o, good s -> loop repair jacobian_ok linear_solver p ls fuel s = Some (Normal o) -> good o).
    { induction fuel as [|fuel IH]; intros t o G; cbn [loop]; destruct (terminate p t) as [[[|]|] t1] eqn:E; try discriminate.
      - intros [= <-]. eapply T; eauto.
      - intros [= <-]. eapply T; eauto.
      - destruct (iterate repair jacobian_ok linear_solver p ls t1) as [t2|] eqn:I; [|discriminate]. apply IH.
        unfold iterate in I. destruct (reassemble repair jacobian_ok p t1) as [t3|]; [|discriminate].
        destruct (linear_solve linear_solver p _ t3) as [[t4 corr]|? []]; try discriminate.
        destruct (ls p (vecs t4) corr); [|discriminate]. injection I as <-. split; cbn; [reflexivity|discriminate]. }
    unfold NewtonModel.apply. destruct (update_defect _ _ _ _ _) as [c|]; [|discriminate].
    destruct (loop _ _ _ _ _ _ _) as [[t|]|] eqn:E; try discriminate. intros [= <-].
    apply L in E; [|split; cbn; [congruence|auto]]. unfold end_loop. destruct (_ || _); exact E.
  Qed.

  (** With finite norms this is the textbook inequality. *)
  Theorem c20_criterion_real p f d : criterion p (Fin f) d -> exists r, (d = Fin r \/ d = MInf) /\
    (d = Fin r -> r <= Rmax (f * reduction p) (absolute_limit p)).
  Proof.
    unfold criterion. destruct d as [r| | |]; cbn [mul]; [|intros [H|H]; discriminate| |intros [H|H]; discriminate].
    - exists r. split; [auto|]. intros _. destruct H as [H|H]; apply lt_iff in H;
        [eapply Rle_trans; [|apply Rmax_r]|eapply Rle_trans; [|apply Rmax_l]]; lra.
    - exists 0. split; [auto|discriminate].
  Qed.

  (** Otherwise an exception is raised and the result is not marked as converged. *)
  Theorem c20_exception p ls m tr x f s : apply p ls m tr x = Some (Raised f s) -> converged s = false.
  Proof. exact (apply_failed repair residual jacobian_ok norm r0 linear_solver p ls m tr x f s). Qed.

  (** With the shipped line searches the reported defect is that of the solution handed back. *)
  Theorem c20_true_defect_none p m tr x s :
    apply p (search_none repair residual norm axpy) m tr x = Some (Normal s) -> consistent residual norm p (vecs s).
  Proof. apply apply_consistent, search_none_honest. Qed.
  Theorem c20_true_defect_hr q p m tr x s : 0 < damping q < 1 ->
    apply p (search_hr repair residual norm axpy q) m tr x = Some (Normal s) -> consistent residual norm p (vecs s).
  Proof. intros H. apply apply_consistent, search_hr_honest, H. Qed.

  (** The linear iterations reported are those of all solves of this call, also when an exception is raised. *)
  Theorem c20_linear_iterations p ls m tr x o : apply p ls m tr x = Some o ->
    exists new, log (final o) = new ++ tr /\ linear_its (final o) = total_its new.
  Proof. exact (apply_work repair residual jacobian_ok norm r0 linear_solver p ls m tr x o). Qed.
End C20.

Example c20_meets : exists s, toy_apply toy_params (search_hr (fun x => x) (fun x => Some x) toy_norm toy_axpy (mkls 3 (1/2) false)) None [] 1 = Some (Normal s)
  /\ iterations s = 1%nat /\ sol (vecs s) = 0 /\ length (log s) = 1%nat.
Proof.
  eexists. split; [one_it|]. cbn. repeat split; lra.
Qed.

(** Finding: with ForceIteration and MaxIterations = 0 one iteration is made and accepted. *)
Theorem c20_budget_refuted : exists p x s, max_iterations p = 0%nat /\
  toy_apply p (search_none (fun x => x) (fun x => Some x) toy_norm toy_axpy) None [] x = Some (Normal s) /\ iterations s = 1%nat.
Proof.
  exists (mkparams (1/10) (1/100) true false false (1/1000) false 0 0 true false), 1.
  eexists. split; [reflexivity|]. split; [one_it|]. reflexivity.
Qed.

(** Finding: with damping factor 1 and AcceptBest the solver can report convergence although the solution it hands back
    does not meet the criterion: the solution is 10 with squared residual 100, the reported defect 81. *)
Theorem c20_stale_defect_refuted : exists p q x s,
  toy_apply p (search_hr (fun x => x) (fun x => Some x) toy_norm (fun l c x => x + l * (c / 10)) q) None [] x = Some (Normal s) /\
  damping q = 1 /\ accept q = true /\ converged s = true /\ criterion p (first s) (defect (vecs s)) /\
  exists d, value (fun x => Some x) toy_norm p (sol (vecs s)) = Some d /\ ~ criterion p (first s) d.
Proof.
  exists (mkparams (1/1000) 90 true false false (1/1000) false 0 5 false false), (mkls 2 1 true), 10.
  eexists. split; [one_it|]. cbn.
  do 2 (split; [reflexivity|]). split; [reflexivity|].
  unfold criterion. cbn. split; [crunch; auto|]. eexists. split; [reflexivity|]. intros [H|H]; revert H; crunch; discriminate.
Qed.

Section C21.
  Context {V W : Type} (repair : V -> V) (residual : V -> option W) (jacobian_ok : V -> bool) (norm : bool -> W -> ext)
          (axpy : R -> V -> V -> V) (r0 : W)
          (linear_solver : list (event (V := V)) -> option (list V) -> W -> ext -> bool * V * Z).
  Notation apply := (apply repair residual jacobian_ok norm r0 linear_solver).

  (** In every call, whatever matrix was kept and however it ends: the solves form a sequence with the right defects, a
      solve after a step that reduced the defect by less than the threshold uses the Jacobian at the current point, as
      does every solve of a matrix-free backend. *)
  Theorem c21_fresh_when_slow p ls m tr x o : apply p ls m tr x = Some o ->
    exists new, log (final o) = new ++ tr /\ sequence (first (final o)) new /\
      (new <> [] -> value residual norm p (point repair p x) = Some (first (final o))) /\
      forall e, In e new -> e_threshold e = reassemble_threshold p /\ (too_slow e \/ matrix_free p = true -> fresh e).
  Proof.
    intros A. destruct (apply_solves _ _ _ _ _ _ p ls m tr x o A) as (new & L & Af & F). exists new.
    split; [exact L|]. split; [apply Af|]. split; [exact F|]. intros e He.
    destruct (proj1 (af_good _ _ _ Af e He)) as (T & G). split; [exact T|].
    intros [(d & q & Ed & Eq & Pq & S)|M]; apply G; [right|auto].
    rewrite Ed, Eq. apply ratio_slow; assumption.
  Qed.

  (** If the threshold is less than one and the initial norm is a nonzero number, every matrix used is the Jacobian at a
      point of this call, assembled at or before the solve; in particular none is used unassembled. *)
  Theorem c21_never_unassembled p ls m tr x o d : apply p ls m tr x = Some o ->
    reassemble_threshold p < 1 -> value residual norm p (point repair p x) = Some (Fin d) -> d <> 0 ->
    exists new, log (final o) = new ++ tr /\ forall e, In e new ->
      (e_iteration e = 0%nat -> fresh e) /\
      exists e', In e' new /\ (e_iteration e' <= e_iteration e)%nat /\ fresh e' /\ e_matrix e = e_matrix e'.
  Proof.
    intros A Ht Hv Nd. destruct (apply_solves _ _ _ _ _ _ p ls m tr x o A) as (new & L & Af & F). exists new.
    split; [exact L|]. intros e He.
    assert (Ff : first (final o) = Fin d).
    { specialize (F ltac:(intros ->; contradiction)). congruence. }
    split; [|eapply (af_origin _ _ _ Af); eassumption].
    intros E0. destruct (af_origin _ _ _ Af d Ff Nd Ht e He) as (e' & He' & Le & Fr & M).
    assert (e_iteration e' = e_iteration e) by lia.
    assert (e' = e); [|subst; exact Fr].
    assert (U : forall l, sequence (first (final o)) l -> forall e1 e2 : event (V := V), In e1 l -> In e2 l ->
                e_iteration e1 = 0%nat -> e_iteration e2 = 0%nat -> e1 = e2).
    { clear. induction l as [|a l IH]; intros S e1 e2 H1 H2 Z1 Z2; [contradiction|]. cbn [sequence] in S.
      destruct l as [|b l].
      - destruct H1 as [->|[]], H2 as [->|[]]. reflexivity.
      - destruct S as ((S1 & _) & S2). destruct H1 as [<-|H1]; [lia|]. destruct H2 as [<-|H2]; [lia|]. eapply IH; eassumption. }
    eapply U; [apply Af| | | |]; try eassumption. congruence.
  Qed.

  (** Over any history of calls on one object, the backend is only told to reuse the linear system when the matrix is
      the one of the previous solve (or was never assembled). *)
  Theorem c21_reuse ks : (forall k, In k ks -> matrix_free (options k) = false) ->
    reuse_justified (snd (history repair residual jacobian_ok norm r0 linear_solver ks)).
  Proof. exact (history_reuse repair residual jacobian_ok norm r0 linear_solver ks). Qed.
End C21.

Example c21_meets : exists s e, toy_apply toy_params (search_none (fun x => x) (fun x => Some x) toy_norm (fun l c x => x + l * (c / 2))) None [] 1 = Some (Normal s)
  /\ In e (log s) /\ e_iteration e = 1%nat /\ fresh e /\ too_slow e.
Proof.
  do 2 eexists. split; [two_it|]. cbn [log end_loop matrix_free keep_matrix orb set_converged]. split; [left; reflexivity|].
  split; [reflexivity|]. split; [reflexivity|]. do 2 eexists. split; [reflexivity|]. split; [reflexivity|]. cbn. lra.
Qed.

(** Finding: if the initial defect is zero and the solver still iterates (ForceIteration, or an absolute limit of zero),
    0/0 is not above the threshold: the first linear system is solved with a matrix that was never assembled. *)
Theorem c21_zero_defect_refuted : exists p x s e, reassemble_threshold p = 0 /\ force_iteration p = true /\
  toy_apply p (search_none (fun x => x) (fun x => Some x) toy_norm toy_axpy) None [] x = Some (Normal s) /\
  In e (log s) /\ e_matrix e = None.
Proof.
  exists (mkparams (1/10) (1/100) true false false (1/1000) false 0 5 true false), 0.
  do 2 eexists. do 2 (split; [reflexivity|]). split; [one_it|]. cbn. split; [left; reflexivity|reflexivity].
Qed.

(** Finding: with a threshold of one or more the first solve of a call does not assemble the Jacobian, but uses what the
    matrix held before: nothing in the first call. *)
Theorem c21_threshold_one_refuted : exists p x s e, reassemble_threshold p = 1 /\
  toy_apply p (search_none (fun x => x) (fun x => Some x) toy_norm toy_axpy) None [] x = Some (Normal s) /\
  In e (log s) /\ e_matrix e = None.
Proof.
  exists (mkparams (1/10) (1/100) true false false (1/1000) false 1 5 false false), 1.
  do 2 eexists. split; [reflexivity|]. split; [one_it|]. cbn. split; [left; reflexivity|reflexivity].
Qed.

Section C22.
  Context {V W : Type} (repair : V -> V) (residual : V -> option W) (norm : bool -> W -> ext) (axpy : R -> V -> V -> V).

  (** Normal return: either the defect was below the absolute limit and a full step was made, or the contract holds. *)
  Theorem c22_contract q p c c' corr : 0 < damping q < 1 ->
    search_hr repair residual norm axpy q p c corr = Normal c' ->
    consistent residual norm p c' /\
    (lt (defect c) (Fin (absolute_limit p)) = true /\ sol c' = step_to repair axpy p (sol c) corr 1 \/
     contract repair residual norm axpy p q (sol c) corr (defect c) (sol c') (defect c')) /\
    (length (evals c') <= S (ls_max q) + length (evals c))%nat.
  Proof. exact (search_hr_normal repair residual norm axpy q p c c' corr). Qed.

  (** Otherwise an exception is raised: no step length tried was good enough and the old solution is back, or the residual
      could not be evaluated. *)
  Theorem c22_failure q p c c' corr f : 0 < damping q < 1 ->
    search_hr repair residual norm axpy q p c corr = Raised f c' ->
    (f = LineSearchError /\ hopeless repair residual norm axpy p q (sol c) corr (defect c) /\
     sol c' = point repair p (sol c) /\ consistent residual norm p c') \/
    (f = AssemblyError /\ value residual norm p (sol c') = None).
  Proof. exact (search_hr_failed repair residual norm axpy q p c c' corr f). Qed.
End C22.

Example c22_meets : exists c', search_hr (fun x => x) (fun x => Some x) toy_norm toy_axpy (mkls 3 (1/2) false) toy_params
    (mkcore 1 1 (Fin 1) []) 4 = Normal c' /\ sol c' = 0 /\ length (evals c') = 3%nat.
Proof.
  unfold search_hr, trials, update_defect, toy_norm, toy_axpy. crunch. eexists. split; [reflexivity|]. cbn. split; [lra|reflexivity].
Qed.
Example c22_meets_best : exists c', search_hr (fun x => x) (fun x => Some x) toy_norm toy_axpy (mkls 2 (1/2) true) toy_params
    (mkcore 1 1 (Fin 1) []) (1/10) = Normal c' /\ sol c' = 9/10 /\ length (evals c') = 3%nat.
Proof.
  unfold search_hr, trials, update_defect, toy_norm, toy_axpy. crunch. eexists. split; [reflexivity|]. cbn. split; [lra|reflexivity].
Qed.

(** Finding: with damping factor 1 and AcceptBest the search returns normally, the solution is unchanged and the stored
    defect is not its defect. *)
Theorem c22_damping_one_refuted : exists q p c corr c', damping q = 1 /\ accept q = true /\ ls_max q = 2%nat /\
  consistent (fun x => Some x) toy_norm p c /\
  search_hr (fun x => x) (fun x => Some x) toy_norm toy_axpy q p c corr = Normal c' /\
  sol c' = sol c /\ ~ consistent (fun x => Some x) toy_norm p c'.
Proof.
  exists (mkls 2 1 true), toy_params, (mkcore 1 1 (Fin (1 * 1)) []), (1/10).
  unfold search_hr, trials, update_defect, toy_norm, toy_axpy. crunch. eexists. do 3 (split; [reflexivity|]).
  split; [split; reflexivity|]. split; [reflexivity|]. cbn. split; [reflexivity|].
  unfold consistent, value, toy_norm. cbn. intros (_ & H). injection H as H. lra.
Qed.

Section C48.
  Context {V W : Type} (repair : V -> V) (residual : V -> option W) (jacobian_ok : V -> bool) (norm : bool -> W -> ext)
          (r0 : W) (linear_solver : list (event (V := V)) -> option (list V) -> W -> ext -> bool * V * Z).

  (** Requested accuracy of the linear solves. *)
  Theorem c48_linear_reduction p ls m tr x o : apply repair residual jacobian_ok norm r0 linear_solver p ls m tr x = Some o ->
    exists new, log (final o) = new ++ tr /\ forall e, In e new ->
      (fixed_linear_reduction p = true -> e_reduction e = Fin (min_linear_reduction p)) /\
      (fixed_linear_reduction p = false ->
       e_iteration e <> 0%nat \/ lt (first (final o)) (Fin (absolute_limit p)) = false ->
       forall f d q, first (final o) = Fin f -> e_defect e = Fin d -> e_previous e = Fin q -> 0 < d -> 0 < q ->
       exists r, e_reduction e = Fin r /\ reduction_rule p f d q r).
  Proof.
    intros A. destruct (apply_solves _ _ _ _ _ _ p ls m tr x o A) as (new & L & Af & F). exists new.
    split; [exact L|]. intros e He. apply (af_good _ _ _ Af e He).
  Qed.
End C48.

Example c48_meets : exists s e, toy_apply toy_params (search_none (fun x => x) (fun x => Some x) toy_norm (fun l c x => x + l * (c / 2))) None [] 1 = Some (Normal s)
  /\ In e (log s) /\ e_iteration e = 1%nat /\ e_defect e = Fin (1/4) /\ e_previous e = Fin 1.
Proof.
  do 2 eexists. split; [two_it|]. cbn [log end_loop matrix_free keep_matrix orb set_converged]. split; [left; reflexivity|].
  split; [reflexivity|]. cbn. split; f_equal; lra.
Qed.

Print Assumptions c20_terminates.
Print Assumptions c20_normal_return.
Print Assumptions c20_reduction.
Print Assumptions c20_criterion_real.
Print Assumptions c20_exception.
Print Assumptions c20_true_defect_none.
Print Assumptions c20_true_defect_hr.
Print Assumptions c20_linear_iterations.
Print Assumptions c20_budget_refuted.
Print Assumptions c20_stale_defect_refuted.
Print Assumptions c21_fresh_when_slow.
Print Assumptions c21_never_unassembled.
Print Assumptions c21_reuse.
Print Assumptions c21_zero_defect_refuted.
Print Assumptions c21_threshold_one_refuted.
Print Assumptions c22_contract.
Print Assumptions c22_failure.
Print Assumptions c22_damping_one_refuted.
Print Assumptions c48_linear_reduction.
