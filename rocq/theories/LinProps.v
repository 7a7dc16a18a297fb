(** C58: solving linear problems. *)
From Coq Require Import FunctionalExtensionality Lra.
From Verif Require Import CommonFacts LinModel EngineSpec EngineProofs EngineProofs3 ConsSpec ConsProofs ConsProofs2 ConsProofs3 ConsProofs4 LinSpec LinProofs LinProofs2.
From Verif Require ConsProps.
Local Open Scope R_scope.

(** C58: after any history of calls (with exceptions, reused or reassembled matrices, matrices discarded or not kept, changed
    vectors and settings), a call of apply that returns with a converged result leaves a vector whose residual has been
    reduced by the requested factor or is below the minimal defect. *)
Theorem c58_solves : forall N p A st x0 red0 md0 l s c s' i,
  linear_problem N (hanging s) p A -> keeps_promise N p A -> (hanging s = true -> proper (trial p) /\ flat (trial p)) ->
  (forall v, 0 <= norm p v) -> 0 <= reduction s ->
  run p (construct st x0 red0 md0) l = Some s -> step p s c = (s', Fine) -> works_on s c = Some i -> res_converged s' = true ->
  let d := norm p (residual p (start p (hanging s) (store s i))) in d <> 0 ->
  norm p (residual p (store s' i)) <= Rmax (reduction s * d) (min_defect s).
Proof. intros N p A. exact (solves N p A). Qed.
Print Assumptions c58_solves.

(** C58: the reported first and last defect are the norms of the residuals before and after. *)
Theorem c58_reported : forall N p A st x0 red0 md0 l s c s' i,
  linear_problem N (hanging s) p A -> reports_reduction N p A -> (hanging s = true -> proper (trial p) /\ flat (trial p)) ->
  run p (construct st x0 red0 md0) l = Some s -> step p s c = (s', Fine) -> works_on s c = Some i ->
  first_defect s' = norm p (residual p (start p (hanging s) (store s i))) /\
  defect s' = norm p (residual p (store s' i)).
Proof. intros N p A. exact (reported N p A). Qed.
Print Assumptions c58_reported.

(** C58: with the hanging node modification, the result has interpolated values in the hanging nodes and the given values in
    the Dirichlet nodes, provided the linear solver leaves constrained DOFs alone. *)
Theorem c58_interpolated : forall N p A st x0 red0 md0 l s c s' i,
  linear_problem N true p A -> hanging s = true -> proper (trial p) -> flat (trial p) ->
  (forall m r red z cv it rr, solve p m r red = LsDone z cv it rr -> free_part (trial p) z) ->
  run p (construct st x0 red0 md0) l = Some s -> step p s c = (s', Fine) -> works_on s c = Some i ->
  forall g, match find g (trial p) with
    | Some ((_ :: _) as r) => store s' i g = lsum (fun e => snd e * store s' i (fst e)) r
    | Some [] => store s' i g = store s i g
    | None => True end.
Proof. intros N p A. exact (interpolated N p A). Qed.
Print Assumptions c58_interpolated.

(** C58: the behaviour of apply is undefined exactly if no vector was ever given or a matrix is to be reused that is not there
    or not assembled. *)
Theorem c58_defined : forall p reuse f s, snd (apply p reuse f s) = Undefined <->
  target s = None \/ (matrix_free p = false /\ reuse = true /\ f = NoFault /\ forall m, matrix s <> Assembled m).
Proof. exact undefined_iff. Qed.
Print Assumptions c58_defined.
(** So a solver constructed with a vector can always be applied without reuse, after any history, ... *)
Theorem c58_apply_defined : forall p st x red md l s f,
  run p (construct st (Some x) red md) l = Some s -> snd (step p s (Apply false f)) <> Undefined.
Proof.
  intros p st x red md l s f R. destruct (run_target p l (construct st (Some x) red md) s x eq_refl R) as (j & T). cbn [step]. intros U.
  apply undefined_iff in U. destruct U as [U|(_ & U & _)]; congruence.
Qed.
Print Assumptions c58_apply_defined.
(** ... and with reuse, once a matrix has been assembled, as long as no call drops it. *)
Theorem c58_reuse_defined : forall p s c s1 l s2 f j,
  step p s c = (s1, Fine) -> (exists i, works_on s c = Some i) -> keep s = true -> matrix_free p = false ->
  (forall c', In c' l -> keeps_matrix c') -> run p s1 l = Some s2 -> snd (step p s2 (ApplyTo j true f)) <> Undefined.
Proof.
  intros p s c s1 l s2 f j S (i & W) K MF KM R.
  destruct (fine_call p s c s1 i S W) as (reuse & f' & s0 & -> & AP).
  apply apply_fine in AP. destruct AP as (k & z & cv & it & rr & m & T & _ & H). cbn zeta in H. rewrite MF in H.
  destruct H as (_ & (A & -> & _) & _ & _ & _ & _ & _ & _ & _ & _ & _ & _ & K1 & M1). cbn [set_target keep] in K1, M1. rewrite K in M1. 
  destruct (run_keeps p l KM s1 s2 R) as (B & MB); [congruence|eauto|].
  cbn [step]. intros U. apply undefined_iff in U. cbn [set_target target matrix] in U.
  destruct U as [U|(_ & _ & _ & U)]; [discriminate|]. exact (U B MB).
Qed.
Print Assumptions c58_reuse_defined.

(** C58: an exception leaves the vectors, the result and the settings as they were (without the hanging node modification). *)
Theorem c58_exception : forall p reuse f s s', apply p reuse f s = (s', Raised) -> hanging s = false ->
  store s' = store s /\ res_converged s' = res_converged s /\ res_iterations s' = res_iterations s /\ res_reduction s' = res_reduction s /\
  first_defect s' = first_defect s /\ defect s' = defect s /\ reduction s' = reduction s /\ min_defect s' = min_defect s /\
  hanging s' = false /\ keep s' = keep s.
Proof. exact raised_state. Qed.
Print Assumptions c58_exception.

(** C58: problems assembled from element matrices with any constraint history are linear problems in this sense: with the
    hanging node modification always, without it if there are only Dirichlet constraints. *)
Theorem c58_assembled_problem : forall os N els cs b p (h : bool),
  let t := after_history os in
  trial p = entries t -> residual p = residual_of (entries t) els b ->
  (forall x, jacobian p x = assemble_constrained (entries t) (entries t) false cs mzero) ->
  caches_of (entries t) (entries t) (needs_caching t t) els cs ->
  flat (entries t) -> below N (entries t) -> (forall e h, In e els -> In h (us e) -> (h < N)%nat) ->
  (h = false -> only_dirichlet (entries t)) ->
  linear_problem N h p (assemble_constrained (entries t) (entries t) false cs mzero).
Proof.
  cbn zeta. intros os N els cs b p h T R J C F B L OD. split; [exact J|]. intros x z g FZ. rewrite R, T in *.
  assert (E : correction h (entries (after_history os)) z = full (entries (after_history os)) z).
  { destruct h; [apply full_correction|]. extensionality k. cbn [correction]. unfold full.
    destruct (find k (entries (after_history os))) as [[|e r]|] eqn:Q; try reflexivity.
    apply find_in in Q. pose proof (OD eq_refl _ _ Q). discriminate. }
  rewrite E, residual_difference. f_equal.
  destruct (in_dec Nat.eq_dec g (keys (entries (after_history os)))) as [I|I].
  - rewrite constrain_zero by exact I. assert (Lg : (g < N)%nat).
    { apply keys_in in I. destruct I as (r & I). exact (proj1 (B g r I)). }
    rewrite (ConsProps.c49_constrained_rows N _ _ _ _ _ _ g I Lg). symmetry. f_equal. apply FZ. exact I.
  - f_equal. symmetry. exact (ConsProps.c49_product os os N els cs z g C F B L I).
Qed.
Print Assumptions c58_assembled_problem.

(** A concrete problem, 2 x = 6 for one DOF, with an exact solver that reports its reduction. *)
Definition halves : problem :=
  mkproblem (fun x g => if (g =? 0)%nat then 2 * x 0%nat - 6 else 0) (fun _ g h => if (g =? 0)%nat && (h =? 0)%nat then 2 else 0) []
    (fun v => v 0%nat * v 0%nat) false
    (fun _ r _ => LsDone (fun g => if (g =? 0)%nat then r 0%nat / 2 else 0) true 1 0).
Definition two : mat := fun g h => if (g =? 0)%nat && (h =? 0)%nat then 2 else 0.
Definition halved (x : vec) : vec := vsub x (fun g => if (g =? 0)%nat then (2 * x 0%nat - 6) / 2 else 0).
Lemma halves_apply reuse st i red md k m c it rr f d : (reuse = true -> m = Assembled two) ->
  apply halves reuse NoFault (mksolver st (Some i) red md false k m c it rr f d) =
  (mksolver (place i (halved (st i)) st) (Some i) red md false k (if k then Assembled two else NoMatrix) true 1 0
     (norm halves (residual halves (st i))) (norm halves (residual halves (st i)) * 0), Fine).
Proof.
  intros H. destruct reuse; [rewrite (H eq_refl); destruct k; reflexivity|]. destruct k, m; reflexivity.
Qed.
Lemma halves_raised st i red md k m c it rr f d :
  apply halves true InResidual (mksolver st (Some i) red md false k (Assembled m) c it rr f d) =
  (mksolver st (Some i) red md false k (Assembled m) c it rr f d, Raised).
Proof. reflexivity. Qed.
Example c58_meets : linear_problem 1 false halves two /\ keeps_promise 1 halves two /\ reports_reduction 1 halves two /\
  (forall v, 0 <= norm halves v) /\
  exists s s', run halves (construct (fun _ _ => 1) (Some 7%nat) (1/10) 0) [ApplyTo 3 false NoFault; SetKeep false; Change 7 (fun _ => 2); Apply true InResidual] = Some s /\
    step halves s (ApplyTo 7 true NoFault) = (s', Fine) /\ works_on s (ApplyTo 7 true NoFault) = Some 7%nat /\ res_converged s' = true /\
    hanging s = false /\ norm halves (residual halves (start halves (hanging s) (store s 7%nat))) = 4 /\ store s' 7%nat 0%nat = 3 /\ matrix s' = NoMatrix.
Proof.
  split; [|split; [|split; [|split]]].
  - split; [reflexivity|]. intros x z g _. cbn. unfold mv, two, vsub. cbn. destruct (g =? 0)%nat; cbn; lra.
  - intros m r red z it rr. cbn. intros E _. injection E as <- <- <-. split; [intros g []|].
    destruct red as [q|]; [|exact I]. unfold vsub, mv, two. cbn. replace (r 0%nat - (0 + 2 * (r 0%nat / 2))) with 0 by field.
    intros Q. assert (0 <= q * (r 0%nat * r 0%nat)) by (apply Rmult_le_pos; [exact Q|apply Rle_0_sqr]). lra.
  - intros m r red z c it rr. cbn. intros E _. injection E as <- <- <- <-. split; [intros g []|].
    unfold vsub, mv, two. cbn. replace (r 0%nat - (0 + 2 * (r 0%nat / 2))) with 0 by field. lra.
  - intros v. apply Rle_0_sqr.
  - eexists. eexists. split.
    { cbn [run step]. unfold construct, set_target, set_keep, set_store. cbn [run step store target reduction min_defect hanging keep matrix res_converged res_iterations res_reduction first_defect defect].
      rewrite halves_apply by discriminate. cbn [run step store target reduction min_defect hanging keep matrix res_converged res_iterations res_reduction first_defect defect].
      rewrite halves_raised. cbn [run]. reflexivity. }
    split.
    { cbn [step]. unfold set_target. cbn [store target reduction min_defect hanging keep matrix res_converged res_iterations res_reduction first_defect defect].
      rewrite halves_apply by reflexivity. reflexivity. }
    split; [reflexivity|]. split; [reflexivity|]. split; [reflexivity|]. split; [|split; [|reflexivity]].
    + cbn. lra.
    + cbn. unfold halved, vsub. cbn. lra.
Qed.

(** The problem of C49's example with a right hand side: hanging nodes, a Dirichlet node, and the modification switched on. *)
Example c58_assembled_meets : exists os N els cs b p, let t := after_history os in
  trial p = entries t /\ residual p = residual_of (entries t) els b /\
  (forall x, jacobian p x = assemble_constrained (entries t) (entries t) false cs mzero) /\
  caches_of (entries t) (entries t) (needs_caching t t) els cs /\ flat (entries t) /\ below N (entries t) /\
  (forall e h, In e els -> In h (us e) -> (h < N)%nat) /\ find 5 (entries t) = Some [(1%nat, 1/2); (2%nat, 1/2)] /\ find 7 (entries t) = Some [].
Proof.
  set (t := after_history ConsProps.hanging).
  exists ConsProps.hanging, 8%nat, [ConsProps.hang_element], [(update (entries t) (vs ConsProps.hang_element) (new_cache (needs_caching t t)), update (entries t) (us ConsProps.hang_element) (new_cache (needs_caching t t)), em ConsProps.hang_element)], (fun _ => 1).
  exists (mkproblem (residual_of (entries t) [ConsProps.hang_element] (fun _ => 1))
    (fun _ => assemble_constrained (entries t) (entries t) false [(update (entries t) (vs ConsProps.hang_element) (new_cache (needs_caching t t)), update (entries t) (us ConsProps.hang_element) (new_cache (needs_caching t t)), em ConsProps.hang_element)] mzero)
    (entries t) (fun v => Rabs (v 1%nat)) false (fun _ _ _ => LsThrow)). cbn zeta. fold t.
  split; [reflexivity|]. split; [reflexivity|]. split; [reflexivity|]. split.
  { constructor; [|constructor]. cbn [fst snd]. split; [exists []; reflexivity|]. split; [exists []; reflexivity|reflexivity]. }
  destruct ConsProps.c49_meets as (F & B & L & _). split; [exact F|]. split; [exact B|]. split; [exact L|]. split; reflexivity.
Qed.

(** Finding: apply(x, true) as the first call, or after a call that did not keep its matrix, uses a matrix that has been
    allocated but never assembled; nothing in the interface detects this. *)
Theorem c58_reuse_first_refuted : exists p st red md, linear_problem 1 false p two /\ keeps_promise 1 p two /\
  run p (construct st (Some 0%nat) red md) [Apply true NoFault] = None /\
  run p (construct st (Some 0%nat) red md) [SetKeep false; Apply false NoFault; Apply true NoFault] = None.
Proof.
  exists halves, (fun _ _ => 1), (1/10), 0. destruct c58_meets as (A & B & _). split; [exact A|]. split; [exact B|]. split; reflexivity.
Qed.
Print Assumptions c58_reuse_first_refuted.
(** Finding: for a vector that solves the problem already, the requested reduction is infinite, so a solver may return any
    correction as converged, and the solution is lost. *)
Definition careless : problem :=
  mkproblem (residual halves) (jacobian halves) [] (norm halves) false
    (fun _ r red => match red with None => LsDone (fun g => if (g =? 0)%nat then 1 else 0) true 0 1
                    | Some _ => LsDone (fun g => if (g =? 0)%nat then r 0%nat / 2 else 0) true 1 0 end).
Theorem c58_zero_defect_refuted : exists p st red md s', linear_problem 1 false p two /\ keeps_promise 1 p two /\
  step p (construct st (Some 0%nat) red md) (Apply false NoFault) = (s', Fine) /\ res_converged s' = true /\
  norm p (residual p (st 0%nat)) = 0 /\ norm p (residual p (store s' 0%nat)) = 4 /\ reduction s' < 1 /\ min_defect s' < 1.
Proof.
  exists careless, (fun _ _ => 3), (1/10), (1/10). destruct c58_meets as (A & B & _).
  assert (Z : norm careless (residual careless (fun _ => 3)) = 0) by (cbn; lra).
  eexists. split; [exact A|]. split.
  { intros m r red z it rr. cbn. destruct red as [q|]; intros E _; injection E as <- <- <-; (split; [intros g []|]); [|exact I].
    unfold vsub, mv, two. cbn. replace (r 0%nat - (0 + 2 * (r 0%nat / 2))) with 0 by field.
    intros Q. assert (0 <= q * (r 0%nat * r 0%nat)) by (apply Rmult_le_pos; [exact Q|apply Rle_0_sqr]). lra. }
  split.
  { cbn [step]. unfold apply, construct. cbn [matrix_free careless matrix target hanging store negb andb set_matrix reduction min_defect].
    unfold requested. fold careless. destruct (Req_EM_T (norm careless (residual careless (fun _ => 3))) 0) as [_|K]; [|contradiction].
    destruct (Rlt_dec 0 (1/10)) as [_|K]; [|exfalso; apply K; lra]. cbn. reflexivity. }
  cbn. split; [reflexivity|]. split; [lra|]. unfold vsub. cbn. split; [lra|]. split; lra.
Qed.
Print Assumptions c58_zero_defect_refuted.
