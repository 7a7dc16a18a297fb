(** Proofs about the linear problem solver. *)
From Coq Require Import FunctionalExtensionality Lra.
From Verif Require Import CommonFacts LinModel EngineSpec EngineProofs EngineProofs3 ConsSpec ConsProofs ConsProofs2 ConsProofs3 ConsProofs4 LinSpec.
Local Open Scope R_scope.

Lemma dirichlet_find cg g : proper cg -> dirichlet cg g <-> find g cg = Some [].
Proof.
  intros (ND & _). unfold dirichlet. split; [|apply find_in]. intros I. induction cg as [|(k, r) cg IH]; [destruct I|].
  unfold keys in ND. cbn [map fst] in ND. inversion_clear ND as [|? ? N1 N2]. cbn [find]. destruct I as [E|I].
  - injection E as -> ->. now rewrite Nat.eqb_refl.
  - destruct (Nat.eqb_spec k g) as [->|]; [|now apply IH]. exfalso. apply N1. eapply in_keys, I.
Qed.
Lemma shifted_at cg x g : proper cg -> set_shifted cg 0 x g = match find g cg with Some [] => x g | _ => 0 end.
Proof.
  intros P. destruct (shifted_spec cg 0 x g) as [A B]. rewrite (dirichlet_find cg g P) in A, B.
  destruct (find g cg) as [[|e r]|]; [now apply A|apply B; discriminate|apply B; discriminate].
Qed.
Lemma backward_at cg v g : proper cg -> flat cg ->
  backward false cg v g = match find g cg with None => v g | Some r => v g + lsum (fun e => snd e * v (fst e)) r end.
Proof. intros (ND & _) F. apply (pull_all _ false cg (flat_split _ F) ND). discriminate. Qed.

Definition start_model (p : problem) (h : bool) (x : vec) : vec :=
  if h then backward false (trial p) (set_shifted (trial p) 0 x) else x.
Lemma start_ok p h x : (h = true -> proper (trial p) /\ flat (trial p)) -> start_model p h x = start p h x.
Proof.
  destruct h; [|reflexivity]. intros H. destruct (H eq_refl) as [P F]. extensionality g. cbn [start_model start].
  rewrite backward_at by assumption. rewrite shifted_at by assumption. destruct (find g (trial p)) as [[|e r]|] eqn:E.
  - rewrite lsum_nil. lra.
  - rewrite Rplus_0_l. apply lsum_ext. intros e' _. rewrite shifted_at by assumption. reflexivity.
  - reflexivity.
Qed.
Definition finish (p : problem) (h : bool) (x z : vec) : vec :=
  if h then backward false (trial p) (vsub (set_shifted (trial p) 0 x) z) else vsub x z.
Lemma finish_ok p h x z : (h = true -> proper (trial p) /\ flat (trial p)) -> free_part (trial p) z ->
  finish p h (start_model p h x) z = vsub (start p h x) (correction h (trial p) z).
Proof.
  destruct h; [|reflexivity]. intros H Z. destruct (H eq_refl) as [P F]. extensionality g.
  rewrite (start_ok p true x H). cbn [finish start correction]. rewrite backward_at by assumption. unfold vsub.
  assert (D : forall k, set_shifted (trial p) 0 (start p true x) k = match find k (trial p) with Some [] => x k | _ => 0 end).
  { intros k. rewrite shifted_at by assumption. cbn [start]. destruct (find k (trial p)) as [[|]|]; reflexivity. }
  cbn [start] in D. rewrite D. destruct (find g (trial p)) as [[|e r]|] eqn:E.
  - rewrite lsum_nil. lra.
  - rewrite (Z g) by (eapply in_keys, find_in, E).
    rewrite (lsum_ext _ (fun e0 => snd e0 * match find (fst e0) (trial p) with Some [] => x (fst e0) | _ => 0 end + (-1) * (snd e0 * z (fst e0)))).
    2: { intros (c, w) _. cbn [fst snd]. rewrite D. lra. }
    rewrite lsum_plus, lsum_scal. lra.
  - lra.
Qed.

(** What one call of apply does, by outcome. *)
Definition ready (p : problem) (reuse : bool) (s : solver) (x : vec) : option mat :=
  if reuse then match matrix s with Assembled m => Some m | _ => None end else Some (jacobian p x).
Definition request p s x := requested (reduction s) (min_defect s) (norm p (residual p x)).

Lemma apply_fine p reuse f s s' : apply p reuse f s = (s', Fine) ->
  exists i z c it rr m, target s = Some i /\ target s' = Some i /\ let x := start_model p (hanging s) (store s i) in
    f = NoFault /\
    (if matrix_free p then m = None else exists A, m = Some A /\ ready p reuse s x = Some A) /\
    solve p m (residual p x) (request p s x) = LsDone z c it rr /\
    store s' = place i (finish p (hanging s) x z) (store s) /\
    res_converged s' = c /\ res_iterations s' = it /\ res_reduction s' = rr /\
    first_defect s' = norm p (residual p x) /\ defect s' = norm p (residual p x) * rr /\
    reduction s' = reduction s /\ min_defect s' = min_defect s /\ hanging s' = hanging s /\ keep s' = keep s /\
    matrix s' = (if matrix_free p then matrix s else if keep s then match m with Some A => Assembled A | None => NoMatrix end else NoMatrix).
Proof.
  unfold apply. intros H.
  set (s1 := if matrix_free p then s else match matrix s with NoMatrix => set_matrix Allocated s | _ => s end) in H.
  assert (E1 : target s1 = target s /\ store s1 = store s /\ reduction s1 = reduction s /\ min_defect s1 = min_defect s /\ hanging s1 = hanging s /\ keep s1 = keep s
     /\ (matrix_free p = true -> matrix s1 = matrix s) /\ (forall A, matrix s1 = Assembled A <-> matrix s = Assembled A)).
  { unfold s1. destruct (matrix_free p); [repeat split; auto|]. destruct (matrix s) eqn:M; cbn; rewrite ?M; repeat split; intros; try discriminate; auto. }
  clearbody s1. destruct E1 as (Et & Es & Er & Em & Eh & Ek & Emf & Ea).
  rewrite Et in H. destruct (target s) as [i|] eqn:T; [|discriminate].
  rewrite Eh, Es in H.
  set (s2 := if hanging s then set_store (place i (backward false (trial p) (set_shifted (trial p) 0 (store s i))) (store s)) s1 else s1) in H.
  assert (E2 : store s2 i = start_model p (hanging s) (store s i) /\ (forall v, place i v (store s2) = place i v (store s)) /\
     target s2 = Some i /\ reduction s2 = reduction s /\ min_defect s2 = min_defect s /\ hanging s2 = hanging s /\ keep s2 = keep s /\ matrix s2 = matrix s1).
  { unfold s2, start_model. destruct (hanging s) eqn:Hh; cbn; rewrite ?Es, ?Eh, ?Et; unfold place.
    - rewrite Nat.eqb_refl. repeat split; auto. intros v. extensionality k. destruct (k =? i)%nat; reflexivity.
    - repeat split; auto. }
  clearbody s2. destruct E2 as (E2x & E2p & E2t & E2r & E2m & E2h & E2k & E2M). rewrite E2x in H.
  set (x := start_model p (hanging s) (store s i)) in *.
  destruct f; [|destruct (_ && _); discriminate|discriminate].
  set (s3 := if negb (matrix_free p) && negb reuse then set_matrix (Assembled (jacobian p x)) s2 else s2) in H.
  assert (E3 : store s3 = store s2 /\ target s3 = Some i /\ reduction s3 = reduction s /\ min_defect s3 = min_defect s /\ hanging s3 = hanging s /\ keep s3 = keep s /\
     (matrix_free p = true -> matrix s3 = matrix s) /\
     (matrix_free p = false -> forall A, matrix s3 = Assembled A <-> ready p reuse s x = Some A)).
  { unfold s3, ready. destruct (matrix_free p) eqn:MF; cbn [negb andb].
    - repeat split; auto; try discriminate. intros _. rewrite E2M. auto.
    - destruct reuse; cbn [negb]; cbn [set_matrix store target reduction min_defect hanging keep matrix]; repeat split; auto; try discriminate; intros Q.
      + rewrite E2M in Q. apply Ea in Q. now rewrite Q.
      + rewrite E2M. apply Ea. destruct (matrix s); congruence.
      + congruence.
      + congruence. }
  clearbody s3. destruct E3 as (E3s & E3t & E3r & E3m & E3h & E3k & E3f & E3M).
  rewrite E3r, E3m in H. fold (request p s x) in H.
  set (ans := if matrix_free p then _ else _) in H.
  destruct ans as [[|z c it rr]|] eqn:EA; try discriminate. unfold ans in EA. clear ans.
  cbn [set_result store hanging set_store keep matrix target] in H. rewrite E3h, E3k, E3s, E2p in H.
  assert (X : place i (if hanging s then backward false (trial p) (vsub (set_shifted (trial p) 0 x) z) else vsub x z) (store s) =
              place i (finish p (hanging s) x z) (store s)) by (unfold finish; destruct (hanging s); reflexivity).
  destruct (matrix_free p) eqn:MF.
  - injection EA as EA. cbn [negb andb] in H.
    exists i, z, c, it, rr, None. injection H as <-. cbn. rewrite E3t, E3r, E3m, E3h, E3k. unfold finish.
    repeat split; auto. destruct (hanging s); reflexivity.
  - destruct (matrix s3) as [| |A] eqn:M3; try discriminate. injection EA as EA.
    exists i, z, c, it, rr, (Some A). split; [reflexivity|]. cbn [negb andb] in H.
    assert (RD : ready p reuse s x = Some A) by (apply E3M; auto).
    destruct (keep s) eqn:K; cbn [negb] in H; injection H as <-; cbn; rewrite ?E3t, ?E3r, ?E3m, ?E3h, ?E3k, ?M3; (split; [assumption || reflexivity|]);
      unfold finish; (repeat split; auto; [exists A; auto|destruct (hanging s); reflexivity]).
Qed.

(** Reachable states only hold the matrix of the linear problem. *)
Lemma step_matrix p s c s' o B : step p s c = (s', o) -> (forall x, jacobian p x = B) ->
  (forall m, matrix s = Assembled m -> m = B) -> forall m, matrix s' = Assembled m -> m = B.
Proof.
  intros H J I. 
  assert (K : forall reuse f s, (forall m, matrix s = Assembled m -> m = B) -> forall m, matrix (fst (apply p reuse f s)) = Assembled m -> m = B).
  { clear - J. intros reuse f s I. unfold apply.
    set (s1 := if matrix_free p then s else _). assert (I1 : forall m, matrix s1 = Assembled m -> m = B).
    { unfold s1. destruct (matrix_free p); [exact I|]. destruct (matrix s) eqn:M; [discriminate| |]; rewrite ?M; exact I. }
    clearbody s1. destruct (target s1) as [i|]; [|exact I1].
    set (s2 := if hanging s1 then _ else s1). assert (I2 : forall m, matrix s2 = Assembled m -> m = B) by (unfold s2; destruct (hanging s1); exact I1).
    clearbody s2. destruct f.
    - set (s3 := if negb _ && _ then _ else s2). assert (I3 : forall m, matrix s3 = Assembled m -> m = B).
      { unfold s3. destruct (_ && _); [|exact I2]. cbn. intros m Q. injection Q as <-. apply J. }
      clearbody s3. destruct (if matrix_free p then _ else _) as [[|z c it rr]|]; [exact I3| |exact I3].
      cbn. destruct (_ && _); [discriminate|exact I3].
    - destruct (_ && _); [discriminate|exact I2].
    - cbn. destruct (_ && _); [|exact I2]. cbn. intros m Q. injection Q as <-. apply J. }
  intros m. replace s' with (fst (step p s c)) by now rewrite H.
  destruct c as [reuse f|i reuse f| | | | |]; cbn [step]; try exact (I m); try (apply K; exact I). discriminate.
Qed.
Lemma run_matrix p B l : (forall x, jacobian p x = B) -> forall s s', run p s l = Some s' ->
  (forall m, matrix s = Assembled m -> m = B) -> forall m, matrix s' = Assembled m -> m = B.
Proof.
  intros J. induction l as [|c l IH]; intros s s' H I; cbn [run] in H; [injection H as <-; exact I|].
  destruct (step p s c) as (s1, o) eqn:E.
  apply (IH s1); [destruct o; [exact H|exact H|discriminate]|]. intros m. exact (step_matrix p s c s1 o B E J I m).
Qed.

Lemma requested_bound red md d q : 0 < d -> requested red md d = Some q -> q * d = Rmax (red * d) md.
Proof.
  intros D H. unfold requested in H. destruct (Req_EM_T d 0) as [|]; [lra|]. injection H as <-.
  assert (E : md / d * d = md) by (field; lra). 
  destruct (Rlt_dec red (md / d)) as [L|L].
  - assert (red * d < md) by (rewrite <- E; apply Rmult_lt_compat_r; assumption). rewrite E, Rmax_right by lra. reflexivity.
  - assert (md <= red * d) by (rewrite <- E; apply Rmult_le_compat_r; lra). now rewrite Rmax_left by lra.
Qed.

Section Solve.
  Variables (N : nat) (p : problem) (A : mat).
  Lemma fine_call s c s' i : step p s c = (s', Fine) -> works_on s c = Some i ->
    exists reuse f s0, s0 = set_target (Some i) s /\ apply p reuse f s0 = (s', Fine).
  Proof.
    destruct c as [reuse f|j reuse f| | | | |]; cbn [step works_on]; intros H W; try discriminate.
    - exists reuse, f, s. split; [|exact H]. unfold set_target. destruct s. cbn in *. now subst.
    - injection W as ->. exists reuse, f, (set_target (Some i) s). auto.
  Qed.
  Lemma call_solves st x0 red0 md0 l s c s' i :
    run p (construct st x0 red0 md0) l = Some s -> step p s c = (s', Fine) -> works_on s c = Some i ->
    linear_problem N (hanging s) p A -> (hanging s = true -> proper (trial p) /\ flat (trial p)) ->
    exists m z it rr, let x := start p (hanging s) (store s i) in
      m = (if matrix_free p then None else Some A) /\
      solve p m (residual p x) (request p s x) = LsDone z (res_converged s') it rr /\
      store s' = place i (finish p (hanging s) (start_model p (hanging s) (store s i)) z) (store s) /\
      first_defect s' = norm p (residual p x) /\ defect s' = norm p (residual p x) * rr /\ res_iterations s' = it /\ res_reduction s' = rr.
  Proof.
    intros R S W (J & _) PF. destruct (fine_call s c s' i S W) as (reuse & f & s0 & -> & AP).
    apply apply_fine in AP. destruct AP as (k & z & cv & it & rr & m & T & _ & H). cbn [set_target target store hanging] in *. injection T as ->.
    rewrite (start_ok p (hanging s) (store s k) PF) in H. cbn zeta in H.
    destruct H as (_ & M & SL & St & C & I & RR & FD & D & _). subst cv.
    exists m, z, it, rr. cbn zeta. split; [|rewrite (start_ok p (hanging s) (store s k) PF); auto 9].
    destruct (matrix_free p); [exact M|]. destruct M as (B & -> & M). f_equal. unfold ready in M.
    destruct reuse; [|injection M as <-; apply J]. cbn [set_target matrix] in M.
    destruct (matrix s) as [| |B'] eqn:MS; try discriminate. injection M as ->.
    refine (run_matrix p A l J _ s R _ B MS). discriminate.
  Qed.

  Theorem solves st x0 red0 md0 l s c s' i :
    linear_problem N (hanging s) p A -> keeps_promise N p A -> (hanging s = true -> proper (trial p) /\ flat (trial p)) ->
    (forall v, 0 <= norm p v) -> 0 <= reduction s ->
    run p (construct st x0 red0 md0) l = Some s -> step p s c = (s', Fine) -> works_on s c = Some i -> res_converged s' = true ->
    let d := norm p (residual p (start p (hanging s) (store s i))) in d <> 0 ->
    norm p (residual p (store s' i)) <= Rmax (reduction s * d) (min_defect s).
  Proof.
    intros LP KP PF NN RP R S W C d D. destruct (call_solves st x0 red0 md0 l s c s' i R S W LP PF) as (m & z & it & rr & -> & SL & St & _).
    rewrite C in SL. destruct (KP _ _ _ _ _ _ SL eq_refl) as [FZ B]. rewrite St. unfold place. rewrite Nat.eqb_refl.
    rewrite finish_ok by assumption. destruct LP as [_ LP].
    replace (residual p (vsub (start p (hanging s) (store s i)) (correction (hanging s) (trial p) z))) with
      (vsub (residual p (start p (hanging s) (store s i))) (mv N A z)).
    2: { extensionality g. symmetry. now rewrite LP. }
    pose proof (NN (residual p (start p (hanging s) (store s i)))) as Nd. fold d in Nd.
    unfold request in B. fold d in B. destruct (requested (reduction s) (min_defect s) d) as [q|] eqn:Q.
    - rewrite <- (requested_bound _ _ d q); [apply B|lra|exact Q].
      unfold requested in Q. destruct (Req_EM_T d 0); [contradiction|]. injection Q as <-. destruct (Rlt_dec _ _); lra.
    - exfalso. unfold requested in Q. destruct (Req_EM_T d 0); [contradiction|discriminate].
  Qed.

  Theorem reported st x0 red0 md0 l s c s' i :
    linear_problem N (hanging s) p A -> reports_reduction N p A -> (hanging s = true -> proper (trial p) /\ flat (trial p)) ->
    run p (construct st x0 red0 md0) l = Some s -> step p s c = (s', Fine) -> works_on s c = Some i ->
    first_defect s' = norm p (residual p (start p (hanging s) (store s i))) /\
    defect s' = norm p (residual p (store s' i)).
  Proof.
    intros LP KP PF R S W. destruct (call_solves st x0 red0 md0 l s c s' i R S W LP PF) as (m & z & it & rr & -> & SL & St & FD & D & _).
    split; [exact FD|]. destruct (KP _ _ _ _ _ _ _ SL eq_refl) as [FZ B]. rewrite D, B, St. unfold place. rewrite Nat.eqb_refl.
    rewrite finish_ok by assumption. destruct LP as [_ LP]. f_equal. extensionality g. now rewrite LP.
  Qed.

  (** constrained values afterwards *)
  Theorem interpolated st x0 red0 md0 l s c s' i :
    linear_problem N true p A -> hanging s = true -> proper (trial p) -> flat (trial p) ->
    (forall m r red z cv it rr, solve p m r red = LsDone z cv it rr -> free_part (trial p) z) ->
    run p (construct st x0 red0 md0) l = Some s -> step p s c = (s', Fine) -> works_on s c = Some i ->
    forall g, match find g (trial p) with
      | Some ((_ :: _) as r) => store s' i g = lsum (fun e => snd e * store s' i (fst e)) r
      | Some [] => store s' i g = store s i g
      | None => True end.
  Proof.
    intros LP HH P F FP R S W g. rewrite <- HH in LP.
    assert (PF : hanging s = true -> proper (trial p) /\ flat (trial p)) by auto.
    destruct (call_solves st x0 red0 md0 l s c s' i R S W LP PF) as (m & z & it & rr & -> & SL & St & _).
    pose proof (FP _ _ _ _ _ _ _ SL) as FZ. rewrite St. unfold place. rewrite !Nat.eqb_refl.
    rewrite finish_ok by assumption. rewrite HH. unfold vsub. cbn [start correction].
    destruct (find g (trial p)) as [[|e r]|] eqn:E; [rewrite (FZ g); [lra|]; eapply in_keys, find_in, E| |exact I].
    rewrite <- (Rplus_0_r (_ - _)). 
    transitivity (lsum (fun e0 => snd e0 * match find (fst e0) (trial p) with Some [] => store s i (fst e0) | _ => 0 end + (-1) * (snd e0 * z (fst e0))) (e :: r)).
    { rewrite lsum_plus, lsum_scal. lra. }
    apply lsum_ext. intros (k, w) I. cbn [fst snd]. apply find_in in E.
    destruct (find k (trial p)) as [[|e' r']|] eqn:E'; [lra| |lra].
    apply find_in in E'. exfalso. pose proof (F _ _ _ _ _ E I E'). discriminate.
  Qed.
End Solve.
