(** Adapters of constraint parameters. *)
From Coq Require Import Lia.
From Verif Require Import ParamModel ParamSpec CommonFacts.

Section Proofs.
  Context {T P : Type}.
  Notation store := (list (object T P)).
  (** References point backwards. *)
  Definition proper (s : store) : Prop :=
    forall i j, nth_error s i = Some (FluxFromDirichlet j) \/ nth_error s i = Some (DirichletFromFlux j) -> j < i.
  Lemma dirichlet_S n (s : store) i p : is_dirichlet (S n) s i p =
    match nth_error s i with
    | None => UB | Some (User u t) => Ok (dirichlet_at u t p) | Some Everywhere => Ok true | Some Nowhere => Ok false
    | Some AllFlux | Some NoFlux => UB | Some (FluxFromDirichlet j) => is_dirichlet n s j p
    | Some (DirichletFromFlux j) => let* b := is_neumann n s j p in Ok (negb b)
    end.
  Proof. reflexivity. Qed.
  Lemma neumann_S n (s : store) i p : is_neumann (S n) s i p =
    match nth_error s i with
    | None => UB | Some (User u t) => Ok (neumann_at u t p) | Some Everywhere => Ok false | Some Nowhere => Ok true
    | Some AllFlux => Ok true | Some NoFlux => Ok false | Some (FluxFromDirichlet j) => let* b := is_dirichlet n s j p in Ok (negb b)
    | Some (DirichletFromFlux j) => is_neumann n s j p
    end.
  Proof. reflexivity. Qed.
  Lemma more_fuel (s : store) : proper s -> forall n i p, i < n ->
    is_dirichlet n s i p = is_dirichlet (S i) s i p /\ is_neumann n s i p = is_neumann (S i) s i p.
  Proof.
    intros PR n. induction n as [n IH] using (well_founded_induction Wf_nat.lt_wf). intros i p L. destruct n; [lia|]. rewrite !dirichlet_S, !neumann_S.
    destruct (nth_error s i) as [[]|] eqn:E; try (split; reflexivity).
    - assert (to < i) by (apply PR; auto). destruct (IH n ltac:(lia) to p ltac:(lia)) as [A B]. destruct (IH i L to p ltac:(lia)) as [A' B'].
      rewrite A, A'. split; reflexivity.
    - assert (to < i) by (apply PR; auto). destruct (IH n ltac:(lia) to p ltac:(lia)) as [A B]. destruct (IH i L to p ltac:(lia)) as [A' B'].
      rewrite B, B'. split; reflexivity.
  Qed.
  Lemma ask (s : store) i p : proper s ->
    match nth_error s i with
    | Some (FluxFromDirichlet j) => isDirichlet s i p = isDirichlet s j p /\ isNeumann s i p = let* b := isDirichlet s j p in Ok (negb b)
    | Some (DirichletFromFlux j) => isDirichlet s i p = (let* b := isNeumann s j p in Ok (negb b)) /\ isNeumann s i p = isNeumann s j p
    | _ => True
    end.
  Proof.
    intros PR. destruct (nth_error s i) as [[]|] eqn:E; trivial; assert (L : to < i) by (apply PR; auto);
      destruct (more_fuel s PR i to p L) as [A B]; unfold isDirichlet, isNeumann; rewrite (dirichlet_S i), (neumann_S i), E, ?A, ?B; split; reflexivity.
  Qed.
  Lemma adapter_complement (s : store) i p b c : proper s -> is_adapter s i -> isDirichlet s i p = Ok b -> isNeumann s i p = Ok c -> c = negb b.
  Proof.
    intros PR (j & H) D N. pose proof (ask s i p PR) as A. destruct H as [E|E]; rewrite E in A; destruct A as [A B]; rewrite A in D; rewrite B in N.
    - rewrite D in N. cbn in N. congruence.
    - rewrite N in D. cbn in D. injection D as <-. now rewrite negb_involutive.
  Qed.
  Lemma set_fuel (s : store) : proper s -> forall n i t b, i < n -> rests_on s i b ->
    set_time n t i s = match nth_error s b with Some (User u _) => Ok (upd b (User u t) s) | _ => Ok s end.
  Proof.
    intros PR n i t b L R. revert n L. induction R as [i o E NA|i j b E R IH|i j b E R IH]; intros n L; (destruct n; [lia|]); cbn [set_time]; rewrite E.
    - destruct o; try reflexivity; destruct (NA to); congruence.
    - apply IH. assert (j < i) by (apply PR; auto). lia.
    - apply IH. assert (j < i) by (apply PR; auto). lia.
  Qed.
  Lemma proper_upd (s : store) b u t u' t' : nth_error s b = Some (User u t) -> proper s -> proper (upd b (User u' t') s).
  Proof.
    intros E PR i j H. destruct (Nat.eq_dec b i) as [->|N].
    - rewrite upd_nth_error_same in H by (apply nth_error_Some; congruence). destruct H; discriminate.
    - rewrite upd_nth_error_other in H by exact N. now apply PR.
  Qed.
  Lemma rests_exists (s : store) : proper s -> forall i, i < length s ->
    (forall i j, nth_error s i = Some (FluxFromDirichlet j) \/ nth_error s i = Some (DirichletFromFlux j) -> j < length s) -> exists b, rests_on s i b /\ b < length s.
  Proof.
    intros PR i. induction i as [i IH] using (well_founded_induction Wf_nat.lt_wf). intros L K.
    destruct (nth_error s i) as [o|] eqn:E; [|apply nth_error_None in E; lia].
    assert (C : (exists j, o = FluxFromDirichlet j) \/ (exists j, o = DirichletFromFlux j) \/ (forall j, o <> FluxFromDirichlet j /\ o <> DirichletFromFlux j)).
    { destruct o; eauto; right; right; intros; split; discriminate. }
    destruct C as [[j ->]|[[j ->]|NA]].
    - assert (J : j < i) by (apply PR; auto). destruct (IH j J ltac:(lia) K) as (b & R & B). exists b. split; [eapply rests_flux; eauto|exact B].
    - assert (J : j < i) by (apply PR; auto). destruct (IH j J ltac:(lia) K) as (b & R & B). exists b. split; [eapply rests_dirichlet; eauto|exact B].
    - exists i. split; [eapply rests_here; eauto|exact L].
  Qed.
  Lemma rests_below (s : store) i b : rests_on s i b -> b < length s.
  Proof. induction 1; auto. apply nth_error_Some. congruence. Qed.
  Lemma proper_below (s : store) i j : proper s -> nth_error s i = Some (FluxFromDirichlet j) \/ nth_error s i = Some (DirichletFromFlux j) -> j < length s.
  Proof. intros PR H. assert (i < length s) by (apply nth_error_Some; destruct H; congruence). apply PR in H. lia. Qed.
  Lemma proper_new (s : store) o : proper s -> (forall j, o = FluxFromDirichlet j \/ o = DirichletFromFlux j -> j < length s) -> proper (s ++ [o]).
  Proof.
    intros PR N i j H. destruct (Nat.lt_ge_cases i (length s)) as [L|L].
    - rewrite nth_error_app1 in H by exact L. now apply PR.
    - rewrite nth_error_app2 in H by exact L. destruct (i - length s) as [|k] eqn:E; [|destruct k; destruct H; discriminate].
      cbn in H. assert (j < length s) by (apply N; destruct H as [[=]|[=]]; auto). lia.
  Qed.
  Lemma set_time_value (s : store) t i : proper s -> i < length s ->
    exists b, rests_on s i b /\ setTime t i s = match nth_error s b with Some (User u _) => Ok (upd b (User u t) s) | _ => Ok s end.
  Proof.
    intros PR L. destruct (rests_exists s PR i L) as (b & R & _); [intros; eapply proper_below; eauto|]. exists b. split; [exact R|].
    apply set_fuel; auto.
  Qed.
  Lemma step_proper (s : store) o s' : proper s -> step s o = Ok s' -> proper s'.
  Proof.
    intros PR. destruct o as [[]|i t]; cbn [step]; try (intros [= <-]; apply proper_new; [exact PR|intros j [[=]|[=]]]).
    - destruct (Nat.ltb_spec to (length s)); [|discriminate]. intros [= <-]. apply proper_new; [exact PR|]. intros j [[= <-]|[=]]. assumption.
    - destruct (Nat.ltb_spec to (length s)); [|discriminate]. intros [= <-]. apply proper_new; [exact PR|]. intros j [[=]|[= <-]]. assumption.
    - destruct (Nat.lt_ge_cases i (length s)) as [L|L].
      + destruct (set_time_value s t i PR L) as (b & R & ->). destruct (nth_error s b) as [[]|] eqn:E; intros [= <-]; auto. eapply proper_upd; eauto.
      + unfold setTime. cbn. rewrite (proj2 (nth_error_None s i) L). discriminate.
  Qed.
  Lemma run_proper l : forall s s', proper s -> foldM step l s = Ok s' -> proper s'.
  Proof.
    induction l as [|o l IH]; cbn; intros s s' PR H; [injection H as <-; exact PR|].
    destruct (step s o) as [s1| |] eqn:E; cbn in H; try discriminate. eapply IH; [eapply step_proper; eauto|exact H].
  Qed.
  Lemma nil_proper : proper [].
  Proof. intros [|i] j [H|H]; discriminate. Qed.
  (** The chains of adapters do not change when times are set. *)
  Lemma rests_upd (s : store) b u t t' i c : nth_error s b = Some (User u t) -> rests_on s i c -> rests_on (upd b (User u t') s) i c.
  Proof.
    intros E R. induction R as [i o F NA|i j c F R IH|i j c F R IH].
    - destruct (Nat.eq_dec b i) as [->|N].
      + eapply rests_here; [rewrite upd_nth_error_same by (apply nth_error_Some; congruence); reflexivity|]. intros j. split; discriminate.
      + eapply rests_here; [rewrite upd_nth_error_other by exact N; exact F|exact NA].
    - assert (b <> i) by congruence. eapply rests_flux; [rewrite upd_nth_error_other by assumption; exact F|exact IH].
    - assert (b <> i) by congruence. eapply rests_dirichlet; [rewrite upd_nth_error_other by assumption; exact F|exact IH].
  Qed.
  Lemma rests_unique (s : store) i b : rests_on s i b -> forall c, rests_on s i c -> b = c.
  Proof.
    induction 1 as [i o E NA|i j b E R IH|i j b E R IH]; intros c R'; inversion R'; subst; try reflexivity.
    - destruct (NA j); congruence.
    - destruct (NA j); congruence.
    - match goal with H : forall j, _ |- _ => destruct (H j) end. congruence.
    - apply IH. congruence.
    - congruence.
    - match goal with H : forall j, _ |- _ => destruct (H j) end. congruence.
    - congruence.
    - apply IH. congruence.
  Qed.
  Lemma rests_app (s : store) o i c : rests_on s i c -> rests_on (s ++ [o]) i c.
  Proof.
    induction 1 as [i x E NA|i j b E R IH|i j b E R IH]; [eapply rests_here|eapply rests_flux|eapply rests_dirichlet]; eauto;
      rewrite nth_error_app1; auto; apply nth_error_Some; congruence.
  Qed.
  Lemma rests_step (s : store) o s' i c : proper s -> rests_on s i c -> step s o = Ok s' -> rests_on s' i c.
  Proof.
    intros PR R. destruct o as [x|k t].
    - assert (H : step s (New x) = Ok s' -> s' = s ++ [x]).
      { destruct x; cbn [step]; try (intros [= <-]; reflexivity); destruct (to <? length s); try discriminate; intros [= <-]; reflexivity. }
      intros E. rewrite (H E). now apply rests_app.
    - cbn [step]. intros E. destruct (Nat.lt_ge_cases k (length s)) as [L|L].
      + destruct (set_time_value s t k PR L) as (b & Rb & F). rewrite F in E. destruct (nth_error s b) as [[]|] eqn:N; injection E as <-; auto.
        eapply rests_upd; eauto.
      + unfold setTime in E. cbn in E. rewrite (proj2 (nth_error_None s k) L) in E. discriminate.
  Qed.
  Lemma rests_run l : forall s s' i c, proper s -> rests_on s i c -> foldM step l s = Ok s' -> rests_on s' i c.
  Proof.
    induction l as [|o l IH]; cbn; intros s s' i c PR R H; [injection H as <-; exact R|].
    destruct (step s o) as [s1| |] eqn:E; cbn in H; try discriminate.
    eapply IH; [eapply step_proper; eauto|eapply rests_step; eauto|exact H].
  Qed.
  Lemma time_kept l : forall s s' b u t, proper s -> nth_error s b = Some (User u t) -> foldM step l s = Ok s' ->
    (forall k t', In (SetTime k t') l -> ~ rests_on s' k b) -> nth_error s' b = Some (User u t).
  Proof.
    induction l as [|o l IH]; cbn; intros s s' b u t PR N H K; [injection H as <-; exact N|].
    destruct (step s o) as [s1| |] eqn:E; cbn in H; try discriminate.
    assert (PR1 : proper s1) by (eapply step_proper; eauto).
    assert (B : b < length s) by (apply nth_error_Some; congruence).
    apply (IH s1 s' b u t PR1); [|exact H|intros k t' I; apply (K k t'); auto].
    destruct o as [x|k t'].
    - assert (F : s1 = s ++ [x]).
      { revert E. destruct x; cbn [step]; try (intros [= <-]; reflexivity); destruct (to <? length s); try discriminate; intros [= <-]; reflexivity. }
      subst s1. now rewrite nth_error_app1.
    - assert (L : k < length s).
      { destruct (Nat.lt_ge_cases k (length s)) as [L|L]; [exact L|]. cbn in E. unfold setTime in E. cbn in E. rewrite (proj2 (nth_error_None s k) L) in E. discriminate. }
      cbn [step] in E. destruct (set_time_value s t' k PR L) as (c & Rc & F). rewrite F in E.
      assert (c <> b).
      { intros ->. apply (K k t'); [auto|]. eapply rests_run; [exact PR1| |exact H]. apply (rests_step s (SetTime k t') s1 k b PR Rc). cbn [step]. rewrite F. exact E. }
      destruct (nth_error s c) as [[]|] eqn:Nc; injection E as <-; auto. now rewrite upd_nth_error_other.
  Qed.
End Proofs.
