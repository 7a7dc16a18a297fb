(** The Newton iteration. *)
From Coq Require Import Lra.
From Verif Require Import NewtonModel NewtonSpec CommonFacts NewtonProofs.
Local Open Scope R_scope.

Section Newton.
  Context {V W : Type} (repair : V -> V) (residual : V -> option W) (jacobian_ok : V -> bool) (norm : bool -> W -> ext)
          (r0 : W)
          (linear_solver : list (event (V := V)) -> option (list V) -> W -> ext -> bool * V * Z).
  Notation run := (run (V := V) (W := W)).
  Notation event := (event (V := V)).
  Notation core := (core (V := V) (W := W)).
  Notation iterate := (iterate repair jacobian_ok linear_solver).
  Notation loop := (loop repair jacobian_ok linear_solver).
  Notation apply := (apply repair residual jacobian_ok norm r0 linear_solver).
  Notation consistent := (consistent residual norm).
  Notation value := (value residual norm).

  Definition must_reassemble (p : params) (s : run) : bool := lt (Fin (reassemble_threshold p)) (ratio s).
  Definition held (m : option (option (list V))) : option (list V) := match m with Some m => m | None => None end.
  (** the linear solve made in state [s] *)
  Record event_ok (p : params) (s : run) (e : event) : Prop := {
    ev_defect : e_defect e = defect (vecs s);
    ev_previous : e_previous e = previous s;
    ev_threshold : e_threshold e = reassemble_threshold p;
    ev_iteration : e_iteration e = iterations s;
    ev_reduction : e_reduction e = linear_reduction p s;
    ev_matrix : e_matrix e =
      if matrix_free p then Some [e_at e] else if must_reassemble p s then Some [e_at e] else held (matrix s);
    ev_reuse : e_reuse e = negb (matrix_free p) && negb (must_reassemble p s) }.
  Record step_ok (p : params) (s s' : run) (e : event) : Prop := {
    st_event : event_ok p s e;
    st_log : log s' = e :: log s;
    st_its : linear_its s' = (linear_its s + e_its e)%Z;
    st_matrix : matrix s' = if negb (matrix_free p) && must_reassemble p s then Some (e_matrix e) else matrix s;
    st_previous : previous s' = defect (vecs s);
    st_first : first s' = first s;
    st_converged : converged s' = converged s }.

  Lemma iterate_spec p ls s :
    match iterate p ls s with
    | Normal s' => exists e, step_ok p s s' e /\ iterations s' = S (iterations s) /\
                     (exists c0 corr, ls p c0 corr = Normal (vecs s')) /\
                     result_reduction s' = div (defect (vecs s')) (first s')
    | Raised f s' => converged s' = converged s /\ first s' = first s /\
        ((log s' = log s /\ linear_its s' = linear_its s /\ matrix s' = Some None) \/
         exists e, step_ok p s s' e)
    end.
  Proof.
    unfold NewtonModel.iterate. unfold reassemble. fold (must_reassemble p s).
    destruct (must_reassemble p s) eqn:M.
    - set (x := if hanging_nodes p then repair (sol (vecs s)) else sol (vecs s)).
      destruct (matrix_free p) eqn:F.
      + unfold linear_solve. rewrite F. cbn [vecs set_vecs with_sol sol res defect].
        destruct (linear_solver _ _ _ _) as ((ok & corr) & its). destruct ok.
        * destruct (ls p _ corr) eqn:L; cbn; rewrite ?F, ?M; cbn.
          -- eexists. split; [|split; [reflexivity|split; [eauto|reflexivity]]].
             split; try reflexivity; [split; cbn -[must_reassemble linear_reduction]; rewrite ?F, ?M; reflexivity|].
             cbn -[must_reassemble]. rewrite F. reflexivity.
          -- do 2 (split; [reflexivity|]). right. eexists.
             split; try reflexivity; [split; cbn -[must_reassemble linear_reduction]; rewrite ?F, ?M; reflexivity|].
             cbn -[must_reassemble]. rewrite F. reflexivity.
        * do 2 (split; [reflexivity|]). right. eexists.
          split; try reflexivity; [split; cbn -[must_reassemble linear_reduction]; rewrite ?F, ?M; reflexivity|].
          cbn -[must_reassemble]. rewrite F. reflexivity.
      + destruct (jacobian_ok x) eqn:J.
        2:{ split; [reflexivity|]. split; [reflexivity|]. left. auto. }
        unfold linear_solve. rewrite F. cbn [vecs set_vecs set_matrix with_sol sol res defect matrix option_map].
        destruct (linear_solver _ _ _ _) as ((ok & corr) & its). destruct ok.
        * destruct (ls p _ corr) eqn:L.
          -- eexists. split; [|split; [reflexivity|split; [eauto|reflexivity]]].
             split; try reflexivity; [split; cbn -[must_reassemble linear_reduction]; rewrite ?F, ?M; reflexivity|].
             cbn -[must_reassemble]. rewrite F, M. reflexivity.
          -- do 2 (split; [reflexivity|]). right. eexists.
             split; try reflexivity; [split; cbn -[must_reassemble linear_reduction]; rewrite ?F, ?M; reflexivity|].
             cbn -[must_reassemble]. rewrite F, M. reflexivity.
        * do 2 (split; [reflexivity|]). right. eexists.
          split; try reflexivity; [split; cbn -[must_reassemble linear_reduction]; rewrite ?F, ?M; reflexivity|].
          cbn -[must_reassemble]. rewrite F, M. reflexivity.
    - unfold linear_solve. cbn [vecs set_vecs set_matrix with_sol sol res defect matrix].
      destruct (linear_solver _ _ _ _) as ((ok & corr) & its). destruct ok.
      + destruct (ls p _ corr) eqn:L.
        * eexists. split; [|split; [reflexivity|split; [eauto|reflexivity]]].
          split; try reflexivity; [split; cbn -[must_reassemble linear_reduction]; rewrite ?M; try reflexivity|].
          cbn -[must_reassemble]. rewrite M, Bool.andb_false_r. reflexivity.
        * do 2 (split; [reflexivity|]). right. eexists.
          split; try reflexivity; [split; cbn -[must_reassemble linear_reduction]; rewrite ?M; try reflexivity|].
          cbn -[must_reassemble]. rewrite M, Bool.andb_false_r. reflexivity.
      + do 2 (split; [reflexivity|]). right. eexists.
        split; try reflexivity; [split; cbn -[must_reassemble linear_reduction]; rewrite ?M; try reflexivity|].
        cbn -[must_reassemble]. rewrite M, Bool.andb_false_r. reflexivity.
  Qed.

  Lemma terminate_spec p (s : run) :
    match terminate p s with
    | (Some true, s') => s' = set_converged true s /\ criterion p (first s) (defect (vecs s)) /\
                         ~ (force_iteration p = true /\ iterations s = 0%nat)
    | (Some false, s') => (s' = s \/ s' = set_converged false s) /\
        ((iterations s < max_iterations p)%nat \/ (force_iteration p = true /\ iterations s = 0%nat))
    | (None, s') => s' = set_converged false s /\ (max_iterations p <= iterations s)%nat /\
                    ~ criterion p (first s) (defect (vecs s))
    end.
  Proof.
    unfold terminate, criterion.
    destruct (force_iteration p) eqn:F; destruct (Nat.eqb_spec (iterations s) 0) as [Z|Z]; cbn [andb];
      [rewrite Z; auto| | | ];
      destruct (lt (defect (vecs s)) (Fin (absolute_limit p))) eqn:A;
      destruct (lt (defect (vecs s)) (mul (first s) (Fin (reduction p)))) eqn:B;
      destruct (Nat.leb_spec (max_iterations p) (iterations s)); cbn [orb negb andb];
      (split; [reflexivity || auto|]); try (split; [reflexivity || auto|]); try (left; lia); try (intros (?, ?); congruence); auto;
      intros [?|?]; discriminate.
  Qed.

  (** Invariant rule. *)
  Lemma loop_inv p ls (I Q : run -> Prop) :
    (forall s, I s -> I (set_converged false s) /\ Q (set_converged false s)) ->
    (forall s s', I s -> iterate p ls s = Normal s' -> I s') ->
    (forall s f s', I s -> iterate p ls s = Raised f s' -> Q s') ->
    forall fuel s, I s ->
    match loop p ls fuel s with
    | Some (Normal s') => exists s1, I s1 /\ s' = set_converged true s1 /\ criterion p (first s1) (defect (vecs s1)) /\
                                     ~ (force_iteration p = true /\ iterations s1 = 0%nat)
    | Some (Raised f s') => Q s'
    | None => True
    end.
  Proof.
    intros HT HN HR. induction fuel as [|fuel IH]; intros s HI; cbn [NewtonModel.loop]; pose proof (terminate_spec p s) as T;
      destruct (terminate p s) as [[[|]|] s1]; auto.
    - exists s. tauto.
    - destruct T as (-> & _). apply HT, HI.
    - exists s. tauto.
    - assert (I1 : I s1) by (destruct T as ([->| ->] & _); [exact HI|apply HT, HI]).
      destruct (iterate p ls s1) as [s2|f s2] eqn:E; [apply IH; eauto|eauto].
    - destruct T as (-> & _). apply HT, HI.
  Qed.

  (** Number of iterations and termination. *)
  Lemma loop_terminates p ls fuel : forall s, (iterations s + fuel = S (max_iterations p))%nat -> loop p ls fuel s <> None.
  Proof.
    induction fuel as [|fuel IH]; intros s H; cbn [NewtonModel.loop]; pose proof (terminate_spec p s) as T;
      destruct (terminate p s) as [[[|]|] s1]; try discriminate.
    - exfalso. lia.
    - pose proof (iterate_spec p ls s1) as S1. destruct (iterate p ls s1) as [s2|f s2]; [|discriminate].
      apply IH. destruct S1 as (e & _ & E & _). destruct T as ([->| ->] & _); cbn in E; lia.
  Qed.
  Theorem apply_terminates p ls m tr x : apply p ls m tr x <> None.
  Proof.
    unfold NewtonModel.apply. destruct (update_defect _ _ _ _ _) as [c|f c]; [|discriminate].
    pose proof (loop_terminates p ls (S (max_iterations p)) (begin_loop p m tr c) eq_refl).
    destruct (NewtonModel.loop _ _ _ _ _ _ _) as [[s|f s]|]; congruence.
  Qed.
  Lemma loop_iterations p ls fuel : forall s s', 
    (iterations s <= Nat.max (max_iterations p) (if force_iteration p then 1 else 0))%nat ->
    loop p ls fuel s = Some (Normal s') ->
    (iterations s' <= Nat.max (max_iterations p) (if force_iteration p then 1 else 0))%nat.
  Proof.
    induction fuel as [|fuel IH]; intros s s' H; cbn [NewtonModel.loop]; pose proof (terminate_spec p s) as T;
      destruct (terminate p s) as [[[|]|] s1]; try discriminate.
    - injection 1 as <-. destruct T as (-> & _). exact H.
    - injection 1 as <-. destruct T as (-> & _). exact H.
    - pose proof (iterate_spec p ls s1) as S1. destruct (iterate p ls s1) as [s2|f s2]; [|discriminate].
      apply IH. destruct S1 as (e & _ & E & _). rewrite E.
      assert (iterations s1 = iterations s) as -> by (destruct T as ([->| ->] & _); reflexivity).
      destruct T as (_ & [L|(F & L)]); [lia|rewrite F; lia].
  Qed.

  (** Everything about apply follows from an invariant of the loop. *)
  Lemma apply_inv p ls m tr x (I Q : run -> Prop) :
    (forall s, I s -> I (set_converged false s) /\ Q (set_converged false s)) ->
    (forall s s', I s -> iterate p ls s = Normal s' -> I s') ->
    (forall s f s', I s -> iterate p ls s = Raised f s' -> Q s') ->
    (forall c, update_defect repair residual norm p (mkcore x r0 (Fin 0) []) = Normal c -> I (begin_loop p m tr c)) ->
    match apply p ls m tr x with
    | Some (Normal s') => exists s1, I s1 /\ s' = end_loop p (set_converged true s1) /\
                                     criterion p (first s1) (defect (vecs s1))
    | Some (Raised f s') => Q s' \/
        exists c, update_defect repair residual norm p (mkcore x r0 (Fin 0) []) = Raised f c /\
                  s' = mkrun c m true (Fin 0) (Fin 0) false 0 (Fin 0) 0 tr
    | None => True
    end.
  Proof.
    intros HT HN HR H0. unfold NewtonModel.apply. destruct (update_defect _ _ _ _ _) as [c|f c] eqn:U; [|eauto].
    specialize (H0 c eq_refl).
    pose proof (loop_inv p ls I Q HT HN HR (S (max_iterations p)) _ H0) as L.
    destruct (NewtonModel.loop _ _ _ _ _ _ _) as [[s|f s]|]; [|left; exact L|exact Logic.I].
    destruct L as (s1 & ? & -> & ? & _). eauto.
  Qed.

  Lemma end_vecs p (s : run) : vecs (end_loop p s) = vecs s.
  Proof. unfold end_loop. destruct (_ || _); reflexivity. Qed.
  Lemma end_converged p (s : run) : converged (end_loop p s) = converged s.
  Proof. unfold end_loop. destruct (_ || _); reflexivity. Qed.
  Lemma end_first p (s : run) : first (end_loop p s) = first s.
  Proof. unfold end_loop. destruct (_ || _); reflexivity. Qed.
  Lemma end_iterations p (s : run) : iterations (end_loop p s) = iterations s.
  Proof. unfold end_loop. destruct (_ || _); reflexivity. Qed.
  Lemma end_log p (s : run) : log (end_loop p s) = log s.
  Proof. unfold end_loop. destruct (_ || _); reflexivity. Qed.
  Lemma end_its p (s : run) : linear_its (end_loop p s) = linear_its s.
  Proof. unfold end_loop. destruct (_ || _); reflexivity. Qed.

  (** C20 *)
  Definition first_is (p : params) (x : V) (d : ext) : Prop := value p (point repair p x) = Some d.

  Theorem apply_normal p ls m tr x s : apply p ls m tr x = Some (Normal s) ->
    converged s = true /\ criterion p (first s) (defect (vecs s)) /\ first_is p x (first s) /\
    (iterations s <= Nat.max (max_iterations p) (if force_iteration p then 1 else 0))%nat.
  Proof.
    intros A.
    pose proof (apply_inv p ls m tr x (fun s => first_is p x (first s)) (fun _ => True)) as H.
    rewrite A in H. destruct H as (s1 & H1 & -> & C).
    - auto.
    - intros s1 s2 H1 E. pose proof (iterate_spec p ls s1) as S1. rewrite E in S1. destruct S1 as (e & S1 & _).
      cbv beta. rewrite (st_first _ _ _ _ S1). exact H1.
    - auto.
    - intros c U. apply update_normal in U. destruct U as (Us & Uc & _). cbn [first begin_loop]. unfold first_is.
      cbn [sol] in Us. rewrite <- Us. apply Uc.
    - rewrite end_vecs, end_converged, end_first. cbn [set_converged converged first vecs]. do 3 (split; [auto|]).
      unfold NewtonModel.apply in A. destruct (update_defect _ _ _ _ _) as [c|f c]; [|discriminate].
      destruct (NewtonModel.loop _ _ _ _ _ _ _) as [[s|f s]|] eqn:L; try discriminate.
      injection A as E. apply loop_iterations in L; [|cbn; lia]. rewrite <- E, end_iterations. exact L.
  Qed.

  Theorem apply_failed p ls m tr x f s : apply p ls m tr x = Some (Raised f s) -> converged s = false.
  Proof.
    intros A.
    pose proof (apply_inv p ls m tr x (fun s => converged s = false) (fun s => converged s = false)) as H.
    rewrite A in H. destruct H as [H|(c & _ & ->)]; auto.
    - intros s1 s2 H1 E. pose proof (iterate_spec p ls s1) as S1. rewrite E in S1. destruct S1 as (e & S1 & _).
      rewrite (st_converged _ _ _ _ S1). exact H1.
    - intros s1 g s2 H1 E. pose proof (iterate_spec p ls s1) as S1. rewrite E in S1. destruct S1 as (-> & _). exact H1.
  Qed.

  Theorem apply_consistent p ls m tr x s : honest residual norm p ls ->
    apply p ls m tr x = Some (Normal s) -> consistent p (vecs s).
  Proof.
    intros Hon A.
    pose proof (apply_inv p ls m tr x (fun s => consistent p (vecs s)) (fun _ => True)) as H.
    rewrite A in H. destruct H as (s1 & H1 & -> & _).
    - auto.
    - intros s1 s2 H1 E. pose proof (iterate_spec p ls s1) as S1. rewrite E in S1.
      destruct S1 as (e & S1 & _ & (c0 & corr & Hl) & _). eapply Hon, Hl.
    - auto.
    - intros c U. apply update_normal in U. apply U.
    - rewrite end_vecs. exact H1.
  Qed.

  Theorem apply_work p ls m tr x o : apply p ls m tr x = Some o ->
    exists new, log (final o) = new ++ tr /\ linear_its (final o) = total_its new.
  Proof.
    intros A. set (P := fun s : run => exists new, log s = new ++ tr /\ linear_its s = total_its new).
    pose proof (apply_inv p ls m tr x P P) as H. rewrite A in H. change (P (final o)).
    assert (HN : forall s1 s2 e, P s1 -> step_ok p s1 s2 e -> P s2).
    { intros s1 s2 e (new & L & T) S1. exists (e :: new). rewrite (st_log _ _ _ _ S1), (st_its _ _ _ _ S1), L, T.
      split; [reflexivity|]. change (total_its (e :: new)) with (e_its e + total_its new)%Z. lia. }
    assert (X : match o with
                | Normal s' => exists s1 : run, P s1 /\ s' = end_loop p (set_converged true s1) /\
                               criterion p (first s1) (defect (vecs s1))
                | Raised f s' => P s' \/ exists c, update_defect repair residual norm p (mkcore x r0 (Fin 0) []) = Raised f c /\
                  s' = mkrun c m true (Fin 0) (Fin 0) false 0 (Fin 0) 0 tr end).
    { apply H.
      - intros s Hs. split; exact Hs.
      - intros s1 s2 H1 E. pose proof (iterate_spec p ls s1) as S1. rewrite E in S1. destruct S1 as (e & S1 & _). eauto.
      - intros s1 f s2 H1 E. pose proof (iterate_spec p ls s1) as S1. rewrite E in S1.
        destruct S1 as (_ & _ & [(L & T & _)|(e & S1)]); [|eauto].
        destruct H1 as (new & L1 & T1). exists new. rewrite L, T. auto.
      - intros c U. exists []. auto. }
    destruct o as [s'|f s']; cbn [final].
    - destruct X as (s1 & (new & L & T) & -> & _). exists new. rewrite end_log, end_its. auto.
    - destruct X as [X|(c & _ & ->)]; [exact X|]. exists []. auto.
  Qed.
End Newton.
