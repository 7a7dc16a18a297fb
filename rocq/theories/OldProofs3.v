(** What follows for apply of the deprecated Newton solver. *)
From Coq Require Import Lra.
From Verif Require Import NewtonModel NewtonSpec CommonFacts NewtonProofs NewtonProofs2 NewtonProofs3 OldModel OldSpec
  OldProofs OldProofs2.
Local Open Scope R_scope.

Section Old.
  Context {V W : Type} (repair : V -> V) (residual : V -> option W) (jacobian_ok : V -> bool) (norm : bool -> W -> ext)
          (axpy : R -> V -> V -> V)
          (linear_solver : list (event (V := V)) -> option (list V) -> W -> ext -> bool * V * Z).
  Notation run := (run (V := V) (W := W)).
  Notation event := (event (V := V)).
  Notation oiterate := (oiterate repair residual jacobian_ok norm axpy linear_solver).
  Notation oloop := (oloop repair residual jacobian_ok norm axpy linear_solver).
  Notation oapply := (oapply repair residual jacobian_ok norm axpy linear_solver).
  Notation opoint := (opoint repair).
  Notation value p := (value residual norm (opt p)).
  Notation consistent p := (consistent residual norm (opt p)).
  Notation must p s := (must_reassemble (opt p) s).
  Notation ospec := (oiterate_spec repair residual jacobian_ok norm axpy linear_solver).
  Notation oinv := (oapply_inv repair residual jacobian_ok norm axpy linear_solver).

  Notation oinductive := (inductive repair residual jacobian_ok norm axpy linear_solver).

  (** C178, part 1 *)
  Theorem oapply_sound p fuel s x o : matrix_free (opt p) = false -> oapply p fuel s x = Some o ->
    match o with
    | ONorm s' => converged s' = true /\ criterion (opt p) (first s') (defect (vecs s')) /\
        value p (opoint p x) = Some (first s') /\ finite (first s') /\ consistent p (vecs s') /\
        (iterations s' <= Nat.max (max_iterations (opt p)) (if force_iteration (opt p) then 1 else 0))%nat
    | ORaise f s' => converged s' = false /\
        (f = ONotConverged -> ~ criterion (opt p) (first s') (defect (vecs s')) /\
           (max_iterations (opt p) <= iterations s')%nat) /\
        (f = ONotConverged \/ f = OSearch -> consistent p (vecs s') /\ value p (opoint p x) = Some (first s')) /\
        (f = ODefect -> consistent p (vecs s') /\ ~ finite (defect (vecs s')))
    | OUndef => hang_defect p = None \/ hang_prepare p = None
    end.
  Proof.
    intros F A.
    set (I := fun s1 : run => consistent p (vecs s1) /\ value p (opoint p x) = Some (first s1) /\ finite (first s1) /\
      converged s1 = false /\
      (iterations s1 <= Nat.max (max_iterations (opt p)) (if force_iteration (opt p) then 1 else 0))%nat).
    set (Q := fun (f : ofailure) (s1 : run) => converged s1 = false /\
        (f = ONotConverged -> ~ criterion (opt p) (first s1) (defect (vecs s1)) /\
           (max_iterations (opt p) <= iterations s1)%nat) /\
        (f = ONotConverged \/ f = OSearch -> consistent p (vecs s1) /\ value p (opoint p x) = Some (first s1)) /\
        (f = ODefect -> consistent p (vecs s1) /\ ~ finite (defect (vecs s1)))).
    assert (IND : oinductive p I Q (hang_defect p = None \/ hang_prepare p = None)).
    { split.
      - intros s1 (I1 & I2 & I3 & I4 & I5). unfold I. cbn [set_converged vecs first converged result_reduction iterations]. auto 8.
      - intros s1 (I1 & I2 & I3 & I4 & I5) X1 X2. unfold Q. cbn [set_converged vecs first converged iterations].
        split; [reflexivity|]. split; [auto|]. split; [auto|discriminate].
      - intros s1 s2 (I1 & I2 & I3 & I4 & I5) B E. pose proof (ospec p s1 F) as S1. rewrite E in S1.
        destruct S1 as (e & S1 & Ee & [(A1 & A2 & A3 & _)|(M & A1 & A2 & B1 & B2 & B3 & B4 & _)]); unfold I;
          rewrite (st_first _ _ _ _ S1), (st_converged _ _ _ _ S1), A1; do 4 (split; [assumption|]); [|assumption].
        destruct B as [B|(-> & B)]; lia.
      - intros s1 f s2 (I1 & I2 & I3 & I4 & I5) E. pose proof (ospec p s1 F) as S1. rewrite E in S1.
        destruct S1 as (S1 & S2 & S3). unfold Q. rewrite S1, S2. split; [assumption|].
        destruct S3 as [(-> & _)|(e & S3 & Nf & Sf & Sd)].
        + split; [discriminate|]. split; [intros [?|?]; discriminate|discriminate].
        + split; [intros ->; contradiction|]. split; [intros [->| ->]; [contradiction|]|exact Sd].
          destruct (Sf eq_refl) as (_ & _ & _ & ? & _). auto.
      - intros s1 _ E. pose proof (ospec p s1 F) as S1. rewrite E in S1. exact S1. }
    pose proof (oinv p fuel s x I Q _ IND) as H. rewrite A in H.
    destruct o as [s'|f s'|].
    - destruct H as (s1 & (I1 & I2 & I3 & I4 & I5) & -> & C); [|auto|].
      + intros c Cs Cc Cf. unfold I, started. cbn [vecs first converged iterations]. rewrite <- Cs. split; [exact Cc|].
        split; [apply Cc|]. split; [exact Cf|]. split; [reflexivity|lia].
      + rewrite fin_vecs, fin_converged, fin_first, fin_iterations. cbn [set_converged vecs first converged iterations]. auto 8.
    - destruct H as [H|(_ & _ & H1 & H2 & _ & H3)]; [|auto|exact H|].
      + intros c Cs Cc Cf. unfold I, started. cbn [vecs first converged iterations]. rewrite <- Cs. split; [exact Cc|].
        split; [apply Cc|]. split; [exact Cf|]. split; [reflexivity|lia].
      + split; [exact H1|]. destruct H3 as [(-> & _)|(-> & H3)].
        * split; [discriminate|]. split; [intros [?|?]; discriminate|discriminate].
        * split; [discriminate|]. split; [intros [?|?]; discriminate|auto].
    - apply H; [|auto]. intros c Cs Cc Cf. unfold I, started. cbn [vecs first converged iterations]. rewrite <- Cs.
      split; [exact Cc|]. split; [apply Cc|]. split; [exact Cf|]. split; [reflexivity|lia].
  Qed.

  (** a retry starts from the same state *)
  Lemma retry_same p (s s' : run) e : (forall x, repair (repair x) = repair x) -> consistent p (vecs s) ->
    (exists y, sol (vecs s) = opoint p y) -> e_at e = sol (vecs s) -> stuck repair residual norm axpy p s' e ->
    sol (vecs s') = sol (vecs s) /\ defect (vecs s') = defect (vecs s).
  Proof.
    intros Hr (_ & Cv) (y & Hy) Ea (_ & Ss & (_ & Sv) & _).
    assert (E : sol (vecs s') = sol (vecs s)).
    { rewrite Ss, Ea, Hy. unfold OldSpec.opoint. destruct (hang_defect p) as [[|]|]; auto. }
    split; [exact E|]. rewrite E in Sv. congruence.
  Qed.

  (** the reported reduction *)
  Theorem oapply_reduction p fuel s x s' : matrix_free (opt p) = false -> (forall x, repair (repair x) = repair x) ->
    oapply p fuel s x = Some (ONorm s') ->
    result_reduction s' = if (iterations s' =? 0)%nat then Fin 1 else div (defect (vecs s')) (first s').
  Proof.
    intros F Hr A.
    set (I := fun s1 : run => consistent p (vecs s1) /\ (exists y, sol (vecs s1) = opoint p y) /\
      result_reduction s1 = (if (iterations s1 =? 0)%nat then Fin 1 else div (defect (vecs s1)) (first s1))).
    assert (IND : oinductive p I (fun _ _ => True) True).
    { split; auto.
      intros s1 s2 (I1 & I2 & I3) _ E. pose proof (ospec p s1 F) as S1. rewrite E in S1.
      destruct S1 as (e & S1 & Ee & [(A1 & A2 & A3 & A4 & _)|(M & A1 & A2 & B)]); unfold I.
      - split; [assumption|]. split; [assumption|]. rewrite A1. exact A2.
      - destruct (retry_same p s1 s2 e Hr I1 I2 (Ee M) B) as (E1 & E2).
        split; [apply B|]. split; [rewrite E1; exact I2|]. rewrite A1, A2, E2, (st_first _ _ _ _ S1). exact I3. }
    pose proof (oinv p fuel s x I _ _ IND) as H. rewrite A in H.
    destruct H as (s1 & (_ & _ & I3) & -> & C); [|auto|].
    - intros c Cs Cc Cf. unfold I, started. cbn [vecs result_reduction iterations Nat.eqb]. eauto.
    - rewrite fin_vecs, fin_first, fin_iterations, fin_reduction. exact I3.
  Qed.

  (** linear iterations *)
  Theorem oapply_work p fuel s x o : matrix_free (opt p) = false -> oapply p fuel s x = Some o ->
    match o with
    | ONorm s' | ORaise _ s' => exists new, log s' = new ++ log s /\ linear_its s' = total_its new
    | OUndef => True
    end.
  Proof.
    intros F A.
    set (P := fun s1 : run => exists new, log s1 = new ++ log s /\ linear_its s1 = total_its new).
    assert (ST : forall s1 s2 e, P s1 -> step_ok (opt p) s1 s2 e -> P s2).
    { intros s1 s2 e (new & L & T) S1. exists (e :: new). rewrite (st_log _ _ _ _ S1), (st_its _ _ _ _ S1), L, T.
      split; [reflexivity|]. change (total_its (e :: new)) with (e_its e + total_its new)%Z. lia. }
    assert (IND : oinductive p P (fun _ => P) True).
    { split; auto.
      - intros s1 s2 H1 _ E. pose proof (ospec p s1 F) as S1. rewrite E in S1. destruct S1 as (e & S1 & _). eauto.
      - intros s1 f s2 H1 E. pose proof (ospec p s1 F) as S1. rewrite E in S1.
        destruct S1 as (_ & _ & [(_ & L & T & _)|(e & S1 & _)]); [|eauto].
        destruct H1 as (new & L1 & T1). exists new. rewrite L, T. auto. }
    pose proof (oinv p fuel s x P _ _ IND) as H. rewrite A in H.
    assert (P0 : forall c, P (started s c)) by (intros c; exists []; auto).
    destruct o as [s'|f s'|]; [| |auto].
    - destruct H as (s1 & (new & L & T) & -> & _); auto. exists new. rewrite fin_log, fin_its. auto.
    - destruct H as [H|(L & T & _)]; auto. exists []. auto.
  Qed.

  (** matrices *)
  Lemma well_cons e (l : list event) : well_assembled l ->
    ((e_reuse e = false /\ fresh e) \/ (e_reuse e = true /\ exists e' l', l = e' :: l' /\ e_matrix e = e_matrix e')) ->
    well_assembled (e :: l).
  Proof.
    intros H He [|e1 later] e2 before E; cbn in E.
    - injection E as <- <-. exact He.
    - injection E as <- E. eapply H, E.
  Qed.
  (** an event of a pass started in [s] *)
  Lemma event_fresh p (s : run) e : matrix_free (opt p) = false -> event_ok (opt p) s e ->
    (too_slow e -> fresh e) /\ (must p s = true -> e_reuse e = false /\ fresh e) /\
    (must p s = false -> e_reuse e = true /\ e_matrix e = held (matrix s)).
  Proof.
    intros F [E1 E2 E3 E4 E5 E6 E7]. rewrite F in E6, E7. cbn [negb andb] in E7. unfold fresh.
    assert (A : must p s = true -> e_reuse e = false /\ e_matrix e = Some [e_at e]).
    { intros M. rewrite M in E6, E7. auto. }
    split; [|split].
    - intros (d & q & D1 & D2 & D3 & D4). apply A. unfold must_reassemble, ratio. rewrite <- E1, <- E2, D1, D2.
      rewrite E3 in D4. apply ratio_slow; assumption.
    - exact A.
    - intros M. rewrite M in E6, E7. auto.
  Qed.
  Theorem oapply_matrices p fuel s x o d : matrix_free (opt p) = false -> reassemble_threshold (opt p) < 1 ->
    value p (opoint p x) = Some (Fin d) -> d <> 0 -> oapply p fuel s x = Some o ->
    match o with
    | ONorm s' => exists new, log s' = new ++ log s /\ well_assembled new /\ forall e, In e new -> too_slow e -> fresh e
    | ORaise f s' => exists new, log s' = new ++ log s /\ well_assembled new /\
        (forall e, In e new -> too_slow e -> fresh e) /\
        (f = OSearch -> exists e rest, new = e :: rest /\ e_reuse e = false /\ fresh e /\
           sol (vecs s') = opoint p (e_at e) /\
           (damp p <> 0 -> exists corr, no_good_step repair residual norm axpy p (e_at e) corr (e_defect e)))
    | OUndef => True
    end.
  Proof.
    intros F Ht Hv Hd A.
    set (P := fun (new : list event) (s1 : run) => log s1 = new ++ log s /\ well_assembled new /\
      (forall e, In e new -> too_slow e -> fresh e)).
    set (I := fun s1 : run => exists new, P new s1 /\
      match new with
      | [] => defect (vecs s1) = Fin d /\ previous s1 = Fin d
      | e :: _ => matrix s1 = Some (e_matrix e)
      end).
    set (Q := fun (f : ofailure) (s1 : run) => exists new, P new s1 /\
        (f = OSearch -> exists e rest, new = e :: rest /\ e_reuse e = false /\ fresh e /\
           sol (vecs s1) = opoint p (e_at e) /\
           (damp p <> 0 -> exists corr, no_good_step repair residual norm axpy p (e_at e) corr (e_defect e)))).
    assert (ST : forall s1 s2 e new, P new s1 ->
        match new with [] => defect (vecs s1) = Fin d /\ previous s1 = Fin d | e :: _ => matrix s1 = Some (e_matrix e) end ->
        step_ok (opt p) s1 s2 e -> P (e :: new) s2 /\ matrix s2 = Some (e_matrix e)).
    { intros s1 s2 e new (P1 & P2 & P3) PM S1. destruct (event_fresh p s1 e F (st_event _ _ _ _ S1)) as (E1 & E2 & E3).
      pose proof (st_matrix _ _ _ _ S1) as SM. rewrite F in SM. cbn [negb andb] in SM.
      split.
      - split; [rewrite (st_log _ _ _ _ S1), P1; reflexivity|]. split.
        + apply well_cons; [exact P2|]. destruct (must p s1) eqn:M; [left; auto|]. right.
          destruct (E3 eq_refl) as (E4 & E5). split; [exact E4|].
          destruct new as [|e' l]; [|exists e', l; split; [reflexivity|rewrite E5, PM; reflexivity]].
          exfalso. destruct PM as (PM1 & PM2). unfold must_reassemble, ratio in M. rewrite PM1, PM2 in M.
          rewrite ratio_one in M by assumption. discriminate.
        + intros e1 [<-|H1]; auto.
      - rewrite SM. destruct (must p s1) eqn:M; [reflexivity|].
        destruct new as [|e' l]; [|rewrite PM; destruct (E3 eq_refl) as (_ & ->); rewrite PM; reflexivity].
        exfalso. destruct PM as (PM1 & PM2). unfold must_reassemble, ratio in M. rewrite PM1, PM2 in M.
        rewrite ratio_one in M by assumption. discriminate. }
    assert (IND : oinductive p I Q True).
    { split; auto.
      - intros s1 (new & P1 & _) _ _. exists new. split; [exact P1|discriminate].
      - intros s1 s2 (new & P1 & PM) _ E. pose proof (ospec p s1 F) as S1. rewrite E in S1. destruct S1 as (e & S1 & _).
        exists (e :: new). eapply ST; eassumption.
      - intros s1 f s2 (new & P1 & PM) E. pose proof (ospec p s1 F) as S1. rewrite E in S1.
        destruct S1 as (_ & _ & [(-> & L & _)|(e & S1 & _ & Sf & _)]).
        + exists new. split; [|discriminate]. destruct P1 as (P1 & P2). split; [congruence|exact P2].
        + exists (e :: new). split; [eapply ST; eassumption|]. intros Ef. destruct (Sf Ef) as (M & _ & Ss & _ & _ & Sn).
          exists e, new. destruct (event_fresh p s1 e F (st_event _ _ _ _ S1)) as (_ & E2 & _).
          destruct (E2 M). auto 8. }
    pose proof (oinv p fuel s x I _ _ IND) as H. rewrite A in H.
    assert (P0 : forall c, sol c = opoint p x -> consistent p c -> finite (defect c) -> I (started s c)).
    { intros c Cs (_ & Cv) _. rewrite Cs, Hv in Cv. injection Cv as Cv. exists []. split; [|auto].
      split; [reflexivity|]. split; [|intros e []]. intros [|? ?] ? ? E; discriminate E. }
    destruct o as [s'|f s'|]; [| |auto].
    - destruct H as (s1 & (new & P1 & _) & -> & _); auto. exists new. rewrite fin_log. exact P1.
    - destruct H as [(new & (P1 & P2 & P3) & Pf)|(L & _ & _ & _ & _ & Hf)]; auto; [exists new; auto|].
      exists []. split; [exact L|]. split; [intros [|? ?] ? ? E; discriminate E|]. split; [intros e []|].
      intros ->. destruct Hf as [(E & _)|(E & _)]; discriminate E.
  Qed.

  (** termination *)
  Lemma good_finite p x corr d0 y d : (forall b r, norm b r <> MInf) -> finite d0 -> value p y = Some d ->
    good_step repair residual norm axpy p x corr d0 y d -> finite d.
  Proof.
    intros Hn (r0 & ->) Hv (k & _ & _ & G).
    assert (Nm : d <> MInf).
    { intros ->. unfold NewtonSpec.value in Hv. destruct (residual y) as [w|]; [|discriminate]. cbn in Hv.
      injection Hv as Hv. apply (Hn _ _ Hv). }
    destruct G as [G|(_ & G & _)]; unfold decreases in G; destruct d as [r| | |]; cbn in G; try discriminate G;
      try (exists r; reflexivity); contradiction.
  Qed.
  Definition calm (p : oparams) (s : run) : Prop :=
    consistent p (vecs s) /\ (exists y, sol (vecs s) = opoint p y) /\ finite (defect (vecs s)).
  Lemma oloop_terminates p : matrix_free (opt p) = false -> (forall x, repair (repair x) = repair x) ->
    (forall b r, norm b r <> MInf) -> 0 < absolute_limit (opt p) -> reassemble_threshold (opt p) < 1 ->
    forall fuel s, calm p s -> (2 * S (max_iterations (opt p)) <= 2 * iterations s + fuel + (if must p s then 1 else 0))%nat ->
    oloop p fuel s <> None.
  Proof.
    intros F Hr Hn Ha Ht. induction fuel as [|fuel IH]; intros s HC HF; cbn [OldModel.oloop]; rewrite oterminate_eq;
      pose proof (terminate_spec norm (res (vecs s)) (opt p) s) as T; destruct (terminate (opt p) s) as [[[|]|] s1]; try discriminate.
    - exfalso. destruct (must p s); lia.
    - assert (C1 : calm p s1) by (destruct T as ([->| ->] & _); exact HC).
      assert (F1 : (2 * S (max_iterations (opt p)) <= 2 * iterations s1 + S fuel + (if must p s1 then 1 else 0))%nat).
      { destruct T as ([->| ->] & _); exact HF. }
      clear HC HF T s. pose proof (ospec p s1 F) as S1.
      destruct (oiterate p s1) as [s2|f s2|]; [|discriminate|discriminate].
      destruct C1 as (C1 & C2 & C3).
      destruct S1 as (e & S1 & Ee & [(A1 & A2 & A3 & A4 & corr & A5)|(M & A1 & A2 & B)]).
      + apply IH; [|destruct (must p s1), (must p s2); lia]. split; [exact A3|]. split; [exact A4|].
        pose proof (ev_defect _ _ _ (st_event _ _ _ _ S1)) as Ed. destruct A5 as [(_ & _ & A5)|(_ & A5)]; [exact A5|].
        eapply good_finite; [exact Hn| |apply A3|exact A5]. rewrite Ed. exact C3.
      + destruct (retry_same p s1 s2 e Hr C1 C2 (Ee M) B) as (E1 & E2).
        assert (M2 : must p s2 = true).
        { unfold must_reassemble, ratio. rewrite (st_previous _ _ _ _ S1), E2. destruct C3 as (r & C3). rewrite C3.
          apply ratio_one; [|exact Ht]. destruct B as (B & _).
          rewrite (ev_defect _ _ _ (st_event _ _ _ _ S1)), C3 in B. intros ->.
          apply (Bool.eq_true_false_abs _ (proj2 (lt_iff _ _) Ha)) in B. destruct B. }
        apply IH; [|rewrite M in F1; rewrite M2, A1; lia].
        split; [apply B|]. split; [rewrite E1; exact C2|rewrite E2; exact C3].
  Qed.
  Theorem oapply_terminates p fuel s x : matrix_free (opt p) = false -> (forall x, repair (repair x) = repair x) ->
    (forall b r, norm b r <> MInf) -> 0 < absolute_limit (opt p) -> reassemble_threshold (opt p) < 1 ->
    (2 * S (max_iterations (opt p)) <= fuel)%nat -> exists o, oapply p fuel s x = Some o.
  Proof.
    intros F Hr Hn Ha Ht Hf. unfold OldModel.oapply. cbn [vecs].
    pose proof (odefect_cases repair residual norm p (mkcore x (res (vecs s)) (defect (vecs s)) [])) as D.
    destruct (odefect _ _ _ _ _) as [c|f c|]; cbn [sol] in D; [|eauto|eauto].
    destruct D as (Ds & Dc & Df & _).
    cbn [matrix reassembled log converged iterations result_reduction linear_its].
    pose proof (oloop_terminates p F Hr Hn Ha Ht fuel (started s c)) as L.
    assert (CA : calm p (started s c)) by (split; [exact Dc|split; [cbn; eauto|exact Df]]).
    specialize (L CA). cbn [started iterations] in L. unfold started in L.
    destruct (OldModel.oloop _ _ _ _ _ _ _ _ _) as [[s2|f s2|]|]; eauto. exfalso. apply L; [|reflexivity].
    lia.
  Qed.
End Old.
