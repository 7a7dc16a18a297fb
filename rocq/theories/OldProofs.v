(** The line search of the deprecated Newton solver. *)
From Coq Require Import Lra.
From Verif Require Import NewtonModel NewtonSpec CommonFacts NewtonProofs OldModel OldSpec.
Local Open Scope R_scope.

Section Search.
  Context {V W : Type} (repair : V -> V) (residual : V -> option W) (norm : bool -> W -> ext) (axpy : R -> V -> V -> V).
  Notation core := (core (V := V) (W := W)).
  Notation odefect := (odefect repair residual norm).
  Notation otrials := (otrials repair residual norm axpy).
  Notation osearch := (osearch repair residual norm axpy).
  Notation opoint := (opoint repair).
  Notation step_to := (ostep_to repair axpy).
  Notation value p := (value residual norm (opt p)).
  Notation consistent p := (consistent residual norm (opt p)).

  Lemma odefect_cases p (c : core) :
    match odefect p c with
    | ONorm c' => sol c' = opoint p (sol c) /\ consistent p c' /\ finite (defect c') /\
                  evals c' = sol c' :: evals c
    | ORaise f c' => sol c' = opoint p (sol c) /\
        ((f = OAssembly /\ value p (sol c') = None) \/
         (f = ODefect /\ consistent p c' /\ ~ finite (defect c'))) /\ evals c' = sol c' :: evals c
    | OUndef => hang_defect p = None
    end.
  Proof.
    unfold OldModel.odefect, OldSpec.opoint, NewtonSpec.consistent, NewtonSpec.value.
    destruct (hang_defect p) as [h|]; [|reflexivity].
    replace (match Some h with Some true => repair (sol c) | _ => sol c end) with (if h then repair (sol c) else sol c)
      by (destruct h; reflexivity).
    set (x := if h then repair (sol c) else sol c). destruct (residual x) as [r|] eqn:E.
    - cbn [defect]. destruct (norm (use_max_norm (opt p)) r) as [d| | |] eqn:N; cbn [sol NewtonModel.res defect evals];
        rewrite E; cbn [option_map]; rewrite ?N; (split; [reflexivity|]).
      1: split; [auto|]; split; [exists d; reflexivity|reflexivity].
      all: split; [|reflexivity]; right; split; [reflexivity|]; split; [auto|]; intros (? & ?); discriminate.
    - cbn [sol evals]. split; [reflexivity|]. split; [|reflexivity]. left. rewrite E. auto.
  Qed.

  Section Loop.
    Context (p : oparams) (corr x0 : V) (d0 : ext).
    Notation at_ k := (step_to p x0 corr (damp p ^ k)).
    (** after [k] trials *)
    Definition obooked (k : nat) (best : R) (dbest : ext) : Prop :=
      (forall j, (j < k)%nat -> exists v, value p (at_ j) = Some v /\ ~ decreases (damp p ^ j) v d0 /\
                                     lt v dbest = false) /\
      ((best = 0 /\ dbest = d0) \/
       exists b, (b < k)%nat /\ best = damp p ^ b /\ value p (at_ b) = Some dbest /\ lt dbest d0 = true).
    Definition oresult (k n : nat) (t : otrial) : Prop :=
      match t with
      | TAccepted c1 => consistent p c1 /\
          exists j, (k <= j <= k + n)%nat /\ sol c1 = at_ j /\ decreases (damp p ^ j) (defect c1) d0
      | TExhausted lambda best c1 => lambda = damp p ^ (k + n) /\ sol c1 = at_ (k + n) /\ consistent p c1 /\
          exists dbest, obooked (S (k + n)) best dbest
      | TRaised f c1 => f = OAssembly /\ value p (sol c1) = None /\ exists j, sol c1 = at_ j
      | TUndef => hang_defect p = None
      end.
    Lemma otrials_spec n : forall k best dbest c, sol c = x0 -> obooked k best dbest ->
      oresult k n (otrials p corr x0 d0 n (damp p ^ k) best dbest c).
    Proof.
      induction n as [|n IH]; intros k best dbest c Hs B; cbn [OldModel.otrials];
        pose proof (odefect_cases p (with_sol (axpy (- damp p ^ k) corr (sol c)) c)) as D;
        destruct (odefect p (with_sol (axpy (- damp p ^ k) corr (sol c)) c)) as [c1|f c1|]; cbn [sol with_sol] in D;
        rewrite ?Hs in D; try exact D.
      (* the judgement of a trial point *)
      1,2: assert (J : consistent p c1 -> sol c1 = at_ k ->
          oresult k 0 (if le (defect c1) (mul (Fin (1 - damp p ^ k / 4)) d0) then TAccepted c1
            else TExhausted (damp p ^ k) (if lt (defect c1) dbest then damp p ^ k else best) c1)).
      5,6: assert (J : consistent p c1 -> sol c1 = at_ k ->
          oresult k (S n) (if le (defect c1) (mul (Fin (1 - damp p ^ k / 4)) d0) then TAccepted c1
            else otrials p corr x0 d0 n (damp p ^ k * damp p) (if lt (defect c1) dbest then damp p ^ k else best)
                         (if lt (defect c1) dbest then defect c1 else dbest) (with_sol x0 c1))).
      1,3,5,7: intros Uc Us; destruct (le (defect c1) (mul (Fin (1 - damp p ^ k / 4)) d0)) eqn:L;
        [cbn [oresult]; split; [exact Uc|]; exists k; split; [lia|]; auto|];
        assert (Uv : value p (at_ k) = Some (defect c1)) by (rewrite <- Us; apply Uc);
        assert (B' : obooked (S k) (if lt (defect c1) dbest then damp p ^ k else best)
                            (if lt (defect c1) dbest then defect c1 else dbest)) by
         (destruct B as (Bj & Bb); split;
          [intros j Hj; destruct (Nat.eq_dec j k) as [->|Nj];
            [exists (defect c1); split; [exact Uv|]; split; [unfold decreases; rewrite L; discriminate|];
             destruct (lt (defect c1) dbest) eqn:Lt; [apply NewtonProofs.lt_irrefl|exact Lt]
            |destruct (Bj j ltac:(lia)) as (v & ? & ? & Lv); exists v; split; [assumption|]; split; [assumption|];
             destruct (lt (defect c1) dbest) eqn:Lt; [eapply lt_not_below; eassumption|exact Lv]]
          |destruct (lt (defect c1) dbest) eqn:Lt;
            [right; exists k; split; [lia|]; split; [reflexivity|]; split; [exact Uv|];
             destruct Bb as [(-> & ->)|(b & _ & _ & _ & Lb)]; [exact Lt|eapply NewtonProofs.lt_trans; eassumption]
            |destruct Bb as [(-> & ->)|(b & Hb & -> & Hv & Lb)]; [auto|]; right; exists b; split; [lia|]; auto]]).
      1,2: cbn [oresult]; rewrite Nat.add_0_r; eauto 8.
      1,2: replace (damp p ^ k * damp p) with (damp p ^ S k) by (cbn; ring);
        specialize (IH (S k) _ _ (with_sol x0 c1) eq_refl B');
        destruct (otrials p corr x0 d0 n _ _ _ _) as [c2|la be c2|g c2|]; cbn [oresult] in IH |- *;
        replace (S k + n)%nat with (k + S n)%nat in IH by lia; auto;
        destruct IH as (? & j & ? & ?); split; [assumption|]; exists j; split; [lia|assumption].
      1,3: destruct D as (Ds & Dc & _); apply J; assumption.
      all: destruct D as (Ds & [(-> & Dv)|(-> & Dc & _)] & _); [cbn [oresult]; eauto|apply J; assumption].
    Qed.
  End Loop.

  (** everything about one line search *)
  Lemma osearch_cases p (c : core) corr :
    match osearch p (defect c) c corr with
    | ONorm c' => consistent p c' /\ (exists y, sol c' = opoint p y) /\
        (((strat p = NoLineSearch \/ lt (defect c) (Fin (absolute_limit (opt p))) = true) /\
          sol c' = step_to p (sol c) corr 1 /\ finite (defect c')) \/
         (lt (defect c) (Fin (absolute_limit (opt p))) = false /\
          good_step repair residual norm axpy p (sol c) corr (defect c) (sol c') (defect c')))
    | ORaise f c' =>
        ((f = OAssembly /\ value p (sol c') = None) \/
         (f = ODefect /\ consistent p c' /\ ~ finite (defect c') /\
          (((strat p = NoLineSearch \/ lt (defect c) (Fin (absolute_limit (opt p))) = true) /\
            sol c' = step_to p (sol c) corr 1) \/
           sol c' = opoint p (sol c) \/ lt (defect c') (defect c) = true)) \/
         (f = OSearch /\ strat p <> NoLineSearch /\ lt (defect c) (Fin (absolute_limit (opt p))) = false /\
          sol c' = opoint p (sol c) /\ consistent p c' /\ finite (defect c') /\
          (damp p <> 0 -> no_good_step repair residual norm axpy p (sol c) corr (defect c))))
    | OUndef => hang_defect p = None
    end.
  Proof.
    unfold OldModel.osearch.
    destruct (match strat p with NoLineSearch => true | _ => false end || lt (defect c) (Fin (absolute_limit (opt p)))) eqn:A.
    { assert (A' : strat p = NoLineSearch \/ lt (defect c) (Fin (absolute_limit (opt p))) = true).
      { destruct (strat p); cbn in A; auto. }
      pose proof (odefect_cases p (with_sol (axpy (-1) corr (sol c)) c)) as D.
      destruct (odefect p (with_sol (axpy (-1) corr (sol c)) c)) as [c1|f c1|]; cbn [sol with_sol] in D;
        unfold OldSpec.ostep_to in *; replace (Ropp 1) with (-1) by lra; [| |exact D].
      - destruct D as (Ds & Dc & Df & _). split; [exact Dc|]. split; [eauto|]. left. auto.
      - destruct D as (Ds & [(-> & Dv)|(-> & Dc & Df)] & _); [auto|].
        right. left. do 3 (split; [auto|]). left. auto. }
    apply Bool.orb_false_iff in A. destruct A as (A1 & A2).
    assert (Ns : strat p <> NoLineSearch) by (destruct (strat p); [discriminate|..]; discriminate).
    assert (B0 : obooked p corr (sol c) (defect c) 0 0 (defect c)) by (split; [intros; lia|auto]).
    pose proof (otrials_spec p corr (sol c) (defect c) (pred (tries p)) 0 0 (defect c) c eq_refl B0) as T.
    change (damp p ^ 0) with 1 in T.
    assert (L : S (pred (tries p)) = lengths p) by (unfold lengths; destruct (tries p); cbn; lia).
    destruct (otrials p corr (sol c) (defect c) (pred (tries p)) 1 0 (defect c) c) as [c1|la be c1|f c1|]; cbn [oresult] in T.
    - destruct T as (Tc & j & Hj & Ts & Td).
      split; [exact Tc|]. split; [unfold OldSpec.ostep_to in Ts; eauto|]. right. split; [exact A2|].
      exists j. split; [lia|]. auto.
    - destruct T as (Tl & Ts & Tc & db & Bj & Bb). rewrite Nat.add_0_l in *. rewrite L in Bj, Bb.
      assert (G : (damp p <> 0 -> no_good_step repair residual norm axpy p (sol c) corr (defect c)) ->
        match ogive_up repair residual norm p (sol c) c1 with
        | ONorm c' => False
        | ORaise f c' => (f = OAssembly /\ value p (sol c') = None) \/
           (f = ODefect /\ consistent p c' /\ ~ finite (defect c') /\ sol c' = opoint p (sol c)) \/
           (f = OSearch /\ sol c' = opoint p (sol c) /\ consistent p c' /\ finite (defect c') /\
            (damp p <> 0 -> no_good_step repair residual norm axpy p (sol c) corr (defect c)))
        | OUndef => hang_defect p = None
        end).
      { intros H. unfold ogive_up. pose proof (odefect_cases p (with_sol (sol c) c1)) as D.
        destruct (odefect p (with_sol (sol c) c1)) as [c2|f c2|]; cbn [sol with_sol] in D; [| |exact D].
        - destruct D as (Ds & Dc & Df & _). right. right. auto.
        - destruct D as (Ds & [(-> & Dv)|(-> & Dc & Df)] & _); auto 8. }
      assert (G' : (damp p <> 0 -> no_good_step repair residual norm axpy p (sol c) corr (defect c)) ->
        match ogive_up repair residual norm p (sol c) c1 with
    | ONorm c' => consistent p c' /\ (exists y, sol c' = opoint p y) /\
        (((strat p = NoLineSearch \/ lt (defect c) (Fin (absolute_limit (opt p))) = true) /\
          sol c' = step_to p (sol c) corr 1 /\ finite (defect c')) \/
         (lt (defect c) (Fin (absolute_limit (opt p))) = false /\
          good_step repair residual norm axpy p (sol c) corr (defect c) (sol c') (defect c')))
    | ORaise f c' =>
        ((f = OAssembly /\ value p (sol c') = None) \/
         (f = ODefect /\ consistent p c' /\ ~ finite (defect c') /\
          (((strat p = NoLineSearch \/ lt (defect c) (Fin (absolute_limit (opt p))) = true) /\
            sol c' = step_to p (sol c) corr 1) \/
           sol c' = opoint p (sol c) \/ lt (defect c') (defect c) = true)) \/
         (f = OSearch /\ strat p <> NoLineSearch /\ lt (defect c) (Fin (absolute_limit (opt p))) = false /\
          sol c' = opoint p (sol c) /\ consistent p c' /\ finite (defect c') /\
          (damp p <> 0 -> no_good_step repair residual norm axpy p (sol c) corr (defect c))))
    | OUndef => hang_defect p = None
    end).
      { intros H. specialize (G H). destruct (ogive_up _ _ _ _ _ _) as [c2|f c2|]; [destruct G| |exact G].
        destruct G as [G|[(? & ? & ? & ?)|(? & ? & ? & ? & ?)]]; [auto|right; left; auto 8|right; right; auto 10]. }
      destruct (strat p) eqn:St; [destruct (Ns eq_refl)| |].
      + apply G'. intros _ j Hj. destruct (Bj j Hj) as (v & ? & ? & ?). exists v. rewrite St. split; [auto|]. split; [auto|discriminate].
      + destruct (Req_EM_T be 0) as [->|Nb].
        { apply G'. intros Nd j Hj. destruct (Bj j Hj) as (v & ? & ? & Lv). exists v. do 2 (split; [assumption|]).
          intros _. destruct Bb as [(_ & ->)|(b & _ & Eb & _)]; [exact Lv|].
          exfalso. apply (pow_nonzero (damp p) b Nd). auto. }
        destruct Bb as [(-> & _)|(b & Hb & Eb & Hv & Lb)]; [contradiction|].
        assert (GS : forall c', consistent p c' -> sol c' = step_to p (sol c) corr be ->
                  good_step repair residual norm axpy p (sol c) corr (defect c) (sol c') (defect c')).
        { intros c' Cc Cs. rewrite Eb in Cs. exists b. split; [exact Hb|]. split; [exact Cs|]. right.
          assert (defect c' = db) as ->. { destruct Cc as (_ & Cv). rewrite Cs in Cv. congruence. }
          split; [exact St|]. split; [exact Lb|]. intros j Hj. destruct (Bj j Hj) as (v & ? & _ & ?). eauto. }
        destruct (Req_EM_T be la) as [Ebl|Nbl].
        * split; [exact Tc|]. split; [unfold OldSpec.ostep_to in Ts; eauto|]. right. split; [exact A2|].
          apply GS; [exact Tc|]. rewrite Ebl, Tl. exact Ts.
        * pose proof (odefect_cases p (with_sol (axpy (- be) corr (sol c)) c1)) as D.
          destruct (odefect p (with_sol (axpy (- be) corr (sol c)) c1)) as [c2|f c2|]; cbn [sol with_sol] in D; [| |exact D].
          -- destruct D as (Ds & Dc & Df & _). split; [exact Dc|]. split; [eauto|]. right. split; [exact A2|].
             apply GS; assumption.
          -- destruct D as (Ds & [(-> & Dv)|(-> & Dc & Df)] & _); [auto|]. right. left. do 3 (split; [auto|]).
             right. right. assert (defect c2 = db) as ->; [|exact Lb].
             destruct Dc as (_ & Cv). rewrite Ds in Cv. rewrite Eb in Cv. unfold OldSpec.ostep_to in Hv. congruence.
    - destruct T as (-> & Tv & _). auto.
    - exact T.
  Qed.
End Search.
