(** Line search. *)
From Coq Require Import Lra.
From Verif Require Import NewtonModel NewtonSpec CommonFacts.
Local Open Scope R_scope.

Lemma lt_iff x y : lt (Fin x) (Fin y) = true <-> x < y.
Proof. unfold lt. destruct (Rlt_dec x y); split; intros; auto; try discriminate; lra. Qed.
Lemma le_iff x y : le (Fin x) (Fin y) = true <-> x <= y.
Proof. unfold le. destruct (Rle_dec x y); split; intros; auto; try discriminate; lra. Qed.
Ltac dec := repeat match goal with
  | |- context [Rlt_dec ?a ?b] => destruct (Rlt_dec a b)
  | H : context [Rlt_dec ?a ?b] |- _ => destruct (Rlt_dec a b)
  | |- context [Rle_dec ?a ?b] => destruct (Rle_dec a b)
  | H : context [Rle_dec ?a ?b] |- _ => destruct (Rle_dec a b)
  | |- context [Req_EM_T ?a ?b] => destruct (Req_EM_T a b)
  | H : context [Req_EM_T ?a ?b] |- _ => destruct (Req_EM_T a b)
  end.
Lemma lt_trans a b c : lt a b = true -> lt b c = true -> lt a c = true.
Proof. destruct a, b, c; cbn; intros; auto; try discriminate; dec; auto; try discriminate; lra. Qed.
Lemma lt_not_below v d e : lt d e = true -> lt v e = false -> lt v d = false.
Proof. destruct v, d, e; cbn; intros; auto; try discriminate; dec; auto; try discriminate; lra. Qed.
Lemma lt_irrefl d : lt d d = false.
Proof. destruct d; cbn; auto; dec; auto; lra. Qed.

Section Search.
  Context {V W : Type} (repair : V -> V) (residual : V -> option W) (norm : bool -> W -> ext) (axpy : R -> V -> V -> V).
  Notation update_defect := (update_defect repair residual norm).
  Notation consistent := (consistent residual norm).
  Notation value := (value residual norm).
  Notation point := (point repair).
  Notation step_to := (step_to repair axpy).
  Notation core := (core (V := V) (W := W)).

  Lemma update_normal p (c c' : core) : update_defect p c = Normal c' ->
    sol c' = point p (sol c) /\ consistent p c' /\ evals c' = sol c' :: evals c.
  Proof.
    unfold NewtonModel.update_defect, NewtonSpec.point, NewtonSpec.consistent, NewtonSpec.value.
    set (x := if hanging_nodes p then repair (sol c) else sol c).
    destruct (residual x) eqn:E; [|discriminate]. injection 1 as <-. cbn [sol res defect evals].
    rewrite E. cbn. auto.
  Qed.
  Lemma update_raised p (c c' : core) f : update_defect p c = Raised f c' ->
    f = AssemblyError /\ sol c' = point p (sol c) /\ value p (sol c') = None /\ evals c' = sol c' :: evals c.
  Proof.
    unfold NewtonModel.update_defect, NewtonSpec.point, NewtonSpec.value.
    set (x := if hanging_nodes p then repair (sol c) else sol c).
    destruct (residual x) eqn:E; [discriminate|]. injection 1 as <- <-. cbn [sol evals]. rewrite E. auto.
  Qed.

  Section Loop.
    Context (p : params) (q : lsparams) (corr x0 : V) (d0 : ext).
    Notation at_ k := (step_to p x0 corr (damping q ^ k)).
    (** state of the bookkeeping after [k] trials *)
    Definition booked (k : nat) (best : R) (dbest : ext) : Prop :=
      (forall j, (j < k)%nat -> exists v, value p (at_ j) = Some v /\ ~ decreases (damping q ^ j) v d0 /\
                                     lt v dbest = false) /\
      ((best = 0 /\ dbest = d0) \/
       exists b, (b < k)%nat /\ best = damping q ^ b /\ value p (at_ b) = Some dbest /\ lt dbest d0 = true).
    Definition result_of (k n : nat) (c : core) (t : trial) : Prop :=
      match t with
      | Accepted c1 => consistent p c1 /\ (length (evals c1) <= length (evals c) + n)%nat /\
          exists j, (k <= j < k + n)%nat /\ sol c1 = at_ j /\ decreases (damping q ^ j) (defect c1) d0 /\
            forall i, (i < j)%nat -> exists v, value p (at_ i) = Some v /\ ~ decreases (damping q ^ i) v d0
      | Exhausted lambda best c1 => lambda = damping q ^ (k + n) /\ sol c1 = x0 /\
          length (evals c1) = (length (evals c) + n)%nat /\ exists dbest, booked (k + n) best dbest
      | Broken c1 => (exists j, (k <= j < k + n)%nat /\ sol c1 = at_ j /\ value p (at_ j) = None) /\
                     (length (evals c1) <= length (evals c) + n)%nat
      end.
    Lemma trials_spec n : forall k best dbest c, sol c = x0 -> booked k best dbest ->
      result_of k n c (trials repair residual norm axpy p q corr x0 d0 n (damping q ^ k) best dbest c).
    Proof.
      induction n as [|n IH]; intros k best dbest c Hs B.
      { cbn [trials result_of]. rewrite !Nat.add_0_r. eauto 8. }
      cbn [trials]. destruct (update_defect p (with_sol (axpy (- damping q ^ k) corr (sol c)) c)) as [c1|f c1] eqn:U.
      - apply update_normal in U. destruct U as (Us & Uc & Ue). cbn [sol with_sol evals] in Us, Ue. rewrite Hs in Us.
        fold (step_to p x0 corr (damping q ^ k)) in Us.
        destruct (le (defect c1) (mul (Fin (1 - damping q ^ k / 4)) d0)) eqn:D.
        + cbn [result_of]. split; [exact Uc|]. rewrite Ue. cbn [length]. split; [lia|].
          exists k. split; [lia|]. split; [exact Us|]. split; [exact D|].
          intros i Hi. destruct (proj1 B i Hi) as (v & ? & ? & ?). eauto.
        + assert (Uv : value p (at_ k) = Some (defect c1)) by (rewrite <- Us; apply Uc).
          assert (B' : booked (S k) (if lt (defect c1) dbest then damping q ^ k else best)
                              (if lt (defect c1) dbest then defect c1 else dbest)).
          { destruct B as (Bj & Bb). split.
            - intros j Hj. destruct (Nat.eq_dec j k) as [->|Nj].
              + exists (defect c1). split; [exact Uv|]. split; [unfold decreases; rewrite D; discriminate|].
                destruct (lt (defect c1) dbest) eqn:L; [apply lt_irrefl|exact L].
              + destruct (Bj j ltac:(lia)) as (v & ? & ? & Lv). exists v. split; [assumption|]. split; [assumption|].
                destruct (lt (defect c1) dbest) eqn:L; [eapply lt_not_below; eassumption|exact Lv].
            - destruct (lt (defect c1) dbest) eqn:L.
              + right. exists k. split; [lia|]. split; [reflexivity|]. split; [exact Uv|].
                destruct Bb as [(-> & ->)|(b & _ & _ & _ & Lb)]; [exact L|eapply lt_trans; eassumption].
              + destruct Bb as [(-> & ->)|(b & Hb & -> & Hv & Lb)]; [auto|]. right. exists b. split; [lia|]. auto. }
          replace (damping q ^ k * damping q) with (damping q ^ S k) by (cbn; ring).
          specialize (IH (S k) _ _ (with_sol x0 c1) eq_refl B').
          destruct (trials _ _ _ _ _ _ _ _ _ n _ _ _ _) as [c2|la be c2|c2]; cbn [result_of with_sol evals] in IH |- *;
            rewrite Ue in IH; cbn [length] in IH; replace (S k + n)%nat with (k + S n)%nat in IH by lia.
          * destruct IH as (? & ? & j & ? & ? & ? & ?). split; [assumption|]. split; [lia|]. exists j. split; [lia|]. auto.
          * destruct IH as (? & ? & ? & ?). split; [assumption|]. split; [assumption|]. split; [lia|]. assumption.
          * destruct IH as ((j & ? & ? & ?) & ?). split; [|lia]. exists j. split; [lia|]. auto.
      - apply update_raised in U. destruct U as (-> & Us & Uv & Ue). cbn [sol with_sol evals] in Us, Ue. rewrite Hs in Us.
        cbn [result_of]. rewrite Ue. cbn [length]. split; [|lia]. exists k. split; [lia|]. split; [exact Us|].
        fold (step_to p x0 corr (damping q ^ k)) in Us. rewrite <- Us. exact Uv.
    Qed.
  End Loop.

  Lemma pow_distinct d b n : 0 < d < 1 -> (b < n)%nat -> d ^ b <> d ^ n.
  Proof.
    intros H L. assert (P : 0 < d ^ b) by (apply pow_lt; lra).
    replace n with (b + S (n - b - 1))%nat by lia. rewrite pow_add.
    assert (d ^ S (n - b - 1) < 1).
    { apply pow_lt_1_compat; [lra|lia]. }
    nra.
  Qed.

  Theorem search_hr_normal q p (c c' : core) corr : 0 < damping q < 1 ->
    search_hr repair residual norm axpy q p c corr = Normal c' ->
    consistent p c' /\
    (lt (defect c) (Fin (absolute_limit p)) = true /\ sol c' = step_to p (sol c) corr 1 \/
     contract repair residual norm axpy p q (sol c) corr (defect c) (sol c') (defect c')) /\
    (length (evals c') <= S (ls_max q) + length (evals c))%nat.
  Proof.
    intros Hd. unfold search_hr. destruct (lt (defect c) (Fin (absolute_limit p))) eqn:A.
    { intros U. apply update_normal in U. destruct U as (Us & Uc & Ue). cbn [sol with_sol evals] in Us, Ue.
      split; [exact Uc|]. split; [left; split; [reflexivity|]|].
      - rewrite Us. unfold NewtonSpec.step_to. replace (Ropp 1) with (-1) by lra. reflexivity.
      - rewrite Ue. cbn. lia. }
    assert (B0 : booked p q corr (sol c) (defect c) 0 0 (defect c)) by (split; [intros; lia|auto]).
    pose proof (trials_spec p q corr (sol c) (defect c) (ls_max q) 0 0 (defect c) c eq_refl B0) as T.
    change (damping q ^ 0) with 1 in T. rewrite Nat.add_0_l in T || idtac.
    destruct (trials _ _ _ _ _ _ _ _ _ (ls_max q) _ _ _ c) as [c1|la be c1|c1]; cbn [result_of] in T.
    - injection 1 as <-. destruct T as (Tc & Te & j & Hj & Ts & Td & _). split; [exact Tc|]. split; [right|lia].
      constructor; [apply Tc|]. exists j. split; [lia|]. auto.
    - destruct T as (Tl & Ts & Te & db & Bj & Bb). rewrite Nat.add_0_l in Tl, Bj, Bb.
      destruct (accept q) eqn:Acc; cbn [negb].
      2:{ unfold give_up. destruct (update_defect p _); discriminate. }
      destruct (Req_EM_T be 0) as [->|Nb].
      { unfold give_up. destruct (update_defect p _); discriminate. }
      destruct Bb as [(-> & _)|(b & Hb & Eb & Hv & Lb)]; [contradiction|].
      destruct (Req_EM_T be la) as [Ebl|_].
      { exfalso. apply (pow_distinct (damping q) b (ls_max q) Hd Hb). congruence. }
      intros U. apply update_normal in U. destruct U as (Us & Uc & Ue). cbn [sol with_sol evals] in Us, Ue.
      split; [exact Uc|]. split; [right|rewrite Ue; cbn; lia].
      assert (Ed : defect c' = db).
      { destruct Uc as (_ & Uv). rewrite Us, Eb in Uv. fold (step_to p (sol c) corr (damping q ^ b)) in Uv. congruence. }
      constructor; [apply Uc|]. exists b. split; [exact Hb|]. split; [rewrite Us, Eb; reflexivity|]. right.
      rewrite Ed. split; [exact Acc|]. split; [exact Lb|]. intros j Hj. destruct (Bj j Hj) as (v & ? & _ & ?). eauto.
    - discriminate.
  Qed.

  Theorem search_hr_failed q p (c c' : core) corr f : 0 < damping q < 1 ->
    search_hr repair residual norm axpy q p c corr = Raised f c' ->
    (f = LineSearchError /\ hopeless repair residual norm axpy p q (sol c) corr (defect c) /\
     sol c' = point p (sol c) /\ consistent p c') \/
    (f = AssemblyError /\ value p (sol c') = None).
  Proof.
    intros Hd. unfold search_hr. destruct (lt (defect c) (Fin (absolute_limit p))) eqn:A.
    { intros U. apply update_raised in U. destruct U as (-> & _ & Uv & _). auto. }
    assert (B0 : booked p q corr (sol c) (defect c) 0 0 (defect c)) by (split; [intros; lia|auto]).
    pose proof (trials_spec p q corr (sol c) (defect c) (ls_max q) 0 0 (defect c) c eq_refl B0) as T.
    change (damping q ^ 0) with 1 in T.
    assert (G : forall c1, hopeless repair residual norm axpy p q (sol c) corr (defect c) ->
              give_up repair residual norm p (sol c) c1 = Raised f c' ->
              (f = LineSearchError /\ hopeless repair residual norm axpy p q (sol c) corr (defect c) /\
               sol c' = point p (sol c) /\ consistent p c') \/ (f = AssemblyError /\ value p (sol c') = None)).
    { intros c1 H. unfold give_up. destruct (update_defect p (with_sol (sol c) c1)) as [c2|g c2] eqn:U.
      - injection 1 as <- <-. apply update_normal in U. destruct U as (Us & Uc & _). auto.
      - injection 1 as <- <-. apply update_raised in U. destruct U as (-> & _ & Uv & _). auto. }
    destruct (trials _ _ _ _ _ _ _ _ _ (ls_max q) _ _ _ c) as [c1|la be c1|c1]; cbn [result_of] in T.
    - discriminate.
    - destruct T as (Tl & Ts & Te & db & Bj & Bb). rewrite Nat.add_0_l in Tl, Bj, Bb.
      destruct (accept q) eqn:Acc; cbn [negb].
      2:{ apply G. intros j Hj. destruct (Bj j Hj) as (v & ? & ? & ?). exists v. do 2 (split; [assumption|]).
          rewrite Acc. discriminate. }
      destruct (Req_EM_T be 0) as [->|Nb].
      { apply G. intros j Hj. destruct (Bj j Hj) as (v & ? & ? & Lv). exists v. do 2 (split; [assumption|]).
        intros _. destruct Bb as [(_ & ->)|(b & _ & Eb & _)]; [exact Lv|].
        exfalso. pose proof (pow_lt (damping q) b). lra. }
      destruct Bb as [(-> & _)|(b & Hb & Eb & Hv & Lb)]; [contradiction|].
      destruct (Req_EM_T be la) as [Ebl|_]; [discriminate|].
      intros U. apply update_raised in U. destruct U as (-> & _ & Uv & _). auto.
    - injection 1 as <- <-. destruct T as ((j & _ & Es & Ev) & _). rewrite Es. auto.
  Qed.

  Lemma search_none_honest p : honest residual norm p (search_none repair residual norm axpy).
  Proof. intros c corr c' U. apply update_normal in U. apply U. Qed.
  Lemma search_hr_honest q p : 0 < damping q < 1 -> honest residual norm p (search_hr repair residual norm axpy q).
  Proof. intros H c corr c' U. eapply search_hr_normal in U; [apply U|exact H]. Qed.
End Search.
