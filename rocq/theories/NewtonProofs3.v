(** The linear solves of the Newton iteration. *)
From Coq Require Import Lra.
From Verif Require Import NewtonModel NewtonSpec CommonFacts NewtonProofs NewtonProofs2.
Local Open Scope R_scope.

Lemma ratio_one d thr : d <> 0 -> thr < 1 -> lt (Fin thr) (div (Fin d) (Fin d)) = true.
Proof. intros. cbn. destruct (Req_EM_T d 0); [contradiction|]. apply lt_iff. replace (d / d) with 1 by (field; auto). auto. Qed.

Lemma ratio_slow d q thr : 0 < q -> thr * q < d -> lt (Fin thr) (div (Fin d) (Fin q)) = true.
Proof.
  intros. unfold div. destruct (Req_EM_T q 0); [lra|]. apply lt_iff.
  apply (Rmult_lt_reg_r q); [lra|]. unfold Rdiv. rewrite Rmult_assoc, Rinv_l, Rmult_1_r by lra. auto.
Qed.

Lemma sequence_iterations {V} f (l : list (event (V := V))) : sequence f l -> forall e2, In e2 l ->
  (e_iteration e2 < length l)%nat /\ (forall e3 l3, l = e3 :: l3 -> S (e_iteration e3) = length l).
Proof.
  induction l as [|a l IH]; intros Hs e2 []; cbn [sequence length] in *.
  - subst a. destruct Hs as (H & Hs). destruct l as [|b l].
    + cbn. split; [lia|]. intros e3 l3 Q. injection Q as <- <-. lia.
    + destruct (IH Hs b (or_introl eq_refl)) as (L1 & L2). specialize (L2 b l eq_refl).
      split; [lia|]. intros e3 l3 Q. injection Q as <- <-. lia.
  - destruct Hs as (H1 & Hs). destruct l as [|b l]; [contradiction|].
    destruct (IH Hs e2 H) as (L1 & L2). specialize (L2 b l eq_refl).
    split; [lia|]. intros e3 l3 Q. injection Q as <- <-. lia.
Qed.

Section Newton.
  Context {V W : Type} (repair : V -> V) (residual : V -> option W) (jacobian_ok : V -> bool) (norm : bool -> W -> ext)
          (r0 : W)
          (linear_solver : list (event (V := V)) -> option (list V) -> W -> ext -> bool * V * Z).
  Notation run := (run (V := V) (W := W)).
  Notation event := (event (V := V)).
  Notation iterate := (iterate repair jacobian_ok linear_solver).
  Notation apply := (apply repair residual jacobian_ok norm r0 linear_solver).
  Notation step_ok := (step_ok).

  Section Call.
    Context (p : params) (ls : linesearch (V := V) (W := W)) (m : option (option (list V))) (tr : list event) (x : V).
    (** an event is right as far as it can be seen from itself *)
    Definition event_good (e : event) : Prop :=
      e_threshold e = reassemble_threshold p /\
      (matrix_free p = true \/ lt (Fin (e_threshold e)) (div (e_defect e) (e_previous e)) = true -> fresh e).
    Definition reduction_good (first : ext) (e : event) : Prop :=
      (fixed_linear_reduction p = true -> e_reduction e = Fin (min_linear_reduction p)) /\
      (fixed_linear_reduction p = false -> e_iteration e <> 0%nat \/ lt first (Fin (absolute_limit p)) = false ->
       forall f d q, first = Fin f -> e_defect e = Fin d -> e_previous e = Fin q -> 0 < d -> 0 < q ->
       exists r, e_reduction e = Fin r /\ reduction_rule p f d q r).

    Record during (new : list event) (s : run) : Prop := {
      du_log : log s = new ++ tr;
      du_sequence : sequence (first s) new;
      du_iterations : iterations s = length new;
      du_first : new = [] -> previous s = first s /\ defect (vecs s) = first s;
      du_previous : forall e l, new = e :: l -> previous s = e_defect e /\ iterations s = S (e_iteration e);
      du_good : forall e, In e new -> event_good e /\ reduction_good (first s) e;
      du_kept : forall d, first s = Fin d -> d <> 0 -> reassemble_threshold p < 1 -> matrix_free p = false -> new <> [] ->
        exists e, In e new /\ fresh e /\ matrix s = Some (e_matrix e);
      du_origin : forall d, first s = Fin d -> d <> 0 -> reassemble_threshold p < 1 -> forall e, In e new ->
        exists e', In e' new /\ (e_iteration e' <= e_iteration e)%nat /\ fresh e' /\ e_matrix e = e_matrix e' }.

    Lemma emax_fin a b : emax (Fin a) (Fin b) = Fin (Rmax a b).
    Proof. unfold emax, lt, Rmax. dec; auto; f_equal; lra. Qed.
    Lemma emin_fin a b : emin (Fin a) (Fin b) = Fin (Rmin a b).
    Proof. unfold emin, lt, Rmin. dec; auto; f_equal; lra. Qed.

    Lemma event_is_good (s : run) e : event_ok p s e -> event_good e /\ reduction_good (first s) e.
    Proof.
      intros E. split.
      - split; [apply E|]. unfold fresh. rewrite (ev_matrix _ _ _ E). destruct (matrix_free p); [reflexivity|].
        unfold must_reassemble, ratio. rewrite (ev_defect _ _ _ E), (ev_previous _ _ _ E), (ev_threshold _ _ _ E).
        intros [?|L]; [discriminate|]. rewrite L. reflexivity.
      - unfold reduction_good. rewrite (ev_reduction _ _ _ E), (ev_iteration _ _ _ E), (ev_defect _ _ _ E), (ev_previous _ _ _ E).
        unfold linear_reduction. split.
        + intros ->. reflexivity.
        + intros -> Hi f d q Hf Hd Hq Pd Pq. cbn [negb andb].
          assert (negb ((iterations s =? 0)%nat && lt (first s) (Fin (absolute_limit p))) = true) as ->.
          { destruct (Nat.eqb_spec (iterations s) 0); [|reflexivity]. destruct Hi as [?| ->]; [contradiction|reflexivity]. }
          rewrite Hf, Hd, Hq. cbn [mul]. rewrite emax_fin. unfold div.
          destruct (Req_EM_T (10 * d) 0); [lra|]. destruct (Req_EM_T (q * q) 0); [nra|].
          rewrite emin_fin, emax_fin. eexists. split; [reflexivity|].
          split; [apply Rmax_l|]. set (g := Rmax _ _ / _). set (h := Rmin _ _).
          destruct (Rle_dec g h); [rewrite (Rmax_right g h) by assumption|rewrite (Rmax_left g h) by lra].
          * right. split; [apply Rmin_l|]. eapply Rle_trans; [apply Rmin_r|]. right. cbn. field. lra.
          * left. reflexivity.
    Qed.

    Lemma step_keeps new (s s' : run) e : during new s -> step_ok p s s' e -> iterations s' = S (iterations s) ->
      during (e :: new) s'.
    Proof.
      intros D S1 Hit. pose proof (st_event _ _ _ _ S1) as E.
      assert (EG := event_is_good s e E).
      assert (First : new = [] -> forall d, first s = Fin d -> d <> 0 -> reassemble_threshold p < 1 -> must_reassemble p s = true).
      { intros Hn d Hd Nd Ht. destruct (du_first _ _ D Hn) as (P1 & P2). unfold must_reassemble, ratio.
        rewrite P1, P2, Hd. apply ratio_one; assumption. }
      assert (Fr : matrix_free p = true \/ must_reassemble p s = true -> fresh e).
      { unfold fresh. rewrite (ev_matrix _ _ _ E). destruct (matrix_free p); [reflexivity|].
        intros [?| ->]; [discriminate|reflexivity]. }
      split.
      - rewrite (st_log _ _ _ _ S1), (du_log _ _ D). reflexivity.
      - rewrite (st_first _ _ _ _ S1). cbn [sequence]. split; [|apply (du_sequence _ _ D)]. destruct new as [|e' l].
        + destruct (du_first _ _ D eq_refl) as (P1 & P2).
          rewrite (ev_iteration _ _ _ E), (ev_defect _ _ _ E), (ev_previous _ _ _ E), (du_iterations _ _ D). auto.
        + destruct (du_previous _ _ D e' l eq_refl) as (P1 & P2).
          rewrite (ev_iteration _ _ _ E), (ev_previous _ _ _ E). auto.
      - rewrite Hit, (du_iterations _ _ D). reflexivity.
      - discriminate.
      - intros e0 l0 H. injection H as <- <-. rewrite (st_previous _ _ _ _ S1), (ev_defect _ _ _ E), (ev_iteration _ _ _ E). auto.
      - rewrite (st_first _ _ _ _ S1). intros e0 [<-|H]; [exact EG|apply (du_good _ _ D), H].
      - rewrite (st_first _ _ _ _ S1), (st_matrix _ _ _ _ S1). intros d Hd Nd Ht Hm _. rewrite Hm. cbn [negb andb].
        destruct (must_reassemble p s) eqn:M.
        + exists e. split; [left; reflexivity|]. split; [apply Fr; auto|reflexivity].
        + destruct new as [|e' l] eqn:Hn; [discriminate (First eq_refl d Hd Nd Ht)|].
          destruct (du_kept _ _ D d Hd Nd Ht Hm ltac:(intros QQ; discriminate QQ)) as (e1 & I1 & F1 & M1).
          exists e1. split; [right; exact I1|]. auto.
      - rewrite (st_first _ _ _ _ S1). intros d Hd Nd Ht e0 [<-|H].
        + destruct (matrix_free p) eqn:Hm; [|destruct (must_reassemble p s) eqn:M].
          * exists e. split; [left; reflexivity|]. auto.
          * exists e. split; [left; reflexivity|]. auto.
          * destruct new as [|e' l] eqn:Hn; [discriminate (First eq_refl d Hd Nd Ht)|]. rewrite <- Hn in *.
            destruct (du_kept _ _ D d Hd Nd Ht Hm ltac:(rewrite Hn; discriminate)) as (e1 & I1 & F1 & M1).
            exists e1. split; [right; exact I1|].
            destruct (du_origin _ _ D d Hd Nd Ht e1 I1) as (_ & _ & _ & _ & _).
            split.
            -- rewrite (ev_iteration _ _ _ E).
               destruct (sequence_iterations _ new (du_sequence _ _ D) e1 I1). rewrite (du_iterations _ _ D). lia.
            -- split; [exact F1|]. rewrite (ev_matrix _ _ _ E), Hm, M, M1. reflexivity.
        + destruct (du_origin _ _ D d Hd Nd Ht e0 H) as (e1 & I1 & ?). exists e1. split; [right; exact I1|]. assumption.
    Qed.

    (** the part of it that also holds after an exception *)
    Record after (new : list event) (f : ext) : Prop := {
      af_sequence : sequence f new;
      af_good : forall e, In e new -> event_good e /\ reduction_good f e;
      af_origin : forall d, f = Fin d -> d <> 0 -> reassemble_threshold p < 1 -> forall e, In e new ->
        exists e', In e' new /\ (e_iteration e' <= e_iteration e)%nat /\ fresh e' /\ e_matrix e = e_matrix e' }.

    Theorem apply_solves o : apply p ls m tr x = Some o ->
      exists new, log (final o) = new ++ tr /\ after new (first (final o)) /\
        (new <> [] -> value residual norm p (point repair p x) = Some (first (final o))).
    Proof.
      intros A.
      set (F := fun f => value residual norm p (point repair p x) = Some f).
      set (I := fun s : run => (exists new, during new s) /\ F (first s)).
      set (Q := fun s : run => exists new, log s = new ++ tr /\ after new (first s) /\ (new <> [] -> F (first s))).
      assert (IQ : forall s s', I s -> log s' = log s -> first s' = first s -> Q s').
      { intros s s' ((new & D) & Hf) L1 L2. exists new. rewrite L1, L2. split; [apply D|]. split; [|auto].
        split; [apply D|apply D|apply D]. }
      pose proof (apply_inv repair residual jacobian_ok norm r0 linear_solver p ls m tr x I Q) as H. rewrite A in H.
      change (Q (final o)).
      assert (X : match o with
                | Normal s' => exists s1 : run, I s1 /\ s' = end_loop p (set_converged true s1) /\
                               criterion p (first s1) (defect (vecs s1))
                | Raised f s' => Q s' \/ exists c, update_defect repair residual norm p (mkcore x r0 (Fin 0) []) = Raised f c /\
                  s' = mkrun c m true (Fin 0) (Fin 0) false 0 (Fin 0) 0 tr end).
      { apply H; clear H.
        - intros s Hs. split; [|eapply IQ; [exact Hs|reflexivity|reflexivity]].
          destruct Hs as ((new & D) & Hf). split; [|exact Hf]. exists new. destruct D. split; assumption.
        - intros s1 s2 ((new & D) & Hf) E. pose proof (iterate_spec repair jacobian_ok linear_solver p ls s1) as S1.
          rewrite E in S1. destruct S1 as (e & S1 & Hit & _). split.
          + exists (e :: new). eapply step_keeps; eassumption.
          + rewrite (st_first _ _ _ _ S1). exact Hf.
        - intros s1 f s2 HI E. pose proof (iterate_spec repair jacobian_ok linear_solver p ls s1) as S1.
          rewrite E in S1. destruct S1 as (_ & Ef & [(L & T & _)|(e & S1)]).
          + eapply IQ; eauto.
          + destruct HI as ((new & D) & Hf).
            set (s3 := mkrun (vecs s2) (matrix s2) (reassembled s2) (previous s2) (first s2) (converged s2)
                             (S (iterations s1)) (result_reduction s2) (linear_its s2) (log s2)).
            assert (D3 : during (e :: new) s3).
            { eapply step_keeps; [exact D| |reflexivity]. destruct S1. split; assumption. }
            eapply (IQ s3); [|reflexivity|reflexivity]. split; [eauto|]. cbn [s3 first]. rewrite Ef. exact Hf.
        - intros c U. apply update_normal in U. destruct U as (Us & Uc & _). cbn [sol] in Us. split.
          + exists []. split; cbn; auto; try discriminate; try contradiction.
          + unfold F. rewrite <- Us. apply Uc. }
      destruct o as [s'|f s']; cbn [final].
      - destruct X as (s1 & H1 & -> & _). eapply IQ; [exact H1|rewrite end_log|rewrite end_first]; reflexivity.
      - destruct X as [X|(c & _ & ->)]; [exact X|]. exists []. split; [reflexivity|]. split; [|contradiction].
        split; [exact Logic.I|contradiction|contradiction].
    Qed.
  End Call.

  (** Reuse of the matrix over a history of calls. *)
  Definition linked (st : option (option (list V)) * list event) : Prop :=
    reuse_justified (snd st) /\
    (forall l, fst st = Some (Some l) -> exists e before, snd st = e :: before /\ e_matrix e = Some l).

  Lemma reuse_cons e (l : list event) : reuse_justified l ->
    (e_reuse e = true -> e_matrix e <> None -> exists e' before', l = e' :: before' /\ e_matrix e' = e_matrix e) ->
    reuse_justified (e :: l).
  Proof.
    intros H He [|a later] e1 before Eq; cbn [app] in Eq; injection Eq as E1 E2.
    - subst. exact He.
    - subst. eapply H. reflexivity.
  Qed.

  Lemma linked_step p (s s' : run) e : matrix_free p = false -> linked (matrix s, log s) -> step_ok p s s' e ->
    linked (matrix s', log s').
  Proof.
    intros Hm (R & K) S1. pose proof (st_event _ _ _ _ S1) as E. cbn [fst snd] in R, K.
    assert (EM := ev_matrix _ _ _ E). rewrite Hm in EM.
    unfold linked. cbn [fst snd]. rewrite (st_log _ _ _ _ S1), (st_matrix _ _ _ _ S1), Hm. cbn [negb andb].
    split.
    - apply reuse_cons; [exact R|]. rewrite (ev_reuse _ _ _ E), Hm. cbn [negb andb].
      destruct (must_reassemble p s) eqn:M; [discriminate|]. intros _. rewrite EM. unfold held.
      destruct (matrix s) as [[l|]|] eqn:Q; try congruence. intros _. apply K. reflexivity.
    - intros l. destruct (must_reassemble p s) eqn:M.
      + intros Q. injection Q as Q. eauto.
      + intros Q. exists e, (log s). split; [reflexivity|]. rewrite EM, Q. reflexivity.
  Qed.

  Lemma linked_call p ls m tr x o : matrix_free p = false -> linked (m, tr) -> apply p ls m tr x = Some o ->
    linked (matrix (final o), log (final o)).
  Proof.
    intros Hm L A. set (I := fun s : run => linked (matrix s, log s)).
    pose proof (apply_inv repair residual jacobian_ok norm r0 linear_solver p ls m tr x I I) as H. rewrite A in H.
    assert (X : match o with
                | Normal s' => exists s1 : run, I s1 /\ s' = end_loop p (set_converged true s1) /\
                               criterion p (first s1) (defect (vecs s1))
                | Raised f s' => I s' \/ exists c, update_defect repair residual norm p (mkcore x r0 (Fin 0) []) = Raised f c /\
                  s' = mkrun c m true (Fin 0) (Fin 0) false 0 (Fin 0) 0 tr end).
    { apply H; clear H.
      - intros s Hs. split; exact Hs.
      - intros s1 s2 H1 E. pose proof (iterate_spec repair jacobian_ok linear_solver p ls s1) as S1.
        rewrite E in S1. destruct S1 as (e & S1 & _). eapply linked_step; eassumption.
      - intros s1 f s2 H1 E. pose proof (iterate_spec repair jacobian_ok linear_solver p ls s1) as S1.
        rewrite E in S1. destruct S1 as (_ & _ & [(Lg & _ & Mt)|(e & S1)]); [|eapply linked_step; eassumption].
        unfold I. rewrite Lg, Mt. split; [apply H1|]. discriminate.
      - intros c U. unfold I, begin_loop. cbn [matrix log]. rewrite Hm. destruct m as [k|]; [exact L|].
        split; [apply L|]. discriminate. }
    destruct o as [s'|f s']; cbn [final].
    - destruct X as (s1 & H1 & -> & _). rewrite end_log. unfold end_loop. destruct (_ || _); [exact H1|].
      cbn [set_matrix set_converged matrix log]. split; [apply H1|]. discriminate.
    - destruct X as [X|(c & _ & ->)]; [exact X|exact L].
  Qed.

  Theorem history_reuse ks : (forall k, In k ks -> matrix_free (options k) = false) ->
    reuse_justified (snd (history repair residual jacobian_ok norm r0 linear_solver ks)).
  Proof.
    intros H. unfold history. cut (forall st, linked st -> linked (fold_left (one_call repair residual jacobian_ok norm r0 linear_solver) ks st)).
    { intros C. apply C. split; [|discriminate]. intros later e before Q. destruct later; discriminate. }
    induction ks as [|k ks IH]; intros st L; [exact L|]. cbn [fold_left]. apply IH; [intros; apply H; right; assumption|].
    unfold one_call. destruct (NewtonModel.apply _ _ _ _ _ _ _ _ _ _ _) as [o|] eqn:A; [|exact L].
    eapply linked_call; [apply H; left; reflexivity| |exact A].
    destruct st as (m & tr). cbn [fst snd] in *. destruct (discard k); [|exact L]. split; [apply L|discriminate].
  Qed.
End Newton.
