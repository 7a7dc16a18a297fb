(** Proofs for C177. *)
From Coq Require Import Reals Lra FunctionalExtensionality.
From Verif Require Import Common CommonFacts MfbModel MfbSpec.

Section facts.
  Variable lin : bool.
  Variable assemble : option vec -> vec -> vec.
  Variable blocks : Type.
  Variable setup : option vec -> blocks.
  Variable precondition : blocks -> option vec -> vec -> vec.
  Variable solver : vec -> vec -> prog.

  Notation state := (state blocks).
  Notation run := (run lin assemble blocks precondition).
  Notation step := (step lin assemble blocks setup precondition solver).
  Notation backend_apply := (backend_apply lin assemble blocks setup precondition solver).
  Notation pre := (pre lin blocks setup).

  Lemma zero_plus (f : vec) : (fun i => (zero_vec i + f i)%R) = f.
  Proof. apply functional_extensionality; intro i; unfold zero_vec; ring. Qed.

  (** The point that operator and preconditioner see. *)
  Definition seen (H : store) (s : state) (q : option vec) : Prop :=
    if lin then q = None else
    exists a u, op_point s = Some a /\ prec_point s = Some a /\ H a = Some u /\ q = Some u.

  Lemma run_result H s q c p : seen H s q -> cache s = Some c -> require_setup s = false ->
    run H s p = Ok (result (assemble q) (precondition c q) p).
  Proof.
    intros Hq Hc Hr. induction p as [z|x k IH|alpha x y k IH|d k IH]; cbn [MfbModel.run result].
    - reflexivity.
    - assert (E : fly_apply lin assemble H (op_point s) x zero_vec = Ok (assemble q x)).
      { unfold fly_apply, seen in *. destruct lin.
        - subst q. unfold jacobian_apply_linear; cbn [negb]. now rewrite zero_plus.
        - destruct Hq as (a & u & Ha & _ & Hu & ->). rewrite Ha. unfold deref. rewrite Hu. cbn [bind].
          unfold jacobian_apply_nonlinear. now rewrite zero_plus. }
      rewrite E. cbn [bind]. apply IH.
    - assert (E : fly_applyscaleadd lin assemble H (op_point s) alpha x y = Ok (fun i => y i + alpha * assemble q x i)%R).
      { unfold fly_applyscaleadd, seen in *. destruct lin.
        - subst q. unfold jacobian_apply_linear; cbn [negb bind]. now rewrite zero_plus.
        - destruct Hq as (a & u & Ha & _ & Hu & ->). rewrite Ha. unfold deref. rewrite Hu. cbn [bind].
          unfold jacobian_apply_nonlinear. cbn [bind]. now rewrite zero_plus. }
      rewrite E. cbn [bind]. apply IH.
    - assert (E : prec_apply lin blocks precondition H s d zero_vec = Ok (precondition c q d)).
      { unfold prec_apply, seen in *. rewrite Hc, Hr. destruct lin.
        - subst q. now rewrite zero_plus.
        - destruct Hq as (a & u & _ & Ha & Hu & ->). rewrite Ha. unfold deref. rewrite Hu. cbn [bind]. now rewrite zero_plus. }
      rewrite E. cbn [bind]. apply IH.
  Qed.

  Lemma pre_seen H s q : seen H s q ->
    pre H s = Ok (if require_setup s then State (op_point s) (prec_point s) false (Some (setup q)) else s).
  Proof.
    unfold seen, MfbModel.pre. intro Hq. destruct lin; cbn [negb andb].
    - subst q. destruct (require_setup s); reflexivity.
    - destruct Hq as (a & u & _ & Ha & Hu & ->). rewrite Ha. destruct (require_setup s); [|reflexivity].
      unfold deref. rewrite Hu. reflexivity.
  Qed.

  (** The blocks that a solve uses. *)
  Lemma backend_seen H s q z r :
    seen H s q -> (require_setup s = false -> cache s <> None) ->
    exists c, (require_setup s = true -> c = setup q) /\ (require_setup s = false -> cache s = Some c) /\
      backend_apply H s z r = Ok (State (op_point s) (prec_point s) false (Some c),
                                  result (assemble q) (precondition c q) (solver z r)).
  Proof.
    intros Hq Hc. unfold MfbModel.backend_apply. rewrite (pre_seen _ _ _ Hq). cbn [bind].
    destruct (require_setup s) eqn:Er.
    - exists (setup q). split; [auto|]. split; [discriminate|].
      rewrite run_result with (q := q) (c := setup q); auto.
    - destruct (cache s) as [c|] eqn:Ec; [|now destruct Hc]. exists c. split; [discriminate|]. split; [auto|].
      rewrite run_result with (q := q) (c := c); auto. cbn [bind]. destruct s; cbn in *; subst; reflexivity.
  Qed.

  (** Invariant of histories; newest call first in [h]. *)
  Definition inv (h : list op) (Hs : store * state) : Prop :=
    let '(H, s) := Hs in
    (forall a, H a = content h a) /\ op_point s = last_point h /\ prec_point s = last_point h /\
    (fresh h -> require_setup s = true) /\ (require_setup s = false -> cache s <> None).

  Lemma inv_init : inv [] ((fun _ => None), init).
  Proof. cbn. repeat split; auto; discriminate. Qed.

  Lemma seen_of H s h : inv h (H, s) ->
    forall q, (if lin then q = None else exists a, last_point h = Some a /\ content h a = q /\ q <> None) -> seen H s q.
  Proof.
    intros (HC & HO & HP & _) q Hq. unfold seen. destruct lin; [exact Hq|].
    destruct Hq as (a & Ha & Hu & Hn). destruct q as [u|]; [|congruence]. exists a, u.
    rewrite HO, HP, HC. auto.
  Qed.

  (** A solve that succeeds has seen its point. *)
  Lemma pre_ok H s s' : pre H s = Ok s' ->
    op_point s' = op_point s /\ prec_point s' = prec_point s /\ require_setup s' = false /\
    ((require_setup s = true /\ cache s' <> None) \/ (require_setup s = false /\ s' = s)).
  Proof.
    unfold MfbModel.pre. destruct (negb lin && _); [discriminate|]. destruct (require_setup s) eqn:Er.
    - destruct lin; cbn [bind].
      + intros [= <-]. cbn. repeat split; auto. left; split; [auto|discriminate].
      + destruct (prec_point s) as [a|]; [|discriminate]. unfold deref. destruct (H a); [|discriminate]. cbn [bind].
        intros [= <-]. cbn. repeat split; auto. left; split; [auto|discriminate].
    - intros [= <-]. auto 6.
  Qed.

  Lemma inv_step h Hs o Hs' : inv h Hs -> step Hs o = Ok Hs' -> inv (o :: h) Hs'.
  Proof.
    destruct Hs as [H s]. intros (HC & HO & HP & HF & HB). destruct o as [a v|a|a| |z r]; cbn [MfbModel.step].
    - intros [= <-]. cbn. repeat split; auto. intro b. unfold put. destruct (b =? a); auto.
    - intros [= <-]. cbn. repeat split; auto. intro b. unfold put. destruct (b =? a); auto.
    - destruct (H a); [|discriminate]. intros [= <-]. cbn. repeat split; auto.
    - intros [= <-]. cbn. repeat split; auto. discriminate.
    - unfold MfbModel.backend_apply. destruct (pre H s) as [s1| |] eqn:Ep; cbn [bind]; try discriminate.
      destruct (run H s1 _); cbn [bind]; try discriminate. intros [= <-]. cbn.
      destruct (pre_ok _ _ _ Ep) as (E1 & E2 & E3 & E4). rewrite E1, E2. split; [auto|]. split; [auto|]. split; [auto|]. split; [tauto|].
      intros _. destruct E4 as [[_ E4]|[E4 ->]]; auto.
  Qed.

  Lemma inv_history h Hs0 l Hs : inv h Hs0 -> foldM step l Hs0 = Ok Hs -> inv (rev l ++ h) Hs.
  Proof.
    revert h Hs0. induction l as [|o l IH]; intros h Hs0 HI; cbn [foldM rev].
    - intros [= <-]. exact HI.
    - destruct (step Hs0 o) as [Hs1| |] eqn:Es; cbn [bind]; try discriminate.
      intro HF. rewrite <- app_assoc. cbn [app]. apply (IH (o :: h) Hs1); [|exact HF]. eapply inv_step; eauto.
  Qed.

  (** Without a demand the blocks stay. *)
  Lemma cache_step Hs o Hs' c : no_demand o -> step Hs o = Ok Hs' ->
    require_setup (snd Hs) = false -> cache (snd Hs) = Some c ->
    require_setup (snd Hs') = false /\ cache (snd Hs') = Some c.
  Proof.
    destruct Hs as [H s]. destruct o as [a v|a|a| |z r]; cbn [MfbModel.step no_demand]; try tauto; intros _.
    - intros [= <-]; cbn; auto.
    - intros [= <-]; cbn; auto.
    - destruct (H a); [|discriminate]. intros [= <-]; cbn; auto.
    - unfold MfbModel.backend_apply. destruct (pre H s) as [s1| |] eqn:Ep; cbn [bind]; try discriminate.
      destruct (run H s1 _); cbn [bind]; try discriminate. intros [= <-]. cbn. intros Hr Hc.
      destruct (pre_ok _ _ _ Ep) as (_ & _ & E3 & E4). split; [auto|]. destruct E4 as [[E4 _]|[_ ->]]; congruence.
  Qed.
  Lemma cache_history l Hs Hs' c : Forall no_demand l -> foldM step l Hs = Ok Hs' ->
    require_setup (snd Hs) = false -> cache (snd Hs) = Some c ->
    require_setup (snd Hs') = false /\ cache (snd Hs') = Some c.
  Proof.
    revert Hs. induction l as [|o l IH]; intros Hs HF; cbn [foldM].
    - intros [= <-]; auto.
    - destruct (step Hs o) as [Hs1| |] eqn:Es; cbn [bind]; try discriminate. intros E Hr Hc.
      inversion HF; subst. destruct (cache_step _ _ _ _ H1 Es Hr Hc). eapply IH; eauto.
  Qed.
End facts.
