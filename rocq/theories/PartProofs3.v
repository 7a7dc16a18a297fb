(** Proofs about the colouring of the graph of patches. *)
From Verif Require Import Common CommonFacts PartModel PartSpec PartProofs2.

(** ** The priority queue *)

Lemma key_eqb_eq k l : key_eqb k l = true <-> k = l.
Proof.
  destruct k as [[a b] c], l as [[a' b'] c']. unfold key_eqb. cbn [fst snd].
  rewrite !andb_true_iff, !Nat.eqb_eq. intuition congruence.
Qed.

Lemma in_qins k l : forall q, In l (qins k q) <-> l = k \/ In l q.
Proof.
  induction q as [|x q IH]; cbn [qins In].
  - intuition.
  - destruct (key_gtb k x); [cbn; intuition|]. destruct (key_eqb k x) eqn:E.
    + apply key_eqb_eq in E. subst. cbn. intuition.
    + cbn [In]. rewrite IH. intuition.
Qed.

Lemma qins_length k : forall q, ~ In k q -> length (qins k q) = S (length q).
Proof.
  induction q as [|x q IH]; intro H; cbn [qins]; auto.
  destruct (key_gtb k x); auto. destruct (key_eqb k x) eqn:E.
  - apply key_eqb_eq in E. subst. exfalso. apply H. now left.
  - cbn [length]. rewrite IH; auto. intro. apply H. now right.
Qed.

Lemma qins_nodup k : forall q, ~ In k q -> NoDup q -> NoDup (qins k q).
Proof.
  induction q as [|x q IH]; intros N H; cbn [qins].
  - repeat constructor. intros [].
  - destruct (key_gtb k x); [now constructor|]. destruct (key_eqb k x); [auto|].
    inversion H; subst. constructor.
    + rewrite in_qins. intros [->|]; auto. apply N. now left.
    + apply IH; auto. intro. apply N. now right.
Qed.

Lemma qerase_spec k : forall q, NoDup q -> In k q ->
  exists q', qerase k q = Ok q' /\ NoDup q' /\ S (length q') = length q
    /\ forall l, In l q' <-> In l q /\ l <> k.
Proof.
  induction q as [|x q IH]; intros N H; [destruct H|].
  inversion N; subst. cbn [qerase]. destruct (key_eqb k x) eqn:E.
  - apply key_eqb_eq in E. subst x. exists q. repeat split; auto.
    + now right.
    + intros ->. contradiction.
    + intros [[->|]]; auto. congruence.
  - assert (k <> x) by (intro; apply key_eqb_eq in H0; congruence).
    destruct H as [->|H]; [congruence|].
    destruct (IH H3 H) as (q' & E1 & E2 & E3 & E4). rewrite E1. cbn [bind].
    eexists. split; [reflexivity|]. split.
    { constructor; auto. rewrite E4. intuition. }
    split; [cbn; lia|]. intro l. cbn [In]. rewrite E4. intuition. subst. auto.
Qed.

(** ** Colour flags *)

Lemma set_used_spec b c : forall row u,
  (forall nb, In nb row -> nb < length c) ->
  (forall v x, nth v c None = Some x -> x < length u) ->
  exists u', foldM (set_used b c) row u = Ok u' /\ length u' = length u
    /\ forall x, x < length u ->
         (nth x u' false = b <-> nth x u false = b \/ exists nb, In nb row /\ nth nb c None = Some x).
Proof.
  induction row as [|nb row IH]; intros u Hr Hc.
  - cbn. exists u. repeat split; auto. intros [|(? & [] & _)]; auto.
  - cbn [foldM]. unfold set_used at 1.
    assert (Lnb : nb < length c) by (apply Hr; now left).
    destruct (nth_error c nb) as [o|] eqn:E.
    2:{ apply nth_error_None in E. lia. }
    assert (En : nth nb c None = o) by (now apply nth_error_nth).
    destruct o as [x|].
    + assert (Lx : x < length u) by eauto.
      apply Nat.ltb_lt in Lx as Lb. rewrite Lb. cbn [bind].
      destruct (IH (upd x b u)) as (u' & E1 & E2 & E3).
      { intros. apply Hr. now right. } { intros. rewrite upd_length. eauto. }
      rewrite upd_length in E2, E3. exists u'. split; [auto|]. split; [auto|].
      intros y Ly. rewrite E3 by auto. destruct (Nat.eq_dec y x) as [->|N].
      * rewrite upd_nth_same by auto. split; auto. intros _. right. exists nb. split; auto. now left.
      * rewrite upd_nth_other by auto. split.
        -- intros [|(w & Hw & ?)]; auto. right. exists w. split; auto. now right.
        -- intros [|(w & [<-|Hw] & Ew)]; auto; [congruence|]. right. eauto.
    + cbn [bind]. destruct (IH u) as (u' & E1 & E2 & E3); auto.
      { intros. apply Hr. now right. }
      exists u'. split; [auto|]. split; [auto|]. intros y Ly. rewrite E3 by auto. split.
      * intros [|(w & Hw & ?)]; auto. right. exists w. split; auto. now right.
      * intros [|(w & [<-|Hw] & Ew)]; auto; [congruence|]. right. eauto.
Qed.

Lemma lowest_spec : forall u,
  (forall i, i < lowest_unused u -> nth i u false = true)
  /\ (lowest_unused u < length u -> nth (lowest_unused u) u false = false)
  /\ lowest_unused u <= length u.
Proof.
  induction u as [|[|] u IH]; cbn [lowest_unused length].
  - split; [lia|]. split; lia.
  - destruct IH as (I1 & I2 & I3). split; [|split].
    + intros [|i] H; cbn [nth]; auto. apply I1. lia.
    + intro H. cbn [nth]. apply I2. lia.
    + lia.
  - split; [lia|]. split; [auto|lia].
Qed.

(** ** Invariant of the loop *)

Section Loop.
Variable g : list (list nat).
Notation n := (length g).
Hypothesis bounded : forall v w, In w (nth v g []) -> v < n /\ w < n.
Hypothesis symmetric : forall v w, In w (nth v g []) -> In v (nth w g []).

Definition qok (c : list (option nat)) (dg : list nat) (ad : list (list nat)) (q : list qkey) : Prop :=
  length dg = n /\ length ad = n /\ NoDup q
  /\ (forall v, v < n -> nth v c None = None -> In (length (nth v ad []), nth v dg 0, v) q)
  /\ (forall k, In k q -> exists v, v < n /\ nth v c None = None
                          /\ k = (length (nth v ad []), nth v dg 0, v)).

Record inv (st : cstate) : Prop := {
  i_col : length (col st) = n;
  i_used : length (used st) = n;
  i_clean : forall x, nth x (used st) false = false;
  i_queue : qok (col st) (deg st) (adj st) (queue st);
  i_proper : forall u v a b, In v (nth u g []) -> u <> v ->
      nth u (col st) None = Some a -> nth v (col st) None = Some b -> a <> b;
  i_low : forall v c, nth v (col st) None = Some c ->
      c < n /\ c <= maxc st
      /\ forall c', c' < c -> exists u, In u (nth v g []) /\ u <> v /\ nth u (col st) None = Some c';
  i_max : maxc st = 0 \/ exists v, nth v (col st) None = Some (maxc st)
}.

(** Requeueing the neighbours keeps the queue consistent. *)
Lemma requeue_spec c t : length c = n -> forall row dg ad q,
  (forall nb, In nb row -> nb < n) -> qok c dg ad q ->
  exists dg' ad' q', foldM (requeue c t) row (dg, ad, q) = Ok (dg', ad', q')
    /\ qok c dg' ad' q' /\ length q' = length q.
Proof.
  intro Lc. induction row as [|nb row IH]; intros dg ad q Hr Q.
  - cbn. eauto 10.
  - assert (Lnb : nb < n) by (apply Hr; now left).
    assert (Hr' : forall x, In x row -> x < n) by (intros; apply Hr; now right).
    cbn [foldM]. unfold requeue at 1.
    destruct (nth_error c nb) as [o|] eqn:E.
    2:{ apply nth_error_None in E. lia. }
    assert (En : nth nb c None = o) by (now apply nth_error_nth).
    destruct o as [x|].
    + cbn [bind]. apply IH; auto.
    + destruct Q as (Q1 & Q2 & Q3 & Q4 & Q5).
      destruct (qerase_spec (length (nth nb ad []), nth nb dg 0, nb) q Q3) as (q1 & E1 & E2 & E3 & E4).
      { apply Q4; auto. }
      rewrite E1. cbn [bind].
      set (ad' := row_add nb t ad). set (dg' := upd nb ((nth nb dg 0 + 255) mod 256) dg).
      set (k' := (length (nth nb ad' []), nth nb dg' 0, nb)).
      assert (Hother : forall v, v <> nb -> nth v ad' [] = nth v ad [] /\ nth v dg' 0 = nth v dg 0).
      { intros v N. unfold ad', dg', row_add. split; apply upd_nth_other; auto. }
      assert (Nk : ~ In k' q1).
      { rewrite E4. intros [Hk N]. destruct (Q5 _ Hk) as (v & Hv & _ & Ek).
        assert (v = nb) by (unfold k' in Ek; congruence). subst v. apply N. exact Ek. }
      destruct (IH dg' ad' (qins k' q1)) as (dg2 & ad2 & q2 & F1 & F2 & F3).
      { auto. }
      { split; [unfold dg'; now rewrite upd_length|].
        split; [unfold ad'; now rewrite row_add_length|].
        split; [now apply qins_nodup|]. split.
        - intros v Hv Ev. apply in_qins. destruct (Nat.eq_dec v nb) as [->|N]; [now left|].
          right. destruct (Hother v N) as [-> ->]. apply E4. split; [auto|]. congruence.
        - intros k Hk. apply in_qins in Hk as [->|Hk].
          + exists nb. auto.
          + apply E4 in Hk as [Hk N]. destruct (Q5 _ Hk) as (v & Hv & Ev & ->).
            exists v. repeat split; auto. destruct (Nat.eq_dec v nb) as [->|Nv]; [congruence|].
            destruct (Hother v Nv) as [-> ->]. reflexivity. }
      exists dg2, ad2, q2. split; [exact F1|]. split; [exact F2|].
      rewrite F3, qins_length by auto. lia.
Qed.

(** The colours of the coloured neighbours cannot fill the whole range. *)
Lemma colours_room (c : list (option nat)) node t :
  length c = n -> node < n ->
  (forall x, x < t -> exists u, u < n /\ u <> node /\ nth u c None = Some x) -> t < n.
Proof.
  intros Lc Hn H.
  assert (G : forall k, k <= t -> exists us, length us = k /\ NoDup us
              /\ (forall u, In u us -> u < n /\ u <> node
                   /\ exists x, x < k /\ nth u c None = Some x)).
  { induction k as [|k IH]; intro Hk.
    - exists []. split; [auto|]. split; [constructor|]. intros u [].
    - destruct IH as (us & U1 & U2 & U3); [lia|].
      destruct (H k) as (u & Hu & Nu & Eu); [lia|].
      exists (u :: us). split; [cbn; lia|]. split.
      + constructor; auto. intro I. destruct (U3 _ I) as (_ & _ & x & Hx & Ex). 
        assert (x = k) by congruence. lia.
      + intros w [<-|I].
        * repeat split; auto. exists k. split; [lia|auto].
        * destruct (U3 _ I) as (A & B & x & Hx & Ex). repeat split; auto. exists x. split; [lia|auto]. }
  destruct (G t) as (us & U1 & U2 & U3); auto.
  assert (L : length (node :: us) <= length (seq 0 n)).
  { apply NoDup_incl_length.
    - constructor; auto. intro I. destruct (U3 _ I) as (_ & N & _). congruence.
    - intros w [<-|I]; apply in_seq; [lia|]. destruct (U3 _ I) as (? & _). lia. }
  rewrite seq_length in L. cbn [length] in L. lia.
Qed.

Lemma colour_node_spec st k q : inv st -> queue st = k :: q ->
  exists st', colour_node g st (kvertex k) q = Ok st' /\ inv st' /\ length (queue st') = length q.
Proof.
  intros [I1 I2 I3 I4 I5 I6 I7] Eq.
  destruct I4 as (Q1 & Q2 & Q3 & Q4 & Q5). rewrite Eq in *.
  destruct (Q5 k) as (node & Hn & En & Ek); [now left|].
  assert (Kv : kvertex k = node) by (subst k; reflexivity). rewrite Kv.
  unfold colour_node.
  set (row := nth node g []).
  assert (Hrow : forall nb, In nb row -> nb < length (col st)).
  { intros nb H. rewrite I1. now apply (bounded node). }
  destruct (set_used_spec true (col st) row (used st) Hrow) as (u1 & E1 & L1 & S1).
  { intros v x Hx. rewrite I2. now apply (I6 v). }
  rewrite E1. cbn [bind].
  set (t := lowest_unused u1).
  destruct (set_used_spec false (col st) row u1 Hrow) as (u2 & E2 & L2 & S2).
  { intros v x Hx. rewrite L1, I2. now apply (I6 v). }
  rewrite E2. cbn [bind].
  destruct (lowest_spec u1) as (T1 & T2 & T3). fold t in T1, T2, T3.
  assert (Tn : forall x, x < t -> exists u, In u row /\ u <> node /\ nth u (col st) None = Some x).
  { intros x Hx. assert (Lx : x < length (used st)) by lia.
    destruct (proj1 (S1 x Lx) (T1 x Hx)) as [F|(nb & Hb & Eb)].
    - rewrite I3 in F. discriminate.
    - exists nb. repeat split; auto. intros ->. congruence. }
  assert (Ht : t < n).
  { apply (colours_room (col st) node t); auto.
    intros x Hx. destruct (Tn x Hx) as (u & Hu & Nu & Eu). exists u. repeat split; auto.
    rewrite <- I1. auto. }
  assert (Tfree : forall nb, In nb row -> nth nb (col st) None <> Some t).
  { intros nb Hb Eb. assert (Lt : t < length u1) by lia. specialize (T2 Lt).
    assert (F : nth t u1 false = true).
    { apply S1; [lia|]. right. eauto. }
    congruence. }
  set (c' := upd node (Some t) (col st)).
  assert (Lc' : length c' = n) by (unfold c'; now rewrite upd_length).
  assert (Csame : nth node c' None = Some t) by (unfold c'; apply upd_nth_same; lia).
  assert (Cother : forall v, v <> node -> nth v c' None = nth v (col st) None).
  { intros v N. unfold c'. apply upd_nth_other. auto. }
  assert (Nk : ~ In k q) by (now inversion Q3).
  destruct (requeue_spec c' t Lc' row (deg st) (adj st) q) as (dg & ad & q' & E3 & Qk & Lq).
  { intros nb H. rewrite <- I1. auto. }
  { split; [auto|]. split; [auto|]. split; [now inversion Q3|]. split.
    - intros v Hv Ev. destruct (Nat.eq_dec v node) as [->|N]; [congruence|].
      rewrite Cother in Ev by auto. destruct (Q4 v Hv Ev) as [F|]; auto. congruence.
    - intros l Hl. destruct (Q5 l) as (v & Hv & Ev & El); [now right|].
      exists v. repeat split; auto. destruct (Nat.eq_dec v node) as [->|N]; [|now rewrite Cother].
      exfalso. apply Nk. congruence. }
  rewrite E3. cbn [bind].
  eexists. split; [reflexivity|]. cbn [queue]. split; [|auto].
  constructor; cbn [col deg adj used maxc queue]; auto; try lia.
  - intro x. destruct (Nat.lt_ge_cases x n) as [Lx|Lx].
    2:{ apply nth_overflow. lia. }
    apply S2; [lia|]. destruct (nth x u1 false) eqn:F; auto. right.
    apply S1 in F; [|lia]. destruct F as [F|F]; auto. rewrite I3 in F. discriminate.
  - intros u v a b Huv N Eu Ev.
    destruct (Nat.eq_dec u node) as [->|Nu].
    + rewrite Csame in Eu. injection Eu as <-. rewrite Cother in Ev by auto.
      intros <-. now apply (Tfree v).
    + rewrite Cother in Eu by auto. destruct (Nat.eq_dec v node) as [->|Nv].
      * rewrite Csame in Ev. injection Ev as <-. intros ->.
        apply (Tfree u); auto. now apply symmetric.
      * rewrite Cother in Ev by auto. eapply I5; eauto.
  - intros v c Hc. destruct (Nat.eq_dec v node) as [->|N].
    + rewrite Csame in Hc. injection Hc as <-. repeat split; auto; [lia|].
      intros x Hx. destruct (Tn x Hx) as (u & Hu & Nu & Eu). exists u. repeat split; auto.
      now rewrite Cother.
    + rewrite Cother in Hc by auto. destruct (I6 v c Hc) as (A & B & C). repeat split; auto; [lia|].
      intros x Hx. destruct (C x Hx) as (u & Hu & Nu & Eu). exists u. repeat split; auto.
      rewrite Cother; auto. intros ->. congruence.
  - destruct (Nat.max_spec (maxc st) t) as [[L ->]|[L ->]].
    + right. eauto.
    + destruct I7 as [I7|(v & Ev)]; auto. right. exists v. rewrite Cother; auto.
      intros ->. congruence.
Qed.

Lemma colour_loop_spec : forall fuel st, inv st -> length (queue st) <= fuel ->
  exists st', colour_loop fuel g st = Ok st' /\ inv st' /\ queue st' = [].
Proof.
  induction fuel as [|f IH]; intros st I L; cbn [colour_loop]; destruct (queue st) as [|k q] eqn:E.
  - eauto.
  - cbn in L. lia.
  - eauto.
  - destruct (colour_node_spec st k q I E) as (st1 & -> & I1 & L1). cbn [bind].
    apply IH; auto. cbn in L. lia.
Qed.

(** Initialisation. *)
Lemma init_fold : forall l dg q,
  (forall v, In v l -> v < n /\ length (nth v g []) < max_degree) -> NoDup l ->
  length dg = n -> NoDup q -> (forall k, In k q -> ~ In (kvertex k) l) ->
  exists dg' q', foldM (init_vertex g) l (dg, q) = Ok (dg', q')
    /\ length dg' = n /\ NoDup q' /\ length q' = length q + length l
    /\ (forall k, In k q' <-> In k q \/ exists v, In v l /\ k = (0, length (nth v g []), v))
    /\ (forall v, nth v dg' 0 = if in_dec Nat.eq_dec v l then length (nth v g []) else nth v dg 0).
Proof.
  induction l as [|v l IH]; intros dg q Hl Nl Ld Nq Hq.
  - cbn. exists dg, q. repeat split; auto; try lia. intros [|(? & [] & _)]; auto.
  - inversion Nl as [|? ? Nv Nl']; subst. cbn [foldM]. unfold init_vertex at 1. cbn [fst snd].
    destruct (Hl v) as [Lv Dv]; [now left|].
    destruct (max_degree <=? length (nth v g [])) eqn:E.
    { apply Nat.leb_le in E. lia. }
    cbn [bind].
    set (k := (0, length (nth v g []), v)).
    assert (Nk : ~ In k q).
    { intro I. apply (Hq _ I). now left. }
    destruct (IH (upd v (length (nth v g [])) dg) (qins k q)) as (dg' & q' & E1 & E2 & E3 & E4 & E5 & E6); auto.
    { intros w Hw. apply Hl. now right. }
    { now rewrite upd_length. }
    { now apply qins_nodup. }
    { intros x Hx. apply in_qins in Hx as [->|Hx]; [exact Nv|].
      intro I. apply (Hq _ Hx). now right. }
    exists dg', q'. split; [exact E1|]. split; [auto|]. split; [auto|]. split.
    { rewrite E4, qins_length by auto. cbn. lia. }
    split.
    + intro x. rewrite E5, in_qins. split.
      * intros [[->|]|(w & Hw & ->)]; auto; right; eexists; split; try reflexivity; auto;
          [now left|now right].
      * intros [|(w & [<-|Hw] & ->)]; auto. right. eauto.
    + intro w. rewrite E6. cbn [in_dec].
      destruct (in_dec Nat.eq_dec w l) as [I|I]; destruct (in_dec Nat.eq_dec w (v :: l)) as [J|J]; auto.
      * exfalso. apply J. now right.
      * destruct J as [<-|J]; [|contradiction]. apply upd_nth_same. lia.
      * apply upd_nth_other. intro. subst. apply J. now left.
Qed.

Lemma init_spec : (forall v, v < n -> length (nth v g []) < max_degree) ->
  exists st, init_state g = Ok st /\ inv st /\ length (queue st) = n.
Proof.
  intro D. unfold init_state.
  destruct (init_fold (seq 0 n) (repeat 0 n) []) as (dg & q & E1 & E2 & E3 & E4 & E5 & E6).
  { intros v Hv. apply in_seq in Hv. split; [lia|]. apply D. lia. }
  { apply seq_NoDup. } { apply repeat_length. } { constructor. } { intros k []. }
  rewrite E1. cbn [bind fst snd]. eexists. split; [reflexivity|].
  rewrite seq_length in E4. cbn [queue]. split; [|auto].
  assert (Ed : forall v, v < n -> nth v dg 0 = length (nth v g [])).
  { intros v Hv. rewrite E6. destruct (in_dec Nat.eq_dec v (seq 0 n)) as [|N]; auto.
    exfalso. apply N. apply in_seq. lia. }
  constructor; cbn [col deg adj used maxc queue]; try apply repeat_length; auto.
  - intro x. apply nth_repeat.
  - split; [auto|]. split; [apply repeat_length|]. split; [auto|]. split.
    + intros v Hv _. apply E5. right. exists v. split; [apply in_seq; lia|].
      rewrite nth_repeat, Ed by auto. reflexivity.
    + intros k Hk. apply E5 in Hk as [[]|(v & Hv & ->)]. apply in_seq in Hv.
      exists v. rewrite !nth_repeat, Ed by lia. repeat split; auto. lia.
  - intros u v a b _ _ Eu. rewrite nth_repeat in Eu. discriminate.
  - intros v c Ev. rewrite nth_repeat in Ev. discriminate.
Qed.

Lemma init_throws : (exists v, v < n /\ max_degree <= length (nth v g [])) -> init_state g = Throw.
Proof.
  intros (v & Hv & D). unfold init_state.
  enough (G : forall l st, In v l -> foldM (init_vertex g) l st = Throw).
  { rewrite G by (apply in_seq; lia). reflexivity. }
  induction l as [|w l IH]; intros st H; [destruct H|]. cbn [foldM].
  unfold init_vertex at 1. destruct (max_degree <=? length (nth w g [])) eqn:E; [reflexivity|].
  cbn [bind]. destruct H as [->|H]; auto. apply Nat.leb_gt in E. lia.
Qed.

(** The result of the colouring. *)
Lemma make_colors_spec : (forall v, v < n -> length (nth v g []) < max_degree) ->
  exists c k, make_colors g = Ok (c, k) /\ length c = n
    /\ (forall v, v < n -> exists x, nth_error c v = Some (Some x) /\ x < k
          /\ forall x', x' < x -> exists u, In u (nth v g []) /\ u <> v /\ nth_error c u = Some (Some x'))
    /\ (forall u v x, In v (nth u g []) -> u <> v ->
          nth_error c u = Some (Some x) -> nth_error c v <> Some (Some x))
    /\ (k = 1 \/ exists v, v < n /\ nth_error c v = Some (Some (k - 1)))
    /\ 1 <= k.
Proof.
  intro D. unfold make_colors.
  destruct (init_spec D) as (st0 & -> & I0 & L0). cbn [bind].
  destruct (colour_loop_spec n st0 I0) as (st & -> & [I1 I2 I3 I4 I5 I6 I7] & Q); [lia|].
  cbn [bind].
  assert (All : forall v, v < n -> exists x, nth v (col st) None = Some x).
  { intros v Hv. destruct (nth v (col st) None) eqn:E; eauto.
    destruct I4 as (_ & _ & _ & Q4 & _). specialize (Q4 v Hv E). rewrite Q in Q4. destruct Q4. }
  assert (NE : forall v x, nth_error (col st) v = Some (Some x) <-> nth v (col st) None = Some x).
  { intros v x. split; intro H.
    - now apply nth_error_nth with (d := None) in H.
    - rewrite (nth_error_nth' _ None); [congruence|].
      destruct (Nat.lt_ge_cases v (length (col st))); auto.
      rewrite nth_overflow in H by auto. discriminate. }
  destruct (forallb _ (seq 0 n)) eqn:C.
  - exists (col st), (maxc st + 1). split; [reflexivity|]. split; [auto|]. split; [|split; [|split]].
    + intros v Hv. destruct (All v Hv) as (x & Ex). exists x. split; [now apply NE|].
      destruct (I6 v x Ex) as (A & B & E). split; [lia|].
      intros x' Hx'. destruct (E x' Hx') as (u & ? & ? & ?). exists u. repeat split; auto. now apply NE.
    + intros u v x H N Eu Ev. apply NE in Eu, Ev. now apply (I5 u v x x).
    + destruct I7 as [->|(v & Ev)]; [now left|]. right. exists v.
      replace (maxc st + 1 - 1) with (maxc st) by lia. split; [|now apply NE].
      destruct (Nat.lt_ge_cases v n); auto. rewrite nth_overflow in Ev by lia. discriminate.
    + lia.
  - exfalso. apply Bool.not_true_iff_false in C. apply C.
    apply forallb_forall. intros v Hv. apply in_seq in Hv. apply forallb_forall. intros w Hw.
    destruct (bounded v w Hw) as [Lv Lw].
    destruct (All v Lv) as (a & Ea). destruct (All w Lw) as (b & Eb).
    unfold check_link. rewrite Ea, Eb. destruct (I6 v a Ea) as (_ & B & _).
    apply andb_true_iff. split; [|apply Nat.ltb_lt; lia].
    destruct (v =? w) eqn:F; [reflexivity|]. apply Nat.eqb_neq in F. cbn.
    apply Bool.negb_true_iff. apply Nat.eqb_neq. now apply (I5 v w a b).
Qed.
End Loop.
