(** The exchange of patterns and entries. *)
From Coq Require Import Reals Lra.
From Verif Require Import Common CommonFacts ParModel ParSpec ParProofs ParProofs2 BordModel BordSpec BordProofs.

Local Arguments rsum : simpl never.

Definition to_rank (q : nat) (order : list (nat * nat * nat)) := filter (fun m => snd (fst m) =? q) order.

Lemma exchange_at {S B} (gather : nat -> nat -> S -> res B) scatter (b : nat -> nat -> B) (h : nat -> nat -> S -> B -> S)
      (I : nat -> S -> Prop) order st :
  (forall s q e, In (s, q, e) order -> gather s e (st s) = Ok (b s e)) ->
  (forall s q e x, In (s, q, e) order -> I q x -> scatter q e x (b s e) = Ok (h q e x (b s e)) /\ I q (h q e x (b s e))) ->
  (forall s q e, In (s, q, e) order -> I q (st q)) ->
  exists st', exchange gather scatter order st = Ok st' /\
    forall q, st' q = fold_left (fun x m => h q (snd m) x (b (fst (fst m)) (snd m))) (to_rank q order) (st q).
Proof.
  intros G SC I0. unfold exchange.
  assert (K : forall l st1, (forall m, In m l -> In m order) -> (forall s q e, In (s, q, e) l -> I q (st1 q)) ->
    exists st', foldM (fun st' '(s, q, e) => let* b := gather s e (st s) in let* x := scatter q e (st' q) b in Ok (upd_rank st' q x)) l st1 = Ok st' /\
    forall q, st' q = fold_left (fun x m => h q (snd m) x (b (fst (fst m)) (snd m))) (to_rank q l) (st1 q)).
  { induction l as [|((s & q) & e) l IH]; intros st1 S1 I1; cbn [foldM].
    - exists st1. split; auto.
    - rewrite (G s q e) by (apply S1; now left). cbn [bind].
      destruct (SC s q e (st1 q) (S1 _ (or_introl eq_refl))) as (E1 & E2); [apply (I1 s q e); now left|].
      rewrite E1. cbn [bind].
      destruct (IH (upd_rank st1 q (h q e (st1 q) (b s e)))) as (st' & E & F).
      { intros m H. apply S1. now right. }
      { intros s' q' e' H. unfold upd_rank. destruct (Nat.eqb_spec q' q) as [->|]; auto. apply (I1 s' q' e'). now right. }
      exists st'. split; [exact E|]. intros q'. rewrite F. unfold upd_rank, to_rank. cbn [filter fst snd].
      rewrite (Nat.eqb_sym q q'). destruct (Nat.eqb_spec q' q) as [->|]; auto. }
  apply K; auto.
Qed.

Lemma fold_links (f : (nat * dof) -> option (nat * nat)) l : forall p x,
  In x (fold_left (fun p d => match f d with None => p | Some t => add_link (fst t) (snd t) p end) l p) <->
  In x p \/ exists d, In d l /\ f d = Some x.
Proof.
  induction l as [|d l IH]; intros p x; cbn [fold_left].
  - split; auto. intros [H|(d & [] & _)]; auto.
  - rewrite IH. destruct (f d) as [t|] eqn:E.
    + unfold add_link. replace (fst t, snd t) with t by now destruct t.
      assert (K : In x (if existsb (pair_eqb t) p then p else t :: p) <-> In x p \/ x = t).
      { destruct (existsb (pair_eqb t) p) eqn:X; cbn; [apply exists_pair in X|]; split; intuition (subst; auto). }
      rewrite K. split.
      * intros [[H| ->]|(d' & H & H')]; auto; [right; exists d|right; exists d']; cbn; auto.
      * intros [H|(d' & [<-|H] & H')]; auto.
        -- left. right. congruence.
        -- right. eauto.
    + split.
      * intros [H|(d' & H & H')]; auto. right. exists d'. cbn. auto.
      * intros [H|(d' & [<-|H] & H')]; auto; [congruence|]. right. eauto.
Qed.

Lemma rsum_flat {A B} (f : B -> R) (g : A -> list B) l : rsum f (flat_map g l) = rsum (fun x => rsum f (g x)) l.
Proof. induction l as [|x l IH]; cbn [flat_map]; auto. rewrite rsum_app, IH, rsum_cons. reflexivity. Qed.
Lemma rsum_map {A B} (f : B -> R) (g : A -> B) l : rsum f (map g l) = rsum (fun x => f (g x)) l.
Proof. induction l as [|x l IH]; auto. cbn [map]. now rewrite !rsum_cons, IH. Qed.

Lemma columns_in p di col : In col (columns p di) <-> In (di, col) p.
Proof.
  unfold columns. rewrite in_map_iff. split.
  - intros ((a & b) & E & H). apply filter_In in H as (H & K). apply pair_eqb_iff in K. cbn in *. now subst.
  - intros H. exists (di, col). split; auto. apply filter_In. split; auto. now apply pair_eqb_iff.
Qed.
Lemma columns_nodup p di : NoDup p -> NoDup (columns p di).
Proof.
  unfold columns. induction 1 as [|(a & b) p NI N IH]; cbn; [constructor|]. destruct (pair_eqb a di) eqn:E; auto.
  cbn. constructor; auto. intros H. apply in_map_iff in H as ((a' & b') & E' & H). apply filter_In in H as (H & K).
  cbn in *. apply pair_eqb_iff in E, K. subst. contradiction.
Qed.
Lemma columns_length_dup p di : length (columns p di) = length (filter (fun x => pair_eqb (fst x) di) p).
Proof. apply map_length. Qed.

Lemma nodup_app {A} (a b : list A) : NoDup a -> NoDup b -> (forall x, In x a -> ~ In x b) -> NoDup (a ++ b).
Proof.
  induction 1 as [|x a NI N IH]; intros NB D; cbn; auto. constructor.
  - rewrite in_app_iff. intros [H|H]; [contradiction|]. apply (D x); cbn; auto.
  - apply IH; auto. intros y H. apply D. now right.
Qed.

Section ex.
  Variables (W : world) (cell : nat -> bool) (border : nat -> nat -> bool) (lindex : nat -> nat -> nat) (nindices : nat -> nat).
  Hypothesis DEC : decomposition W cell border lindex nindices.
  Variables (consV consU : nat -> ldof -> bool) (links : nat -> list (ldof * ldof)).
  Hypothesis LK : links_ok W lindex links.
  Variable rec : nat -> border_pattern.
  Hypothesis REC : forall q, q < nranks W -> record W cell border lindex nindices consV consU links q = Ok (rec q).

  Notation rcache := (rank_cache W cell border lindex nindices).
  Notation loc := (local lindex).
  Notation bdof := (border_dof W border).
  Notation couple := (couples lindex consV consU links).

  Lemma rec_spec q : q < nranks W -> NoDup (rec q) /\
    (forall x, In x (rec q) -> exists i j, bdof q i /\ bdof q j /\ x = (loc q i, j)) /\
    (forall i j, bdof q i -> bdof q j -> In (loc q i, j) (rec q) <-> couple q i j).
  Proof.
    intros Q. destruct (record_spec W cell border lindex nindices DEC consV consU links LK q Q) as (p & E & F).
    rewrite REC in E by auto. injection E as <-. exact F.
  Qed.

  Lemma rec_in q i col : q < nranks W -> has_dof W q i -> In (loc q i, col) (rec q) <-> bdof q i /\ bdof q col /\ couple q i col.
  Proof.
    intros Q H. destruct (rec_spec q Q) as (_ & A & B). split.
    - intros X. pose proof X as Y. apply A in X as (i' & j' & I & J & E). injection E as E1 E2 <-.
      assert (i = i') as -> by (apply (local_inj W cell border lindex nindices DEC q); [auto|apply I|unfold local; now rewrite E1, E2]).
      split; auto. split; auto. now apply B.
    - intros (I & J & C). now apply B.
  Qed.

  Lemma gather_in s e k col : s < nranks W -> In e (held W s) ->
    In (k, col) (gather_pattern W cell lindex rec s e) <->
    k < ndofs W e /\ bdof s (e, k) /\ bdof s col /\ couple s (e, k) col.
  Proof.
    intros S H. unfold gather_pattern. destruct (cell e) eqn:C.
    - split; [intros []|]. intros (_ & (_ & B) & _). destruct (dec_border _ _ _ _ _ DEC s e S H B). congruence.
    - rewrite in_flat_map. split.
      + intros (k' & K & X). apply in_map_iff in X as (c' & E & X). injection E as <- <-. apply in_seq in K.
        apply columns_in in X. split; [lia|]. apply (rec_in s (e, k') c' S) in X; [tauto|]. repeat split; auto. cbn. lia.
      + intros (K & R). exists k. split; [apply in_seq; lia|]. apply in_map, columns_in.
        apply (rec_in s (e, k) col S); [repeat split; auto|tauto].
  Qed.

  Lemma gather_nodup s e : s < nranks W -> NoDup (gather_pattern W cell lindex rec s e).
  Proof.
    intros S. unfold gather_pattern. destruct (cell e); [constructor|]. destruct (rec_spec s S) as (N & _).
    assert (G : forall l, NoDup l -> NoDup (flat_map (fun k => map (fun col : dof => (k, col)) (columns (rec s) (lindex s e, k))) l)).
    { intros l. induction 1 as [|k l NI NL IH]; cbn; [constructor|].
      apply nodup_app; auto.
      - apply FinFun.Injective_map_NoDup; [|now apply columns_nodup]. intros a b E. now injection E.
      - intros (k' & c) H H'. apply in_map_iff in H as (c' & E & _). injection E as <- <-.
        apply in_flat_map in H' as (k' & K & H'). apply in_map_iff in H' as (c2 & E & _). injection E as -> _. contradiction. }
    apply G, seq_NoDup.
  Qed.

  Lemma size_gather s e : message_size W cell lindex rec s e = length (gather_pattern W cell lindex rec s e).
  Proof.
    unfold message_size, gather_pattern. destruct (cell e); auto.
    assert (K : forall l n, fold_left (fun n k => n + length (columns (rec s) (lindex s e, k))) l n =
      n + length (flat_map (fun k => map (fun col : dof => (k, col)) (columns (rec s) (lindex s e, k))) l)).
    { induction l as [|k l IH]; intros n; cbn [fold_left flat_map]; [cbn; lia|]. rewrite IH, app_length, map_length. lia. }
    apply K.
  Qed.

  (** The message from [s] to [q] about entity [e]. *)
  Lemma msg_facts order s q e : Permutation order (interior_border_interior_border W) -> In (s, q, e) order ->
    s < nranks W /\ q < nranks W /\ s <> q /\ In e (held W s) /\ In e (held W q) /\ border s e = true /\ border q e = true /\ cell e = false.
  Proof.
    intros P H. apply (Permutation_in _ P), in_messages in H as (S & Q & D & HS & HQ & IS & IQ).
    assert (BS : border s e = true) by (apply (dec_shared _ _ _ _ _ DEC s q); auto).
    assert (BQ : border q e = true) by (apply (dec_shared _ _ _ _ _ DEC q s); auto).
    destruct (dec_border _ _ _ _ _ DEC q e Q HQ BQ). repeat split; auto.
  Qed.

  (** Where a datum goes on rank [q]. *)
  Definition target (mr mc : nat -> ldof -> nat) (q e : nat) (d : nat * dof) : option (nat * nat) :=
    match find_index (rcache q) (fst (snd d)) with
    | None => None
    | Some i => Some (mr q (lindex q e, fst d), mc q (i, snd (snd d)))
    end.

  Lemma target_spec mr mc q e k col x : q < nranks W ->
    target mr mc q e (k, col) = Some x <->
    In (fst col) (held W q) /\ border q (fst col) = true /\ x = (mr q (loc q (e, k)), mc q (loc q col)).
  Proof.
    intros Q. destruct (rank_cache_spec W cell border lindex nindices DEC q Q) as (_ & _ & F). unfold target. cbn [fst snd].
    destruct (find_index (rcache q) (fst col)) as [i|] eqn:E.
    - apply F in E as (H & B & ->). split; [intros X; injection X as <-; auto|]. intros (_ & _ & ->). reflexivity.
    - split; [discriminate|]. intros (H & B & _). assert (X : find_index (rcache q) (fst col) = Some (lindex q (fst col))) by (apply F; auto).
      congruence.
  Qed.

  Variables mapV mapU : nat -> ldof -> nat.

  Lemma scatter_pattern_in q e p data x :  cell e = false ->
    In x (scatter_pattern W cell border lindex nindices mapV mapU q e p data) <->
    In x p \/ exists d, In d data /\ target mapV mapU q e d = Some x.
  Proof.
    intros C. unfold scatter_pattern. rewrite C.
    rewrite <- (fold_links (target mapV mapU q e) data p x).
    match goal with |- In x ?a <-> In x ?b => enough (E : a = b) by (rewrite E; reflexivity) end.
    revert p. induction data as [|(k & col) data IH]; intros p; cbn [fold_left]; auto. rewrite IH. f_equal.
    unfold target. cbn [fst snd]. now destruct (find_index (rcache q) (fst col)).
  Qed.

  Lemma extend_spec order P : Permutation order (interior_border_interior_border W) ->
    exists P', extend_pattern W cell border lindex nindices rec mapV mapU order P = Ok P' /\
      forall q x, q < nranks W -> In x (P' q) <-> In x (P q) \/
        exists s i j, s <> q /\ bdof s i /\ bdof s j /\ bdof q i /\ bdof q j /\ couple s i j /\
          x = (mapV q (loc q i), mapU q (loc q j)).
  Proof.
    intros PO. unfold extend_pattern.
    destruct (exchange_at (fun q e (_ : list (nat * nat)) => Ok (gather_pattern W cell lindex rec q e))
                (fun q e p d => Ok (scatter_pattern W cell border lindex nindices mapV mapU q e p d))
                (fun q e => gather_pattern W cell lindex rec q e)
                (fun q e p d => scatter_pattern W cell border lindex nindices mapV mapU q e p d)
                (fun _ _ => True) order P) as (P' & E & F); auto.
    exists P'. split; auto. intros q x Q. rewrite F.
    assert (K : forall l p, (forall m, In m l -> In m order /\ snd (fst m) = q) ->
      In x (fold_left (fun x0 m => scatter_pattern W cell border lindex nindices mapV mapU q (snd m) x0 (gather_pattern W cell lindex rec (fst (fst m)) (snd m))) l p)
      <-> In x p \/ exists m d, In m l /\ In d (gather_pattern W cell lindex rec (fst (fst m)) (snd m)) /\ target mapV mapU q (snd m) d = Some x).
    { induction l as [|m l IH]; intros p S; cbn [fold_left].
      - split; auto. intros [H|(m & d & [] & _)]; auto.
      - rewrite IH by (intros; apply S; now right).
        destruct m as ((s & q') & e). destruct (S _ (or_introl eq_refl)) as (M & EQ). cbn [fst snd] in *. subst q'.
        destruct (msg_facts order s q e PO M) as (_ & _ & _ & _ & _ & _ & _ & C).
        rewrite scatter_pattern_in by auto. split.
        + intros [[H|(d & H & T)]|(m & d & H1 & H2 & H3)]; auto.
          * right. exists (s, q, e), d. cbn. auto.
          * right. exists m, d. cbn. auto.
        + intros [H|(m & d & [<-|H1] & H2 & H3)]; auto.
          * left. right. eauto.
          * right. exists m, d. auto. }
    rewrite K; [|intros m H; apply filter_In in H as (H & H'); apply Nat.eqb_eq in H'; auto].
    split; (intros [H|H]; [now left|right]).
    - destruct H as (((s & q') & e) & (k & col) & H1 & H2 & H3). apply filter_In in H1 as (H1 & H1'). cbn [fst snd] in *.
      apply Nat.eqb_eq in H1'. subst q'. destruct (msg_facts order s q e PO H1) as (S & _ & D & HS & HQ & BS & BQ & C).
      apply (gather_in s e k col S HS) in H2 as (KK & B1 & B2 & CP). apply (target_spec mapV mapU q e k col _ Q) in H3 as (T1 & T2 & ->).
      exists s, (e, k), col. split; auto. split; auto. split; auto. split; [repeat split; auto|]. split; [|auto].
      split; auto. repeat split; auto. apply B2.
    - destruct H as (s & i & j & D & I1 & J1 & I2 & J2 & CP & ->). exists (s, q, fst i), (snd i, j). cbn [fst snd].
      destruct I1 as ((S & HS & KS) & BS). destruct I2 as ((_ & HQ & KQ) & BQ). repeat split.
      + apply filter_In. cbn [fst snd]. rewrite Nat.eqb_refl. split; auto. apply (Permutation_in _ (Permutation_sym PO)), in_messages.
        destruct (dec_border _ _ _ _ _ DEC s (fst i) S HS BS), (dec_border _ _ _ _ _ DEC q (fst i) Q HQ BQ). repeat split; auto.
      + apply gather_in; auto. replace (fst i, snd i) with i by now destruct i.
        split; [exact KS|]. split; [repeat split; auto|]. split; [exact J1|exact CP].
      + apply target_spec; auto. replace (fst i, snd i) with i by now destruct i. repeat split; auto; apply J2.
  Qed.

  (** ** Values *)
  Definition datum (s e : nat) (m : matrix) (d : nat * dof) : nat * dof * R :=
    (fst d, snd d, value m (mapV s (loc s (e, fst d))) (mapU s (loc s (snd d)))).

  Lemma gather_data_spec s e m : s < nranks W -> In e (held W s) ->
    (forall i j, bdof s i -> bdof s j -> couple s i j -> In (mapV s (loc s i), mapU s (loc s j)) (pattern m)) ->
    gather_data W cell border lindex nindices rec mapV mapU s e m = Ok (map (datum s e m) (gather_pattern W cell lindex rec s e)).
  Proof.
    intros S H IP. pose proof (fun k col => gather_in s e k col S H) as GI. unfold gather_data, gather_pattern in *.
    destruct (cell e) eqn:C; auto. destruct (rank_cache_spec W cell border lindex nindices DEC s S) as (_ & _ & FX).
    set (G := fun k => map (fun col : dof => (k, col)) (columns (rec s) (lindex s e, k))) in *.
    assert (K : forall l buf, (forall k, In k l -> k < ndofs W e) ->
      foldM (fun buf k => foldM (fun buf col => let* i := get_index (rcache s) (fst col) in
        let* v := entry m (mapV s (lindex s e, k)) (mapU s (i, snd col)) in Ok (buf ++ [(k, col, v)])) (columns (rec s) (lindex s e, k)) buf) l buf
      = Ok (buf ++ map (datum s e m) (flat_map G l))).
    { induction l as [|k l IH]; intros buf L; cbn [foldM flat_map map]; [now rewrite app_nil_r|].
      assert (KK : k < ndofs W e) by (apply L; now left).
      assert (K2 : forall cs buf, (forall col, In col cs -> In col (columns (rec s) (lindex s e, k))) ->
        foldM (fun buf col => let* i := get_index (rcache s) (fst col) in
          let* v := entry m (mapV s (lindex s e, k)) (mapU s (i, snd col)) in Ok (buf ++ [(k, col, v)])) cs buf
        = Ok (buf ++ map (fun col => datum s e m (k, col)) cs)).
      { induction cs as [|col cs IHc]; intros buf' SC; cbn [foldM map]; [now rewrite app_nil_r|].
        assert (HC : In col (columns (rec s) (lindex s e, k))) by (apply SC; now left).
        apply columns_in in HC. apply (rec_in s (e, k) col S) in HC; [|repeat split; auto].
        destruct HC as (B1 & B2 & CP).
        unfold get_index. assert (FI : lookup (fst col) (id_to_index (rcache s)) = Some (lindex s (fst col))).
        { apply FX. destruct B2 as ((_ & B2 & _) & B3). auto. }
        rewrite FI. cbn [bind]. unfold entry.
        assert (EP : existsb (pair_eqb (mapV s (lindex s e, k), mapU s (lindex s (fst col), snd col))) (pattern m) = true).
        { apply exists_pair. apply (IP (e, k) col B1 B2 CP). }
        rewrite EP. cbn [bind]. rewrite IHc by (intros; apply SC; now right). now rewrite <- app_assoc. }
      rewrite K2 by auto. cbn [bind]. rewrite IH by (intros; apply L; now right).
      rewrite map_app, <- app_assoc. do 3 f_equal. unfold G. now rewrite map_map. }
    rewrite K; [reflexivity|]. intros k X. apply in_seq in X. lia.
  Qed.

  Definition hit (mr mc : nat -> ldof -> nat) (q e : nat) (x : nat * nat) (d : nat * dof * R) : R :=
    match target mr mc q e (fst d) with
    | Some t => if pair_eqb t x then snd d else 0%R
    | None => 0%R
    end.

  Lemma scatter_data_spec mr mc q e data : cell e = false -> forall m,
    (forall d t, In d data -> target mr mc q e (fst d) = Some t -> In t (pattern m)) ->
    exists m', scatter_data W cell border lindex nindices mr mc q e m data = Ok m' /\ pattern m' = pattern m /\
      forall x y, value m' x y = (value m x y + rsum (hit mr mc q e (x, y)) data)%R.
  Proof.
    intros C. unfold scatter_data. rewrite C.
    induction data as [|((k & col) & v) data IH]; intros m IP; cbn [foldM].
    - exists m. repeat split; auto. intros. unfold rsum. cbn. lra.
    - pose proof (IP ((k, col), v)) as IP1. cbn [fst] in IP1. unfold target in IP1 at 1. cbn [fst snd] in IP1.
      destruct (find_index (rcache q) (fst col)) as [i|] eqn:FI.
      + specialize (IP1 _ (or_introl eq_refl) eq_refl). unfold add_to_entry.
        rewrite (proj2 (exists_pair _ _) IP1). cbn [bind].
        match goal with |- exists m', foldM _ _ ?m1 = _ /\ _ => destruct (IH m1) as (m' & E & EP & F) end.
        { intros d t H T. cbn [pattern]. apply (IP d t); auto. now right. }
        exists m'. split; [exact E|]. split; [exact EP|]. intros x y. rewrite F, rsum_cons. cbn [value].
        unfold hit at 2, target. cbn [fst snd]. rewrite FI. destruct (pair_eqb _ (x, y)); lra.
      + cbn [bind]. destruct (IH m) as (m' & E & EP & F). { intros d t H T. apply (IP d t); auto. now right. }
        exists m'. split; [exact E|]. split; [exact EP|]. intros x y. rewrite F, rsum_cons.
        unfold hit at 2, target. cbn [fst snd]. rewrite FI. lra.
  Qed.
End ex.
