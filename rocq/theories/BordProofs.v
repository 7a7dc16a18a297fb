(** The cache and the recorded pattern. *)
From Coq Require Import Reals Lra.
From Verif Require Import Common CommonFacts ParModel ParSpec ParProofs ParProofs2 BordModel BordSpec.

Lemma lookup_assign k v l k' : lookup k' (assign k v l) = if k' =? k then Some v else lookup k' l.
Proof.
  unfold assign. cbn. destruct (Nat.eqb_spec k' k) as [->|D]; auto.
  induction l as [|(a & b) l IH]; cbn; auto. destruct (Nat.eqb_spec a k) as [->|N]; cbn.
  - rewrite IH. destruct (Nat.eqb_spec k' k); [contradiction|auto].
  - now rewrite IH.
Qed.

Lemma pair_eqb_iff a b : pair_eqb a b = true <-> a = b.
Proof.
  unfold pair_eqb. rewrite andb_true_iff, !Nat.eqb_eq. destruct a, b. cbn. split; [intros (-> & ->); auto|]. intros E. now injection E.
Qed.
Lemma entry_eqb_iff a b : entry_eqb a b = true <-> a = b.
Proof.
  unfold entry_eqb. rewrite andb_true_iff, !pair_eqb_iff. destruct a, b. cbn. split; [intros (-> & ->); auto|]. intros E. now injection E.
Qed.
Lemma exists_pair x l : existsb (pair_eqb x) l = true <-> In x l.
Proof.
  rewrite existsb_exists. split.
  - intros (y & H & E). apply pair_eqb_iff in E. now subst.
  - intros H. exists x. split; auto. now apply pair_eqb_iff.
Qed.
Lemma exists_entry x l : existsb (entry_eqb x) l = true <-> In x l.
Proof.
  rewrite existsb_exists. split.
  - intros (y & H & E). apply entry_eqb_iff in E. now subst.
  - intros H. exists x. split; auto. now apply entry_eqb_iff.
Qed.
Lemma nth_upd' i j x (l : list bool) : nth j (upd i x l) false = if (j =? i) && (i <? length l) then x else nth j l false.
Proof.
  revert i j. induction l as [|y l IH]; intros [|i] [|j]; cbn [upd nth length]; auto; cbn [Nat.eqb andb].
  - destruct (j =? i); cbn; auto.
  - rewrite IH. destruct (j =? i); cbn; auto.
Qed.
Lemma resize_length n l : length (resize n l) = n.
Proof. unfold resize. rewrite app_length, firstn_length, repeat_length. lia. Qed.

(** ** The cache *)
Lemma cache_length l : forall c, length (border_entities (fold_left cache_entity l c)) = length (border_entities c).
Proof.
  induction l as [|e l IH]; intros c; cbn [fold_left]; auto. rewrite IH. unfold cache_entity.
  destruct (is_border e); cbn; apply upd_length.
Qed.

Lemma cache_fold l : NoDup (map eindex l) -> NoDup (map eid l) ->
  forall c, (forall e, In e l -> eindex e < length (border_entities c)) ->
  let c' := fold_left cache_entity l c in
  (forall e, In e l -> is_border_entity c' (eindex e) = is_border e) /\
  (forall i, (forall e, In e l -> eindex e <> i) -> is_border_entity c' i = is_border_entity c i) /\
  (forall e, In e l -> is_border e = true -> lookup (eindex e) (index_to_id c') = Some (eid e)) /\
  (forall i, (forall e, In e l -> is_border e = true -> eindex e <> i) -> lookup i (index_to_id c') = lookup i (index_to_id c)) /\
  (forall e, In e l -> is_border e = true -> lookup (eid e) (id_to_index c') = Some (eindex e)) /\
  (forall i, (forall e, In e l -> is_border e = true -> eid e <> i) -> lookup i (id_to_index c') = lookup i (id_to_index c)).
Proof.
  induction l as [|e l IH]; intros ND NI c L; cbn [fold_left].
  { repeat split; auto; intros e []. }
  cbn in ND, NI. inversion ND as [|? ? D1 D2]; inversion NI as [|? ? I1 I2]; subst.
  assert (LC : length (border_entities (cache_entity c e)) = length (border_entities c)).
  { unfold cache_entity. destruct (is_border e); cbn; apply upd_length. }
  destruct (IH D2 I2 (cache_entity c e)) as (A & B & C & D & E & F).
  { intros e' H. rewrite LC. apply L. now right. }
  assert (NE : forall e', In e' l -> eindex e' <> eindex e).
  { intros e' H X. apply D1. rewrite <- X. now apply in_map. }
  assert (NE' : forall e', In e' l -> eid e' <> eid e).
  { intros e' H X. apply I1. rewrite <- X. now apply in_map. }
  assert (FL : forall i, is_border_entity (cache_entity c e) i = if (i =? eindex e) then is_border e else is_border_entity c i).
  { intros i. unfold is_border_entity, cache_entity.
    assert (X : nth i (upd (eindex e) (is_border e) (border_entities c)) false = if i =? eindex e then is_border e else nth i (border_entities c) false).
    { rewrite nth_upd'. assert (Y : eindex e <? length (border_entities c) = true) by (apply Nat.ltb_lt, L; now left). rewrite Y, andb_true_r. auto. }
    destruct (is_border e); cbn; auto. }
  assert (FI : forall i, lookup i (index_to_id (cache_entity c e)) = if is_border e && (i =? eindex e) then Some (eid e) else lookup i (index_to_id c)).
  { intros i. unfold cache_entity. destruct (is_border e); cbn [negb index_to_id andb]; auto. apply lookup_assign. }
  assert (FD : forall i, lookup i (id_to_index (cache_entity c e)) = if is_border e && (i =? eid e) then Some (eindex e) else lookup i (id_to_index c)).
  { intros i. unfold cache_entity. destruct (is_border e); cbn [negb id_to_index andb]; auto. apply lookup_assign. }
  repeat split.
  - intros e' [<-|H]; [|now apply A]. rewrite B by auto. now rewrite FL, Nat.eqb_refl.
  - intros i H. rewrite B by (intros; apply H; now right). rewrite FL.
    destruct (Nat.eqb_spec i (eindex e)) as [->|]; auto. exfalso. apply (H e); [now left|auto].
  - intros e' [<-|H] K; [|now apply C]. rewrite D by auto. now rewrite FI, K, Nat.eqb_refl.
  - intros i H. rewrite D by (intros; apply H; [now right|auto]). rewrite FI. destruct (is_border e) eqn:K; cbn; auto.
    destruct (Nat.eqb_spec i (eindex e)) as [->|]; auto. exfalso. apply (H e); [now left|auto|auto].
  - intros e' [<-|H] K; [|now apply E]. rewrite F by auto. now rewrite FD, K, Nat.eqb_refl.
  - intros i H. rewrite F by (intros; apply H; [now right|auto]). rewrite FD. destruct (is_border e) eqn:K; cbn; auto.
    destruct (Nat.eqb_spec i (eid e)) as [->|]; auto. exfalso. apply (H e); [now left|auto|auto].
Qed.

Lemma nodup_map_filter {A B} (f : A -> B) p l : NoDup (map f l) -> NoDup (map f (filter p l)).
Proof.
  induction l as [|x l IH]; cbn; intros N; auto. inversion N as [|? ? N1 N2]; subst. destruct (p x); cbn; auto.
  constructor; auto. intros H. apply N1. apply in_map_iff in H as (y & <- & H). apply filter_In in H as (H & _). now apply in_map.
Qed.

(** A fresh cache: flags and both maps describe exactly the border entities. *)
Lemma cache_fresh n l : NoDup (map eindex l) -> NoDup (map eid l) -> (forall e, In e l -> eindex e < n) ->
  let c := cache_update n l empty_cache in
  (forall e, In e l -> is_border_entity c (eindex e) = is_border e) /\
  (forall i, is_border_entity c i = true -> exists e, In e l /\ is_border e = true /\ eindex e = i) /\
  (forall i id, get_id c i = Ok id <-> exists e, In e l /\ is_border e = true /\ eindex e = i /\ eid e = id) /\
  (forall i id, find_index c id = Some i <-> exists e, In e l /\ is_border e = true /\ eindex e = i /\ eid e = id).
Proof.
  intros ND NI L c. set (l' := filter is_interior_border l).
  assert (IN : forall e, In e l -> is_border e = true -> In e l').
  { intros e H K. apply filter_In. split; auto. unfold is_border, is_interior_border in *. now destruct (epart e). }
  assert (IL : forall e, In e l' -> In e l) by (intros e H; now apply filter_In in H).
  destruct (cache_fold l' (nodup_map_filter _ _ _ ND) (nodup_map_filter _ _ _ NI) (Cache (resize n []) [] [])) as (A & B & C & D & E & F).
  { intros e H. cbn [border_entities]. rewrite resize_length. auto. }
  assert (Z : forall i, nth i (resize n []) false = false).
  { intros i. unfold resize. rewrite firstn_nil. cbn. rewrite Nat.sub_0_r.
    destruct (Nat.lt_ge_cases i n); [apply nth_repeat|apply nth_overflow; rewrite repeat_length; lia]. }
  assert (INJ : forall e e', In e l -> In e' l -> eindex e = eindex e' -> e = e').
  { clear -ND. induction l as [|x l IH]; intros e e' H H' X; [destruct H|]. cbn in ND. inversion ND as [|? ? N1 N2]; subst.
    destruct H as [->|H], H' as [->|H']; auto.
    - destruct N1. rewrite X. now apply in_map.
    - destruct N1. rewrite <- X. now apply in_map. }
  assert (INJ' : forall e e', In e l -> In e' l -> eid e = eid e' -> e = e').
  { clear -NI. induction l as [|x l IH]; intros e e' H H' X; [destruct H|]. cbn in NI. inversion NI as [|? ? N1 N2]; subst.
    destruct H as [->|H], H' as [->|H']; auto.
    - destruct N1. rewrite X. now apply in_map.
    - destruct N1. rewrite <- X. now apply in_map. }
  assert (A' : forall e, In e l -> is_border_entity c (eindex e) = is_border e).
  { intros e H. destruct (is_interior_border e) eqn:K.
    - apply A. apply filter_In. auto.
    - unfold c, cache_update. fold l'. cbn [border_entities empty_cache id_to_index]. rewrite B.
      + unfold is_border_entity. cbn [border_entities]. rewrite Z. unfold is_border, is_interior_border in *. now destruct (epart e).
      + intros e' H' X. assert (e' = e) as -> by auto. apply filter_In in H'. destruct H'. congruence. }
  split; [exact A'|]. split; [|split].
  - intros i H. destruct (in_dec Nat.eq_dec i (map eindex l')) as [I|I].
    + apply in_map_iff in I as (e & <- & I). exists e. rewrite A' in H by auto. auto.
    + unfold c, cache_update in H. fold l' in H. cbn [border_entities empty_cache id_to_index] in H. rewrite B in H.
      * unfold is_border_entity in H. cbn [border_entities] in H. rewrite Z in H. discriminate.
      * intros e He X. apply I. rewrite <- X. now apply in_map.
  - intros i id. unfold get_id. split.
    + intros H. destruct (lookup i (index_to_id c)) as [x|] eqn:X; [|discriminate]. injection H as ->.
      destruct (in_dec Nat.eq_dec i (map eindex (filter is_border l'))) as [I|I].
      * apply in_map_iff in I as (e & <- & I). apply filter_In in I as (I1 & I2). exists e.
        specialize (C e I1 I2). unfold c, cache_update in X. fold l' in X. cbn [border_entities empty_cache id_to_index] in X.
        rewrite C in X. injection X as <-. auto.
      * unfold c, cache_update in X. fold l' in X. cbn [border_entities empty_cache id_to_index] in X. rewrite D in X; [discriminate|].
        intros e He Hb Y. apply I. rewrite <- Y. apply in_map, filter_In. auto.
    + intros (e & H & K & <- & <-). unfold c, cache_update. fold l'. cbn [border_entities empty_cache id_to_index]. now rewrite C by auto.
  - intros i id. unfold find_index. split.
    + intros X. destruct (in_dec Nat.eq_dec id (map eid (filter is_border l'))) as [I|I].
      * apply in_map_iff in I as (e & <- & I). apply filter_In in I as (I1 & I2). exists e.
        specialize (E e I1 I2). unfold c, cache_update in X. fold l' in X. cbn [border_entities empty_cache id_to_index] in X.
        rewrite E in X. injection X as <-. auto.
      * unfold c, cache_update in X. fold l' in X. cbn [border_entities empty_cache id_to_index] in X. rewrite F in X; [discriminate|].
        intros e He Hb Y. apply I. rewrite <- Y. apply in_map, filter_In. auto.
    + intros (e & H & K & <- & <-). unfold c, cache_update. fold l'. cbn [border_entities empty_cache id_to_index]. now rewrite E by auto.
Qed.

(** ** On a decomposition *)
Section deco.
  Variables (W : world) (cell : nat -> bool) (border : nat -> nat -> bool) (lindex : nat -> nat -> nat) (nindices : nat -> nat).
  Hypothesis DEC : decomposition W cell border lindex nindices.

  Notation rcache := (rank_cache W cell border lindex nindices).
  Notation loc := (local lindex).

  Lemma entities_spec q e : q < nranks W ->
    In e (entities W cell border lindex q) <->
    exists x, In x (held W q) /\ cell x = false /\ e = Entity x (lindex q x) (part_type W border q x).
  Proof.
    intros Q. unfold entities. rewrite in_map_iff. split.
    - intros (x & <- & H). apply filter_In in H as (H & C). exists x. apply negb_true_iff in C. auto.
    - intros (x & H & C & ->). exists x. split; auto. apply filter_In. rewrite C. auto.
  Qed.

  Lemma border_of q x : is_border (Entity x (lindex q x) (part_type W border q x)) = border q x.
  Proof. unfold is_border, part_type. cbn. destruct (border q x), (ib W q x); auto. Qed.

  Lemma rank_cache_spec q : q < nranks W ->
    (forall x, In x (held W q) -> is_border_entity (rcache q) (lindex q x) = border q x) /\
    (forall x, In x (held W q) -> border q x = true -> get_id (rcache q) (lindex q x) = Ok x) /\
    (forall x i, find_index (rcache q) x = Some i <-> In x (held W q) /\ border q x = true /\ i = lindex q x).
  Proof.
    intros Q. destruct DEC as [N IX INJ BD SH].
    assert (NF : NoDup (filter (fun e => negb (cell e)) (held W q))) by (apply NoDup_filter; auto).
    assert (NI : NoDup (map eid (entities W cell border lindex q))).
    { unfold entities. rewrite map_map. cbn. now rewrite map_id. }
    assert (ND : NoDup (map eindex (entities W cell border lindex q))).
    { unfold entities. rewrite map_map. cbn.
      assert (S : forall x, In x (filter (fun e => negb (cell e)) (held W q)) -> In x (held W q)) by (intros x H; now apply filter_In in H).
      revert NF S. generalize (filter (fun e => negb (cell e)) (held W q)). intros l NF S.
      induction NF as [|x l NI' NF IH]; cbn; constructor.
      - intros H. apply in_map_iff in H as (y & E & H). apply INJ in E; auto; [|apply S; now right|apply S; now left]. subst. contradiction.
      - apply IH. intros y H. apply S. now right. }
    destruct (cache_fresh (nindices q) (entities W cell border lindex q) ND NI) as (A & B & C & D).
    { intros e H. apply entities_spec in H as (x & H & _ & ->); auto. cbn. auto. }
    split; [|split].
    - intros x H. destruct (cell x) eqn:CX.
      + destruct (border q x) eqn:BX; [destruct (BD q x Q H BX); congruence|].
        destruct (is_border_entity (rcache q) (lindex q x)) eqn:IB; auto.
        apply B in IB as (e & H1 & H2 & H3). apply entities_spec in H1 as (y & Y1 & Y2 & ->); auto. cbn in H3.
        apply INJ in H3; auto. subst. congruence.
      + rewrite <- (border_of q x). apply (A (Entity x (lindex q x) (part_type W border q x))).
        apply entities_spec; eauto.
    - intros x H BX. apply C. exists (Entity x (lindex q x) (part_type W border q x)). cbn [eid eindex]. rewrite border_of.
      split; [|auto]. apply entities_spec; auto. exists x. destruct (BD q x Q H BX). auto.
    - intros x i. unfold rank_cache. rewrite D. split.
      + intros (e & H1 & H2 & <- & <-). apply entities_spec in H1 as (y & Y1 & Y2 & ->); auto. rewrite border_of in H2. cbn. auto.
      + intros (H & BX & ->). exists (Entity x (lindex q x) (part_type W border q x)). rewrite border_of. cbn [eid eindex].
        split; [|auto]. apply entities_spec; auto. exists x. destruct (BD q x Q H BX). auto.
  Qed.

  Lemma local_inj q i j : has_dof W q i -> has_dof W q j -> loc q i = loc q j -> i = j.
  Proof.
    intros (Q & H & _) (_ & H' & _) E. unfold local in E. injection E as E1 E2. apply (dec_inj _ _ _ _ _ DEC q) in E1; auto.
    destruct i, j. cbn in *. congruence.
  Qed.

  Variables (consV consU : nat -> ldof -> bool) (links : nat -> list (ldof * ldof)).
  Hypothesis LK : links_ok W lindex links.

  Lemma record_spec q : q < nranks W ->
    exists p, record W cell border lindex nindices consV consU links q = Ok p /\ NoDup p /\
      (forall x, In x p -> exists i j, border_dof W border q i /\ border_dof W border q j /\ x = (loc q i, j)) /\
      (forall i j, border_dof W border q i -> border_dof W border q j ->
         In (loc q i, j) p <-> couples lindex consV consU links q i j).
  Proof.
    intros Q. destruct (rank_cache_spec q Q) as (F1 & F2 & F3). unfold record, add_entries.
    assert (K : forall l p, (forall a b, In (a, b) l -> In (a, b) (links q)) -> NoDup p ->
      (forall x, In x p -> exists i j, border_dof W border q i /\ border_dof W border q j /\ x = (loc q i, j)) ->
      exists p', foldM (fun p '(di, dj) =>
          if consV q di || consU q dj then Ok p else
          if negb (is_border_entity (rcache q) (fst di)) || negb (is_border_entity (rcache q) (fst dj)) then Ok p else
          let* id := get_id (rcache q) (fst dj) in
          Ok (insert_entry (di, (id, snd dj)) p)) l p = Ok p' /\ NoDup p' /\
        (forall x, In x p' -> exists i j, border_dof W border q i /\ border_dof W border q j /\ x = (loc q i, j)) /\
        (forall i j, border_dof W border q i -> border_dof W border q j ->
           In (loc q i, j) p' <-> In (loc q i, j) p \/
             (In (loc q i, loc q j) l /\ consV q (loc q i) = false /\ consU q (loc q j) = false))).
    { induction l as [|(a & b) l IH]; intros p S N X; cbn [foldM].
      { exists p. split; auto. split; auto. split; auto. intros i j _ _. cbn. tauto. }
      destruct (LK q a b Q (S a b (or_introl eq_refl))) as (i0 & j0 & HI & HJ & EA & EB).
      assert (S' : forall a b, In (a, b) l -> In (a, b) (links q)) by (intros; apply S; now right).
      assert (SKIP : (forall i j, border_dof W border q i -> border_dof W border q j -> (a, b) = (loc q i, loc q j) ->
                       consV q a = false -> consU q b = false -> False) ->
              exists p', foldM (fun p '(di, dj) =>
          if consV q di || consU q dj then Ok p else
          if negb (is_border_entity (rcache q) (fst di)) || negb (is_border_entity (rcache q) (fst dj)) then Ok p else
          let* id := get_id (rcache q) (fst dj) in
          Ok (insert_entry (di, (id, snd dj)) p)) l p = Ok p' /\ NoDup p' /\
        (forall x, In x p' -> exists i j, border_dof W border q i /\ border_dof W border q j /\ x = (loc q i, j)) /\
        (forall i j, border_dof W border q i -> border_dof W border q j ->
           In (loc q i, j) p' <-> In (loc q i, j) p \/
             (In (loc q i, loc q j) ((a, b) :: l) /\ consV q (loc q i) = false /\ consU q (loc q j) = false))).
      { intros NO. destruct (IH p S' N X) as (p' & E & N' & X' & F). exists p'. repeat split; auto.
        - intros H1. apply F in H1; auto. destruct H1 as [H1|(H1 & H2)]; auto. right. split; auto. now right.
        - intros H1. apply F; auto. destruct H1 as [H1|([H1|H1] & H2 & H3)]; auto. injection H1 as -> ->.
          exfalso. apply (NO i j); auto. }
      destruct (consV q a || consU q b) eqn:CC.
      { apply SKIP. intros i j _ _ _ C1 C2. rewrite C1, C2 in CC. discriminate. }
      apply orb_false_iff in CC as (CV & CU). rewrite EA, EB. cbn [local fst]. rewrite !F1 by (apply HI || apply HJ).
      destruct (negb (border q (fst i0)) || negb (border q (fst j0))) eqn:NB.
      { rewrite <- EA, <- EB. apply SKIP. intros i j (I1 & I2) (J1 & J2) EQ _ _. rewrite EA, EB in EQ. injection EQ as E1 E2 E3 E4.
        assert (i0 = i) as -> by (apply (local_inj q); auto; unfold local; now rewrite E1, E2).
        assert (j0 = j) as -> by (apply (local_inj q); auto; unfold local; now rewrite E3, E4).
        rewrite I2, J2 in NB. discriminate. }
      apply orb_false_iff in NB as (NB1 & NB2). apply negb_false_iff in NB1, NB2.
      rewrite (F2 (fst j0)) by (auto; apply HJ). cbn [bind snd].
      change (snd (loc q j0)) with (snd j0). replace (fst j0, snd j0) with j0 by now destruct j0. cbn [bind].
      assert (NI : NoDup (insert_entry (loc q i0, j0) p)).
      { unfold insert_entry. destruct (existsb (entry_eqb (loc q i0, j0)) p) eqn:EX; auto. constructor; auto.
        intros H. apply exists_entry in H. congruence. }
      assert (II : forall x, In x (insert_entry (loc q i0, j0) p) <-> x = (loc q i0, j0) \/ In x p).
      { intros x. unfold insert_entry. destruct (existsb (entry_eqb (loc q i0, j0)) p) eqn:EX; cbn.
        - apply exists_entry in EX. split; auto. intros [->|]; auto.
        - split; intros [?|?]; auto. }
      destruct (IH (insert_entry (loc q i0, j0) p) S' NI) as (p' & E & N' & X' & F).
      { intros x H. apply II in H as [->|H]; auto. exists i0, j0. split; [split; auto|]. split; [split; auto|auto]. }
      exists p'. split; [exact E|]. split; auto. split; auto.
      intros i j I J. rewrite (F i j I J), II. rewrite EA, EB in *. split.
      - intros [[EQ|H]|H]; auto.
        + right. injection EQ as E1 E2 E3. assert (i = i0) as -> by (apply (local_inj q); [apply I|auto|unfold local; now rewrite E1, E2]).
          subst j. cbn. auto.
        + right. destruct H as (H & H2). split; auto. now right.
      - intros [H|([EQ|H] & H2)]; auto. left. left. injection EQ as E1 E2 E3 E4.
        assert (i0 = i) as -> by (apply (local_inj q); [auto|apply I|unfold local; now rewrite E1, E2]).
        assert (j0 = j) as -> by (apply (local_inj q); [auto|apply J|unfold local; now rewrite E3, E4]). auto. }
    destruct (K (links q) [] (fun a b H => H) (NoDup_nil _)) as (p & E & N & X & F); [intros x []|].
    exists p. split; [exact E|]. split; auto. split; auto. intros i j I J. rewrite (F i j I J). unfold couples. cbn. tauto.
  Qed.
End deco.
