(** Sums of matrix entries over the ranks. *)
From Coq Require Import Reals Lra.
From Verif Require Import Common CommonFacts ParModel ParSpec ParProofs ParProofs2 BordModel BordSpec BordProofs BordProofs2.

Local Arguments rsum : simpl never.

Lemma rsum_single {A} (f : A -> R) k l : NoDup l -> In k l -> (forall i, In i l -> i <> k -> f i = 0%R) -> rsum f l = f k.
Proof.
  induction 1 as [|x l NI N IH]; intros I H; [destruct I|]. rewrite rsum_cons. destruct I as [->|I].
  - rewrite (rsum_zero f l); [lra|]. intros y Y. apply H; [now right|]. intros ->. contradiction.
  - rewrite IH; auto; [|intros; apply H; auto; now right]. rewrite (H x); [lra|now left|]. intros ->. contradiction.
Qed.

Definition mem (s : nat) (cs : list nat) : bool := existsb (Nat.eqb s) cs.
Lemma mem_iff s cs : mem s cs = true <-> In s cs.
Proof.
  unfold mem. rewrite existsb_exists. split.
  - intros (x & H & E). apply Nat.eqb_eq in E. now subst.
  - intros H. exists s. split; auto. apply Nat.eqb_refl.
Qed.

Lemma from_nodup W order q e : (forall q, q < nranks W -> NoDup (held W q)) -> Permutation order (interior_border_interior_border W) -> q < nranks W -> In e (held W q) ->
  NoDup (from order q e).
Proof.
  intros N P Q H. eapply Permutation_NoDup; [apply Permutation_sym, from_perm, P|]. unfold interior_border_interior_border.
  rewrite from_messages by auto. apply NoDup_filter, seq_NoDup.
Qed.

Lemma from_in order q e s : In s (from order q e) <-> In (s, q, e) order.
Proof.
  unfold from. rewrite in_map_iff. split.
  - intros (((s' & q') & e') & E & H). cbn in E. subst s'. apply filter_In in H as (H & K). cbn in K.
    apply andb_true_iff in K as (K1 & K2). apply Nat.eqb_eq in K1, K2. now subst.
  - intros H. exists (s, q, e). split; auto. apply filter_In. split; auto. cbn. now rewrite !Nat.eqb_refl.
Qed.

Lemma sum_from (v : nat -> R) cs order q e :
  rsum (fun m => if (snd m =? e) && mem (fst (fst m)) cs then v (fst (fst m)) else 0%R) (to_rank q order) =
  rsum v (filter (fun s => mem s cs) (from order q e)).
Proof.
  unfold to_rank, from. rewrite rsum_filter. rewrite (rsum_filter v). rewrite rsum_map. rewrite rsum_filter.
  apply rsum_ext. intros m _. destruct (snd (fst m) =? q), (snd m =? e), (mem (fst (fst m)) cs); reflexivity.
Qed.

Section acc.
  Variables (W : world) (cell : nat -> bool) (border : nat -> nat -> bool) (lindex : nat -> nat -> nat) (nindices : nat -> nat).
  Hypothesis DEC : decomposition W cell border lindex nindices.
  Variables (consV consU : nat -> ldof -> bool) (links : nat -> list (ldof * ldof)).
  Hypothesis LK : links_ok W lindex links.
  Variable rec : nat -> border_pattern.
  Hypothesis REC : forall q, q < nranks W -> record W cell border lindex nindices consV consU links q = Ok (rec q).
  Variable mp : nat -> ldof -> nat.
  Hypothesis INJ : injective_on W lindex mp.

  Notation rcache := (rank_cache W cell border lindex nindices).
  Notation loc := (local lindex).
  Notation bdof := (border_dof W border).
  Notation couple := (couples lindex consV consU links).
  Notation gp := (gather_pattern W cell lindex rec).
  Notation tgt := (target W cell border lindex nindices mp mp).
  Notation val := (fun (m : nat -> matrix) q i j => value (m q) (mp q (loc q i)) (mp q (loc q j))).

  Variable m : nat -> matrix.
  Hypothesis PAT : forall q s i j, q < nranks W -> s < nranks W -> bdof q i -> bdof q j -> bdof s i -> bdof s j -> couple s i j ->
    In (mp q (loc q i), mp q (loc q j)) (pattern (m q)).

  Lemma hits_in s q e i j : s < nranks W -> q < nranks W -> In e (held W s) -> In e (held W q) -> has_dof W q i -> has_dof W q j ->
    fst i = e -> bdof s i -> bdof s j -> bdof q j -> couple s i j ->
    rsum (hit W cell border lindex nindices mp mp q e (mp q (loc q i), mp q (loc q j))) (map (datum lindex mp mp s e (m s)) (gp s e)) = val m s i j.
  Proof.
    intros S Q HS HQ Hi Hj E B1 B2 B3 C. rewrite rsum_map.
    destruct i as (e' & k). cbn [fst] in E. subst e'.
    rewrite (rsum_single _ (k, j)).
    - unfold hit, datum. cbn [fst snd].
      assert (T : tgt q e (k, j) = Some (mp q (loc q (e, k)), mp q (loc q j))).
      { apply (target_spec W cell border lindex nindices DEC); auto. destruct B3 as ((_ & B3 & _) & B4). auto. }
      rewrite T. rewrite (proj2 (pair_eqb_iff _ _) eq_refl). reflexivity.
    - apply (gather_nodup W cell border lindex nindices DEC consV consU links LK rec REC); auto.
    - apply (gather_in W cell border lindex nindices DEC consV consU links LK rec REC); auto.
      split; [apply B1|auto].
    - intros (k' & col) H D. apply (gather_in W cell border lindex nindices DEC consV consU links LK rec REC) in H as (K & B4 & B5 & C'); auto.
      unfold hit, datum. cbn [fst snd]. destruct (tgt q e (k', col)) as [t|] eqn:T; auto.
      apply (target_spec W cell border lindex nindices DEC mp mp q e k' col t Q) in T as (T1 & T2 & ->).
      destruct (pair_eqb _ _) eqn:PE; auto. apply pair_eqb_iff in PE. injection PE as P1 P2. exfalso. apply D.
      assert (HC : has_dof W q col) by (repeat split; auto; apply B5).
      assert (HK : has_dof W q (e, k')) by (repeat split; auto).
      apply INJ in P1; auto. apply INJ in P2; auto. injection P1 as <-. now subst.
  Qed.

  Lemma hits_out s q e i j : s < nranks W -> q < nranks W -> In e (held W s) -> In e (held W q) -> has_dof W q i -> has_dof W q j ->
    ~ (fst i = e /\ bdof s i /\ bdof s j /\ bdof q j /\ couple s i j) ->
    rsum (hit W cell border lindex nindices mp mp q e (mp q (loc q i), mp q (loc q j))) (map (datum lindex mp mp s e (m s)) (gp s e)) = 0%R.
  Proof.
    intros S Q HS HQ Hi Hj N. rewrite rsum_map. apply rsum_zero.
    intros (k' & col) H. apply (gather_in W cell border lindex nindices DEC consV consU links LK rec REC) in H as (K & B4 & B5 & C'); auto.
    unfold hit, datum. cbn [fst snd]. destruct (tgt q e (k', col)) as [t|] eqn:T; auto.
    apply (target_spec W cell border lindex nindices DEC mp mp q e k' col t Q) in T as (T1 & T2 & ->).
    destruct (pair_eqb _ _) eqn:PE; auto. apply pair_eqb_iff in PE. injection PE as P1 P2. exfalso. apply N.
    assert (HC : has_dof W q col) by (repeat split; auto; apply B5).
    assert (HK : has_dof W q (e, k')) by (repeat split; auto).
    apply INJ in P1; auto. apply INJ in P2; auto. subst i col. split; [reflexivity|]. split; [auto|]. split; [auto|]. split; [split; auto|auto].
  Qed.

  Lemma accumulate_spec order : Permutation order (interior_border_interior_border W) ->
    exists m', accumulate W cell border lindex nindices rec mp mp order m = Ok m' /\
      forall q, q < nranks W -> pattern (m' q) = pattern (m q) /\
        forall i j, has_dof W q i -> has_dof W q j ->
        (~ (bdof q i /\ bdof q j) -> val m' q i j = val m q i j) /\
        (bdof q i -> bdof q j -> forall cs, NoDup cs -> (forall s, In s cs <-> s <> q /\ bdof s i /\ bdof s j /\ couple s i j) ->
         val m' q i j = (val m q i j + rsum (fun s => val m s i j) cs)%R).
  Proof.
    intros PO. unfold accumulate. destruct (Nat.ltb_spec 1 (nranks W)) as [L|L].
    2:{ exists m. split; auto. intros q Q. split; auto. intros i j Hi Hj. split; auto. intros Bi Bj cs N CS.
        destruct cs as [|s cs]; [unfold rsum; cbn; lra|]. exfalso. destruct (proj1 (CS s)) as (D & (B & _) & _); [now left|].
        assert (s < nranks W) by apply B. lia. }
    set (sc := scatter_data W cell border lindex nindices mp mp).
    set (b := fun s e => map (datum lindex mp mp s e (m s)) (gp s e)).
    set (h := fun q e x d => match sc q e x d with Ok x' => x' | _ => x end).
    assert (SC : forall s q e x, In (s, q, e) order -> pattern x = pattern (m q) ->
      exists x', sc q e x (b s e) = Ok x' /\ pattern x' = pattern x /\
        forall a c, value x' a c = (value x a c + rsum (hit W cell border lindex nindices mp mp q e (a, c)) (b s e))%R).
    { intros s q e x H PX. destruct (msg_facts W cell border lindex nindices DEC order s q e PO H) as (S & Q & D & HS & HQ & BS & BQ & C).
      apply scatter_data_spec; auto. intros d t Hd T. unfold b in Hd. apply in_map_iff in Hd as ((k & col) & <- & Hd).
      cbn [datum fst] in T. apply (gather_in W cell border lindex nindices DEC consV consU links LK rec REC) in Hd as (K & B4 & B5 & C'); auto.
      cbn [fst snd] in T. apply (target_spec W cell border lindex nindices DEC mp mp q e k col t Q) in T as (T1 & T2 & ->).
      rewrite PX. apply (PAT q s (e, k) col); auto; [repeat split; auto|]. split; auto. repeat split; auto. apply B5. }
    assert (GA : forall s q e, In (s, q, e) order -> gather_data W cell border lindex nindices rec mp mp s e (m s) = Ok (b s e)).
    { intros s q e H. destruct (msg_facts W cell border lindex nindices DEC order s q e PO H) as (S & Q & D & HS & HQ & BS & BQ & C).
      apply (gather_data_spec W cell border lindex nindices DEC consV consU links LK rec REC); auto.
      intros i j B1 B2 CP. apply (PAT s s i j); auto. }
    destruct (exchange_at (gather_data W cell border lindex nindices rec mp mp) sc b h (fun q x => pattern x = pattern (m q)) order m) as (m' & E & F).
    - exact GA.
    - intros s q e x H PX. destruct (SC s q e x H PX) as (x' & E & P & _). unfold h. rewrite E. split; [reflexivity|congruence].
    - auto.
    - exists m'. split; [exact E|]. intros q Q. 
      assert (K : forall l x, (forall mm, In mm l -> In mm order /\ snd (fst mm) = q) -> pattern x = pattern (m q) ->
        let x' := fold_left (fun x mm => h q (snd mm) x (b (fst (fst mm)) (snd mm))) l x in
        pattern x' = pattern (m q) /\ forall a c, value x' a c =
          (value x a c + rsum (fun mm => rsum (hit W cell border lindex nindices mp mp q (snd mm) (a, c)) (b (fst (fst mm)) (snd mm))) l)%R).
      { induction l as [|((s & q') & e) l IH]; intros x S PX; cbn [fold_left].
        - split; auto. intros. unfold rsum. cbn. lra.
        - destruct (S _ (or_introl eq_refl)) as (M & EQ). cbn [fst snd] in *. subst q'.
          destruct (SC s q e x M PX) as (x' & E' & P' & V). unfold h at 2. rewrite E'.
          assert (HE : h q e x (b s e) = x') by (unfold h; now rewrite E').
          rewrite HE. destruct (IH x') as (I1 & I2); [intros; apply S; now right|congruence|].
          split; [exact I1|]. intros a c. rewrite I2, V, rsum_cons. cbn [fst snd]. lra. }
      specialize (K (to_rank q order) (m q)). rewrite <- F in K.
      destruct K as (K1 & K2); auto.
      { intros mm H. apply filter_In in H as (H & H'). apply Nat.eqb_eq in H'. auto. }
      split; [exact K1|]. intros i j Hi Hj. split.
      + intros NB. rewrite K2. rewrite rsum_zero; [lra|]. intros ((s & q') & e) H. apply filter_In in H as (H & H'). cbn [fst snd] in *.
        apply Nat.eqb_eq in H'. subst q'. destruct (msg_facts W cell border lindex nindices DEC order s q e PO H) as (S & _ & D & HS & HQ & BS & BQ & C).
        apply hits_out; auto. intros (E1 & _ & _ & B & _). apply NB. split; auto. split; auto. now rewrite E1.
      + intros Bi Bj cs N CS. rewrite K2. f_equal.
        rewrite (rsum_ext _ (fun mm => if (snd mm =? fst i) && mem (fst (fst mm)) cs then val m (fst (fst mm)) i j else 0%R)).
        * rewrite (sum_from (fun s => val m s i j) cs order q (fst i)). apply rsum_perm. apply NoDup_Permutation; auto.
          { apply NoDup_filter, (from_nodup W); auto; [apply (dec_nodup _ _ _ _ _ DEC)|apply Bi]. }
          intros s. rewrite filter_In, mem_iff, from_in. split; [tauto|]. intros H. split; auto.
          apply CS in H as (D & ((S & HS & KS) & BS) & _). apply (Permutation_in _ (Permutation_sym PO)), in_messages.
          destruct Bi as ((_ & HQ & KQ) & BQ).
          destruct (dec_border _ _ _ _ _ DEC s (fst i) S HS BS), (dec_border _ _ _ _ _ DEC q (fst i) Q HQ BQ). repeat split; auto.
        * intros ((s & q') & e) H. apply filter_In in H as (H & H'). cbn [fst snd] in *. apply Nat.eqb_eq in H'. subst q'.
          destruct (msg_facts W cell border lindex nindices DEC order s q e PO H) as (S & _ & D & HS & HQ & BS & BQ & C).
          destruct (Nat.eqb_spec e (fst i)) as [->|NE]; cbn [andb].
          -- destruct (mem s cs) eqn:M.
             ++ apply mem_iff, CS in M as (_ & B1 & B2 & CP). apply hits_in; auto.
             ++ apply hits_out; auto. intros (_ & B1 & B2 & _ & CP). assert (X : In s cs) by (apply CS; auto). apply mem_iff in X. congruence.
          -- apply hits_out; auto. intros (E1 & _). congruence.
  Qed.
End acc.
