(** Proofs: global indices of shared DOFs (C43). *)
From Coq Require Import Reals Lra.
From Verif Require Import Common CommonFacts ParModel ParSpec ParProofs ParProofs2.

(** ** Shared DOFs *)

Lemma all_all_from W only order q e :
  grid_ok W only -> Permutation order (all_all_messages W only) -> q < nranks W -> In e (held W q) ->
  forall s, In s (from order q e) <-> s <> q /\ s < nranks W /\ In e (held W s).
Proof.
  intros (N & X & O) P Q E s.
  assert (K : In s (from order q e) <-> In s (from (all_all_messages W only) q e)).
  { split; apply Permutation_in; [|symmetry]; apply from_perm; auto. }
  rewrite K. unfold all_all_messages, all_all, interior_border_interior_border.
  destruct only; rewrite from_messages by auto; rewrite filter_In, in_seq, !andb_true_iff, negb_true_iff, Nat.eqb_neq, stores_iff;
    unfold everywhere.
  - rewrite (O eq_refl q e Q E). split; [intuition lia|]. intros (A & B & C). rewrite (O eq_refl s e B C). intuition lia.
  - intuition lia.
Qed.

Lemma shared_spec W only order :
  grid_ok W only -> Permutation order (all_all_messages W only) ->
  exists sh, shared_dofs W order = Ok sh /\
    forall q x, has_dof W q x -> (at_dof false (sh q) x = true <-> is_shared W x).
Proof.
  intros G P. unfold shared_dofs.
  destruct (communicate_at (shared_gather : nat -> nat -> list bool -> bool) shared_scatter
    (fun q e v b => map (fun c => c || b) v) (fun _ _ _ => True) order
    (filled W (fun _ => false))) as (sh & E & F); auto.
  exists sh. split; auto. intros q [e k] (Q & H & K). cbn in H, K. unfold at_dof. cbn [fst snd].
  rewrite F.
  assert (Z : forall l a n, fold_left (fun v b => map (fun c => c || b) v) l (repeat a n) = repeat (fold_left orb l a) n).
  { induction l as [|b l IH]; intros a n; cbn; auto. now rewrite map_repeat', IH. }
  unfold filled at 2. rewrite Z, at_repeat by auto.
  assert (Y : forall l a, fold_left orb l a = true <-> a = true \/ In true l).
  { induction l as [|b l IH]; intros a; cbn; [tauto|]. rewrite IH, orb_true_iff. intuition. }
  rewrite Y. rewrite in_map_iff. unfold shared_gather, filled.
  split.
  - intros [A|(s & A & I)]; [discriminate|]. apply (all_all_from W only) in I; auto.
    destruct I as (D & S1 & S2). exists q, s. unfold has_dof. cbn. auto.
  - intros (q1 & q2 & D & H1 & H2). right.
    assert (X : exists s, s <> q /\ s < nranks W /\ In e (held W s)).
    { destruct (Nat.eq_dec q1 q) as [->|D1]; [exists q2|exists q1]; unfold has_dof in *; cbn in *; intuition. }
    destruct X as (s & S1 & S2 & S3). exists s. split.
    + rewrite repeat_length. apply Nat.ltb_lt. lia.
    + apply (all_all_from W only order q e G P Q H). auto.
Qed.

(** ** Numbering of the owned shared DOFs of one rank *)

Section numbering.
  Variables (W : world) (layout : nat -> list dof) (part : dvec nat) (shared : dvec bool) (max_index : nat).
  Notation cnt q := (counted part shared q).

  Lemma count_filter q l : forall a, fold_left (fun count x => if cnt q x then S count else count) l a = a + length (filter (cnt q) l).
  Proof. induction l as [|x l IH]; intros a; cbn; [lia|]. rewrite IH. destruct (cnt q x); cbn; lia. Qed.
  Lemma shared_count_filter q : shared_count layout part shared q = length (filter (cnt q) (layout q)).
  Proof. unfold shared_count. now rewrite count_filter. Qed.

  Definition numbered_dofs (n : nat) : list dof := flat_map (fun q => filter (cnt q) (layout q)) (seq 0 n).

  Lemma fold_add_sum l : forall a, fold_left Nat.add l a = a + sum_nat l.
  Proof. unfold sum_nat. induction l as [|x l IH]; intros a; cbn; [lia|]. rewrite IH. lia. Qed.
  Lemma firstn_seq_le q n : q <= n -> forall b, firstn q (seq b n) = seq b q.
  Proof. revert n. induction q as [|q IH]; intros [|n] H b; cbn; auto; try lia. f_equal. apply IH. lia. Qed.
  Lemma start_index_length q : q < nranks W -> start_index W layout part shared q = length (numbered_dofs q).
  Proof.
    intros Q. unfold start_index. rewrite fold_add_sum. cbn.
    rewrite firstn_map, firstn_seq_le by lia. unfold numbered_dofs.
    clear Q. generalize 0. induction q as [|q IH]; intros b; cbn; auto.
    rewrite app_length, <- IH, shared_count_filter. reflexivity.
  Qed.

  Lemma numbered_split n q l1 x l2 : q < n -> layout q = l1 ++ x :: l2 -> cnt q x = true ->
    nth_error (numbered_dofs n) (length (numbered_dofs q) + length (filter (cnt q) l1)) = Some x.
  Proof.
    intros Q L C. unfold numbered_dofs. replace n with (q + (1 + (n - q - 1))) by lia.
    rewrite seq_app, flat_map_app. rewrite nth_error_app2 by lia.
    replace (_ + _ - _) with (length (filter (cnt q) l1)) by lia. cbn [Nat.add seq flat_map].
    rewrite L, filter_app, <- app_assoc. rewrite nth_error_app2 by lia. rewrite Nat.sub_diag. cbn.
    now rewrite C.
  Qed.

  Lemma set_index_same v x i d : snd x < length (v (fst x)) -> at_dof d (set_index v x i) x = i.
  Proof. intros H. unfold at_dof, set_index. rewrite Nat.eqb_refl. now apply upd_nth_same. Qed.
  Lemma set_index_other v x y i d : x <> y -> at_dof d (set_index v x i) y = at_dof d v y.
  Proof.
    intros H. unfold at_dof, set_index. destruct (Nat.eqb_spec (fst y) (fst x)) as [E|E]; auto.
    apply upd_nth_other. destruct x, y; cbn in *. congruence.
  Qed.
  Lemma set_index_length v x i e : length (set_index v x i e) = length (v e).
  Proof. unfold set_index. destruct (e =? fst x); auto. apply upd_length. Qed.

  Definition num_step q := fun '(v, start) x => if cnt q x then (set_index v x start, S start) else (v, start).

  Lemma number_fold q l : forall v start,
    snd (fold_left (num_step q) l (v, start)) = start + length (filter (cnt q) l) /\
    (forall e, length (fst (fold_left (num_step q) l (v, start)) e) = length (v e)) /\
    (forall y, ~ In y l \/ cnt q y = false -> at_dof 0 (fst (fold_left (num_step q) l (v, start))) y = at_dof 0 v y).
  Proof.
    induction l as [|x l IH]; intros v start; cbn [fold_left filter]; [cbn; repeat split; auto|].
    unfold num_step at 2 4 6. destruct (cnt q x) eqn:C.
    - destruct (IH (set_index v x start) (S start)) as (A & B & D). repeat split.
      + rewrite A. cbn. lia.
      + intros e. rewrite B. apply set_index_length.
      + intros y [H|H]; rewrite D; auto; try (left; intros Hi; apply H; now right); apply set_index_other; intros ->; [apply H; now left|congruence].
    - destruct (IH v start) as (A & B & D). repeat split; auto.
      intros y [H|H]; apply D; auto. left. intros Hi. apply H. now right.
  Qed.

  Lemma number_at q x l1 l2 : layout q = l1 ++ x :: l2 -> NoDup (layout q) -> snd x < ndofs W (fst x) ->
    at_dof 0 (number_owned W layout part shared max_index q) x =
    if cnt q x then start_index W layout part shared q + length (filter (cnt q) l1) else max_index.
  Proof.
    intros L N K. unfold number_owned. change (fun '(v, start) x0 => _) with (num_step q). rewrite L in *.
    set (v0 := fun e => repeat max_index (ndofs W e)). set (s0 := start_index W layout part shared q).
    destruct (cnt q x) eqn:C.
    - rewrite fold_left_app. cbn [fold_left].
      destruct (number_fold q l1 v0 s0) as (A & B & D).
      destruct (fold_left (num_step q) l1 (v0, s0)) as [v1 s1]. cbn [fst snd] in A, B, D.
      unfold num_step at 2. rewrite C.
      destruct (number_fold q l2 (set_index v1 x s1) (S s1)) as (_ & _ & D'). rewrite D'.
      + rewrite set_index_same; auto. rewrite B. unfold v0. now rewrite repeat_length.
      + left. apply NoDup_remove_2 in N. intros H. apply N, in_app_iff. auto.
    - destruct (number_fold q (l1 ++ x :: l2) v0 s0) as (_ & _ & D). rewrite D by auto.
      unfold at_dof, v0. now apply at_repeat.
  Qed.
  Lemma number_sized : sized W (number_owned W layout part shared max_index).
  Proof.
    intros q e Q H. unfold number_owned. change (fun '(v, start) x0 => _) with (num_step q).
    rewrite (proj1 (proj2 (number_fold q (layout q) _ _))). apply repeat_length.
  Qed.
End numbering.

Lemma nth_error_combine_seq {A} (l : list A) : forall b i x, In (i, x) (combine (seq b (length l)) l) <-> b <= i /\ nth_error l (i - b) = Some x.
Proof.
  induction l as [|y l IH]; intros b i x; cbn.
  - split; [tauto|]. intros (_ & H). destruct (i - b); discriminate.
  - rewrite IH. split.
    + intros [E|(L & H)]; [injection E as -> ->; rewrite Nat.sub_diag; cbn; auto|].
      split; [lia|]. replace (i - b) with (S (i - S b)) by lia. auto.
    + intros (L & H). destruct (Nat.eq_dec i b) as [->|D].
      * left. rewrite Nat.sub_diag in H. cbn in H. congruence.
      * right. split; [lia|]. replace (i - b) with (S (i - S b)) in H by lia. auto.
Qed.

Lemma fold_min_top l m top : (forall x, In x l -> x = top \/ x = m) -> m <= top ->
  forall a, a = top \/ a = m -> In m (a :: l) -> fold_left Nat.min l a = m.
Proof.
  intros H M a Ha I. destruct (fold_min_spec l a) as (A & B & C).
  assert (fold_left Nat.min l a <= m) by (destruct I as [->|I]; auto).
  assert (fold_left Nat.min l a = top \/ fold_left Nat.min l a = m) by (destruct A as [->|A]; auto). lia.
Qed.

Lemma amg_spec W only layout max_index o1 o2 o3 :
  grid_ok W only ->
  (forall q, q < nranks W -> arranges W q (layout q)) ->
  (forall l, NoDup l -> (forall x, In x l -> is_shared W x) -> length l <= max_index) ->
  Permutation o1 (ib_all_messages W only) -> Permutation o2 (all_all_messages W only) ->
  Permutation o3 (ib_all_messages W only) ->
  exists sets L, amg_index_sets W layout max_index o1 o2 o3 = Ok sets /\
    NoDup L /\ (forall x, In x L <-> is_shared W x) /\
    (forall g g' x x' r r', nth_error L g = Some x -> nth_error L g' = Some x' -> g <= g' ->
       smallest_ib W (fst x) r -> smallest_ib W (fst x') r' -> r <= r') /\
    (forall q g i b, q < nranks W ->
       (In (g, i, b) (sets q) <->
        exists x, nth_error (layout q) i = Some x /\ nth_error L g = Some x /\ (b = true <-> smallest_ib W (fst x) q))).
Proof.
  intros G LA MX P1 P2 P3. unfold amg_index_sets.
  destruct (partition_spec W only o1 G P1) as (part & E1 & PS). rewrite E1. cbn [bind].
  destruct (shared_spec W only o2 G P2) as (sh & E2 & SS). rewrite E2. cbn [bind].
  (* ownership of a DOF *)
  assert (OWN : forall q x, has_dof W q x -> (owned_for_amg part q x = true <-> smallest_ib W (fst x) q)).
  { intros q x (Q & H & K). unfold owned_for_amg, at_dof. destruct (PS q (fst x) Q H) as (r & R1 & R2).
    rewrite R2, at_repeat by auto. rewrite Nat.eqb_eq. split; [intros ->; auto|]. intros S1. eapply smallest_unique; eauto. }
  assert (CNT : forall q x, has_dof W q x -> (counted part sh q x = true <-> smallest_ib W (fst x) q /\ is_shared W x)).
  { intros q x H. unfold counted. rewrite andb_true_iff, OWN, SS by auto. tauto. }
  assert (OE : forall q x, has_dof W q x -> exists r, smallest_ib W (fst x) r /\ has_dof W r x).
  { intros q x (Q & H & K). destruct (PS q (fst x) Q H) as (r & R1 & _). exists r. split; auto.
    destruct R1 as ((A & B & _) & _). repeat split; auto. }
  set (n := nranks W). set (L := numbered_dofs layout part sh n).
  assert (INL : forall x, In x L <-> is_shared W x).
  { intros x. unfold L, numbered_dofs. rewrite in_flat_map. split.
    - intros (q & Q & H). apply in_seq in Q. apply filter_In in H as (H & C). apply LA in H; [|lia]. apply CNT in C; tauto.
    - intros S1. destruct S1 as (q & q' & D & H & H'). destruct (OE q x H) as (r & R1 & R2). exists r.
      split; [apply in_seq; destruct R2; lia|]. apply filter_In. split; [apply LA; [destruct R2; auto|auto]|].
      apply CNT; auto. split; auto. exists q, q'. auto. }
  assert (NDL : forall m, m <= n -> NoDup (numbered_dofs layout part sh m)).
  { induction m as [|m IH]; intros M; [constructor|]. unfold numbered_dofs. rewrite seq_S, flat_map_app. cbn [flat_map].
    rewrite app_nil_r.
    assert (DJ : forall x, In x (numbered_dofs layout part sh m) -> In x (filter (counted part sh (0 + m)) (layout (0 + m))) -> False).
    { intros x Hx Hy. apply in_flat_map in Hx as (q & Q & Hx). apply in_seq in Q.
      apply filter_In in Hx as (X1 & X2). apply filter_In in Hy as (Y1 & Y2).
      apply LA in X1; [|unfold n in *; lia]. apply LA in Y1; [|unfold n in *; lia]. apply CNT in X2; auto. apply CNT in Y2; auto.
      assert (q = 0 + m) by (eapply smallest_unique; [apply X2|apply Y2]). lia. }
    fold (numbered_dofs layout part sh m).
    assert (N2 : NoDup (filter (counted part sh (0 + m)) (layout (0 + m)))).
    { apply NoDup_filter. apply LA. unfold n in *. cbn. lia. }
    revert DJ N2 IH. generalize (filter (counted part sh (0 + m)) (layout (0 + m))) as l2.
    intros l2 DJ N2 IH. assert (N1 : NoDup (numbered_dofs layout part sh m)) by (apply IH; lia). clear IH.
    revert DJ N1. generalize (numbered_dofs layout part sh m) as l1.
    induction l1 as [|y l1 IH1]; intros DJ N1; cbn; auto. inversion N1; subst. constructor.
    - rewrite in_app_iff. intros [X|X]; [contradiction|]. apply (DJ y); auto. now left.
    - apply IH1; auto. intros x A B. apply (DJ x); auto. now right. }
  assert (ND : NoDup L) by (apply NDL; unfold n; lia).
  assert (LEN : length L <= max_index) by (apply MX; auto; intros x; apply INL).
  (* values before the exchange *)
  set (num := number_owned W layout part sh max_index).
  assert (NUM : forall q x, has_dof W q x -> is_shared W x -> smallest_ib W (fst x) q ->
     nth_error L (at_dof 0 (num q) x) = Some x).
  { intros q x H S1 S2. assert (Q : q < n) by apply H.
    assert (I : In x (layout q)) by (apply LA; auto).
    destruct (in_split _ _ I) as (l1 & l2 & LL).
    assert (C : counted part sh q x = true) by (apply CNT; auto).
    unfold num. rewrite (number_at W layout part sh max_index q x l1 l2 LL); [|apply LA; auto|apply H].
    rewrite C, start_index_length by auto. eapply numbered_split; eauto. }
  assert (NUM' : forall q x, has_dof W q x -> ~ (is_shared W x /\ smallest_ib W (fst x) q) -> at_dof 0 (num q) x = max_index).
  { intros q x H S1. assert (Q : q < n) by apply H.
    assert (I : In x (layout q)) by (apply LA; auto).
    destruct (in_split _ _ I) as (l1 & l2 & LL).
    unfold num. rewrite (number_at W layout part sh max_index q x l1 l2 LL); [|apply LA; auto|apply H].
    destruct (counted part sh q x) eqn:C; auto. apply CNT in C; auto. tauto. }
  (* the exchange *)
  assert (SZ : sized W num) by apply number_sized.
  assert (PM : exists snd rcv, Permutation o3 (messages W snd rcv)).
  { unfold ib_all_messages in P3. destruct only; eexists _, _; exact P3. }
  destruct PM as (sn & rc & PM).
  destruct (dofs_at Nat.min 0 W sn rc o3 num SZ PM) as (idx & E3 & SZ3 & F).
  unfold scalar_indices. fold num. rewrite E3. cbn [bind].
  assert (IDX : forall q x, has_dof W q x ->
     at_dof 0 (idx q) x = fold_left Nat.min (map (fun s => at_dof 0 (num s) x) (from o3 q (fst x))) (at_dof 0 (num q) x)).
  { intros q x (Q & H & K). exact (proj2 (F q (fst x) Q H) (snd x) K). }
  assert (SND : forall q x s, has_dof W q x -> In s (from o3 q (fst x)) ->
     has_dof W s x /\ ib W s (fst x) = true).
  { intros q x s (Q & H & K) I. apply (ib_all_from W only o3 q (fst x) G P3 Q H) in I. unfold has_dof. tauto. }
  assert (SH : forall q x, has_dof W q x -> is_shared W x -> nth_error L (at_dof 0 (idx q) x) = Some x).
  { intros q x H S1. destruct (OE q x H) as (r & R1 & R2).
    assert (NR := NUM r x R2 S1 R1). rewrite IDX by auto.
    assert (M : at_dof 0 (num r) x <= max_index).
    { assert (at_dof 0 (num r) x < length L) by (apply nth_error_Some; congruence). lia. }
    assert (V : forall s, has_dof W s x -> at_dof 0 (num s) x = max_index \/ at_dof 0 (num s) x = at_dof 0 (num r) x).
    { intros s Hs. destruct (Nat.eq_dec s r) as [->|D]; auto. left. apply NUM'; auto. intros (_ & S2).
      apply D. eapply smallest_unique; eauto. }
    rewrite (fold_min_top _ (at_dof 0 (num r) x) max_index); auto.
    - intros y Hy. apply in_map_iff in Hy as (s & <- & Hs). apply V. apply (SND q x s); auto.
    - destruct (Nat.eq_dec r q) as [->|D]; [now left|right].
      apply in_map_iff. exists r. split; auto. apply (ib_all_from W only o3 q (fst x) G P3); try apply H.
      destruct R1 as ((A & B & C) & _). auto. }
  assert (NSH : forall q x, has_dof W q x -> ~ is_shared W x -> at_dof 0 (idx q) x = max_index).
  { intros q x H S1. rewrite IDX by auto.
    rewrite (fold_min_top _ max_index max_index); auto.
    - intros y Hy. apply in_map_iff in Hy as (s & <- & Hs). left. apply NUM'; [apply (SND q x s); auto|tauto].
    - left. apply NUM'; [auto|tauto].
    - left. apply NUM'; [auto|tauto]. }
  assert (DEC : forall q x, has_dof W q x -> is_shared W x \/ ~ is_shared W x).
  { intros q x H. destruct (at_dof false (sh q) x) eqn:B.
    - left. apply (SS q); auto.
    - right. intros S1. apply (SS q) in S1; auto. congruence. }
  exists (index_set layout part max_index idx), L. split; auto. split; auto. split; auto. split.
  - (* rank by rank *)
    intros g g' x x' r r' A B LE R R'.
    assert (MON : forall m, m <= n -> forall y ry, In y (numbered_dofs layout part sh m) -> smallest_ib W (fst y) ry -> ry < m).
    { intros m M y ry I S1. apply in_flat_map in I as (q & Q & I). apply in_seq in Q. apply filter_In in I as (I & C).
      apply LA in I; [|unfold n in *; lia]. apply CNT in C; auto.
      assert (ry = q) by (eapply smallest_unique; [eauto|apply C]). lia. }
    assert (SPL : forall m, m <= n -> exists t, L = numbered_dofs layout part sh m ++ t).
    { intros m M. unfold L, numbered_dofs. replace n with (m + (n - m)) by lia. rewrite seq_app, flat_map_app. eauto. }
    assert (LOC : forall y gy ry, nth_error L gy = Some y -> smallest_ib W (fst y) ry ->
      length (numbered_dofs layout part sh ry) <= gy < length (numbered_dofs layout part sh (S ry))).
    { intros y gy ry Hy S1. assert (RN : S ry <= n) by (destruct S1 as ((S1 & _) & _); unfold n; lia).
      split.
      - destruct (le_lt_dec (length (numbered_dofs layout part sh ry)) gy) as [|LT]; auto. exfalso.
        destruct (SPL ry) as (t & T); [lia|]. rewrite T, nth_error_app1 in Hy by auto.
        apply nth_error_In in Hy. assert (ry < ry) by (eapply MON; [|exact Hy|exact S1]; lia). lia.
      - destruct (SPL (S ry) RN) as (t & T).
        assert (I : In y (numbered_dofs layout part sh (S ry))).
        { assert (SY : is_shared W y) by (apply INL; eapply nth_error_In; eauto).
          destruct SY as (q & q' & D & H & H'). 
          assert (HR : has_dof W ry y) by (destruct S1 as ((S1 & S2 & _) & _); destruct H as (_ & _ & K); repeat split; auto).
          apply in_flat_map. exists ry. split; [apply in_seq; lia|]. apply filter_In. split; [apply LA; auto; apply HR|].
          apply CNT; auto. split; auto. exists q, q'. auto. }
        apply In_nth_error in I as (g0 & I).
        assert (g0 = gy).
        { apply (proj1 (NoDup_nth_error L) ND).
          - assert (g0 < length (numbered_dofs layout part sh (S ry))) by (apply nth_error_Some; congruence).
            rewrite T, app_length. lia.
          - rewrite Hy. rewrite T, nth_error_app1; [auto|]. apply nth_error_Some. congruence. }
        subst g0. apply nth_error_Some. congruence. }
    pose proof (LOC _ _ _ A R) as LA1. pose proof (LOC _ _ _ B R') as LB1.
    destruct (le_lt_dec r r') as [|LT]; auto. exfalso.
    assert (length (numbered_dofs layout part sh (S r')) <= length (numbered_dofs layout part sh r)).
    { unfold numbered_dofs. replace r with (S r' + (r - S r')) by lia. rewrite seq_app, flat_map_app, app_length. lia. }
    lia.
  - intros q g i b Q. unfold index_set. rewrite in_flat_map.
    assert (HI : forall i x, nth_error (layout q) i = Some x -> has_dof W q x).
    { intros j x H. apply LA; auto. eapply nth_error_In; eauto. }
    split.
    + intros ((j, x) & I & H). apply nth_error_combine_seq in I as (_ & I). rewrite Nat.sub_0_r in I.
      assert (HX := HI _ _ I).
      destruct (Nat.eqb_spec (at_dof 0 (idx q) x) max_index) as [Z|Z]; [destruct H|].
      destruct H as [H|[]]. injection H as <- <- <-. exists x. split; auto.
      destruct (DEC q x HX) as [S1|S1]; [|rewrite NSH in Z by auto; congruence].
      split; auto.
    + intros (x & I & A & B). assert (HX := HI _ _ I). exists (i, x). split.
      * apply nth_error_combine_seq. rewrite Nat.sub_0_r. split; [lia|auto].
      * assert (S1 : is_shared W x) by (apply INL; eapply nth_error_In; eauto).
        pose proof (SH q x HX S1) as SX.
        assert (g = at_dof 0 (idx q) x).
        { apply (proj1 (NoDup_nth_error L) ND); [apply nth_error_Some; congruence|congruence]. }
        subst g. assert (at_dof 0 (idx q) x < length L) by (apply nth_error_Some; congruence).
        destruct (Nat.eqb_spec (at_dof 0 (idx q) x) max_index); [lia|]. left. f_equal.
        apply Bool.eq_iff_eq_true. rewrite OWN by auto. tauto.
Qed.

(** The neighbours given to the remote index sets are the ranks that share an entity. *)
Lemma neighbors_spec W only order q r :
  grid_ok W only -> Permutation order (all_all_messages W only) -> q < nranks W ->
  (In r (amg_neighbors W order q) <-> r <> q /\ r < nranks W /\ exists e, In e (held W q) /\ In e (held W r)).
Proof.
  intros G P Q. unfold amg_neighbors. rewrite filter_In, in_seq, existsb_exists. split.
  - intros (_ & [[s q'] e] & I & H). cbn in H. apply andb_true_iff in H as (H1 & H2).
    apply Nat.eqb_eq in H1, H2. subst. apply (Permutation_in _ P) in I.
    unfold all_all_messages in I. destruct only; apply in_messages in I; split; [tauto|split; [tauto|exists e; tauto]| |]; try tauto.
    split; [tauto|exists e; tauto].
  - intros (D & R1 & e & E1 & E2). split; [lia|]. exists (r, q, e). cbn. rewrite !Nat.eqb_refl. split; auto.
    apply (Permutation_in _ (Permutation_sym P)). destruct G as (N & X & O).
    unfold all_all_messages. destruct only; apply in_messages; repeat split; auto.
Qed.
