(** Proofs about statistics. *)
From Coq Require Import Permutation.
From Verif Require Import Common CommonFacts StatModel StatSpec PatternModel PatternSpec PatternProofs.

Lemma stat_loop (g : nat -> nat) n : fold_left (fun '(nnz, longest) i => (nnz + g i, Nat.max longest (g i))) (seq 0 n) (0, 0) =
  (sum_nat (map g (seq 0 n)), fold_left (fun m i => Nat.max m (g i)) (seq 0 n) 0).
Proof.
  induction n as [|n IH]; [reflexivity|]. rewrite seq_S, !fold_left_app, IH, map_app, sum_nat_app. cbn. f_equal. lia.
Qed.
Lemma max_bound (g : nat -> nat) n : forall i, i < n -> g i <= fold_left (fun m i => Nat.max m (g i)) (seq 0 n) 0.
Proof.
  induction n as [|n IH]; intros i I; [lia|]. rewrite seq_S, fold_left_app. cbn. destruct (Nat.eq_dec i n) as [->|N]; [lia|]. specialize (IH i ltac:(lia)). lia.
Qed.
Lemma max_attained (g : nat -> nat) n : let m := fold_left (fun m i => Nat.max m (g i)) (seq 0 n) 0 in m = 0 \/ exists i, i < n /\ g i = m.
Proof.
  induction n as [|n IH]; [left; reflexivity|]. cbn zeta. rewrite seq_S, fold_left_app. cbn -[Nat.max].
  set (m := fold_left _ _ _) in *. destruct (Nat.max_spec m (g n)) as [[L ->]|[L ->]]; [right; exists n; split; [lia|reflexivity]|].
  destruct IH as [Z|(i & I & E)]; [left; exact Z|right; exists i; split; [lia|exact E]].
Qed.
Lemma inv_overflow r e links p : inv r e links p -> overflowCount p = sum_nat (map (fun i => row_size i links - e) (seq 0 r)).
Proof.
  intros Hp. unfold overflowCount. rewrite (over_count r); [|apply (inv_over _ _ _ _ Hp)].
  f_equal. apply map_ext_in. intros i Hi. apply in_seq in Hi.
  destruct (inv_row _ _ _ _ Hp i) as (cs & m & Hrow); [lia|].
  assert (Hi' : i < r) by lia.
  destruct (row_disjoint _ _ _ _ _ _ _ Hp Hi' Hrow) as [Hn Hin].
  rewrite (row_size_eq _ _ _ Hn Hin), app_length.
  destruct Hrow as (Hsl & _ & Hne & Hov & _).
  assert (Hlen : length cs + m = e).
  { apply (f_equal (@length N)) in Hsl. rewrite slice_length, app_length, repeat_length in Hsl.
    - rewrite (inv_epr _ _ _ _ Hp) in Hsl. lia.
    - rewrite (inv_epr _ _ _ _ Hp), (inv_len _ _ _ _ Hp). nia. }
  destruct (over_row i (overflow p)) as [|j t] eqn:Eo; cbn [length]; [lia|].
  assert (m = 0) by (apply (Hov j); apply over_row_in; rewrite Eo; now left). lia.
Qed.
Lemma inv_describes n e links p : inv n e links p -> describes (leaf_stat n p) n e links.
Proof.
  intros H. unfold leaf_stat. rewrite (inv_sizes _ _ _ _ H). set (g := fun i => row_size i links).
  assert (E : forall i, i < n -> nth i (map g (seq 0 n)) 0 = g i).
  { intros i I. rewrite (nth_indep _ 0 (g 0)) by now rewrite map_length, seq_length. rewrite map_nth, seq_nth by exact I. reflexivity. }
  assert (F : forall k, k <= n -> fold_left (fun '(nnz, longest) i => (nnz + nth i (map g (seq 0 n)) 0, Nat.max longest (nth i (map g (seq 0 n)) 0))) (seq 0 k) (0, 0) =
              fold_left (fun '(nnz, longest) i => (nnz + g i, Nat.max longest (g i))) (seq 0 k) (0, 0)).
  { induction k as [|k IH]; intros K; [reflexivity|]. rewrite seq_S, !fold_left_app, IH by lia. clear IH.
    cbn [fold_left]. destruct (fold_left (fun '(nnz, longest) i => (nnz + g i, Nat.max longest (g i))) (seq 0 k) (0, 0)) as [a b]. change (0 + k) with k.
    cbv iota beta. now rewrite (E k) by lia. }
  rewrite (F n (le_n n)), stat_loop. unfold describes. cbn. split; [reflexivity|]. split; [exact (max_bound g n)|]. split; [exact (max_attained g n)|].
  split; [exact (inv_overflow _ _ _ _ H)|]. split; [exact (inv_epr _ _ _ _ H)|reflexivity].
Qed.

(** The number of distinct links is the sum over the rows. *)
Definition link_dec (a b : nat * N) : {a = b} + {a <> b}. Proof. decide equality; [apply N.eq_dec|apply Nat.eq_dec]. Defined.
Lemma count_links n links : (forall i j, In (i, j) links -> i < n) -> sum_nat (map (fun i => row_size i links) (seq 0 n)) = length (nodup link_dec links).
Proof.
  intros H. rewrite (over_count n (nodup link_dec links)).
  - f_equal. apply map_ext. intros i. apply row_size_eq; [apply over_row_nodup, NoDup_nodup|]. intros j. rewrite over_row_in. apply nodup_In.
  - intros i j I. apply nodup_In in I. exact (H i j I).
Qed.

(** ** Nested matrices *)
Lemma flat_map_F2 {X A B} (R : A -> B -> Prop) (f : X -> list A) (g : X -> list B) l : (forall x, In x l -> Forall2 R (f x) (g x)) ->
  Forall2 R (flat_map f l) (flat_map g l).
Proof.
  induction l as [|x l IH]; intros H; cbn; [constructor|]. apply Forall2_app; [apply H; left; reflexivity|apply IH; intros; apply H; right; assumption].
Qed.
Lemma F2_map_r {A B C} (R : A -> C -> Prop) (h : B -> C) l m : Forall2 (fun a b => R a (h b)) l m -> Forall2 R l (map h m).
Proof. induction 1; cbn; constructor; assumption. Qed.
Lemma F2_impl {A B} (R Q : A -> B -> Prop) l m : (forall a b, R a b -> Q a b) -> Forall2 R l m -> Forall2 Q l m.
Proof. intros H. induction 1; constructor; auto. Qed.
Definition prefixed (bs : list (nat * nat)) (links : list (list N * list N)) (ll : list (nat * N)) : Prop :=
  forall i j, In (i, j) ll <-> In (map (fun b => N.of_nat (fst b)) bs ++ [N.of_nat i], map (fun b => N.of_nat (snd b)) bs ++ [j]) links.
Lemma allocate_spec d : forall e ro co links t, ninv d e ro co links t ->
  Forall2 (fun s bs => exists n ll, leaf_block ro co bs n /\ prefixed bs links ll /\ describes s n e ll) (allocate t ro co) (blocks d ro co).
Proof.
  induction d as [|d IH]; intros e ro co links t H; cbn [ninv] in H; destruct ro as [n|rs]; try tauto; destruct co as [m|cs]; try tauto; destruct t as [p|nr nc subs]; try tauto.
  - cbn. repeat constructor. exists n, (leaf_links links). split; [constructor|]. split; [intros i j; apply leaf_links_in|now apply inv_describes].
  - destruct H as [-> H]. cbn [allocate blocks blockCount child]. apply flat_map_F2. intros i I. apply in_seq in I. apply flat_map_F2. intros j J. apply in_seq in J.
    apply F2_map_r. destruct (nth_error rs i) as [r|] eqn:Er; [|apply nth_error_None in Er; lia]. destruct (nth_error cs j) as [c|] eqn:Ec; [|apply nth_error_None in Ec; lia].
    destruct (H i j r c Er Ec) as (s & Es & Hs). rewrite (nth_error_nth _ _ (OLeaf 0) Er), (nth_error_nth _ _ (OLeaf 0) Ec).
    rewrite (nth_error_nth (map allocate subs) (i * length cs + j) (fun _ _ => []) (x := allocate s)) by now rewrite nth_error_map, Es.
    eapply F2_impl; [|exact (IH e r c _ s Hs)]. cbn beta. intros st bs (n & ll & L & P & D). exists n, ll. split; [econstructor; eassumption|]. split; [|exact D].
    intros a b. rewrite (P a b). cbn. apply strip_in.
Qed.
Lemma blocks_all d : forall ro co bs n, same_depth d ro -> same_depth d co -> leaf_block ro co bs n -> In bs (blocks d ro co).
Proof.
  induction d as [|d IH]; intros ro co bs n Sr Sc L.
  - inversion Sr; subst. inversion L; subst. left. reflexivity.
  - inversion Sr as [|? rs Fr]; subst. inversion Sc as [|? cs Fc]; subst. inversion L as [|? ? i j r c bs' ? Er Ec L']; subst. cbn [blocks].
    apply in_flat_map. exists i. split; [apply in_seq; split; [lia|]; cbn; apply nth_error_Some; congruence|].
    apply in_flat_map. exists j. split; [apply in_seq; split; [lia|]; cbn; apply nth_error_Some; congruence|].
    rewrite (nth_error_nth _ _ (OLeaf 0) Er), (nth_error_nth _ _ (OLeaf 0) Ec). apply in_map. rewrite Forall_forall in Fr, Fc.
    apply (IH r c bs' n); [apply Fr; eapply nth_error_In; eassumption|apply Fc; eapply nth_error_In; eassumption|exact L'].
Qed.

(** ** Life of the statistics *)
Definition good (w : world) : Prop :=
  (forall i a c, nth_error (objects w) i = Some a -> cont a = Some c -> c < length (containers w)) /\
  (forall i j a b c, nth_error (objects w) i = Some a -> nth_error (objects w) j = Some b -> cont a = Some c -> cont b = Some c -> i = j) /\
  (forall i a, nth_error (objects w) i = Some a -> stats a <> [] -> exists c, cont a = Some c /\ nth_error (containers w) c = Some (stats a)).
Lemma good_start : good start.
Proof. repeat split; intros [|i]; discriminate. Qed.
Lemma nth_snoc {A} (l : list A) x i y : nth_error (l ++ [x]) i = Some y -> nth_error l i = Some y \/ (i = length l /\ y = x).
Proof.
  intros H. destruct (Nat.lt_ge_cases i (length l)) as [L|L]; [left; now rewrite nth_error_app1 in H|]. right. rewrite nth_error_app2 in H by exact L.
  destruct (i - length l) as [|k] eqn:E; [cbn in H; split; [lia|congruence]|destruct k; discriminate].
Qed.
Lemma nth_app_l {A} (l m : list A) i y : nth_error l i = Some y -> nth_error (l ++ m) i = Some y.
Proof. intros H. rewrite nth_error_app1; [exact H|]. apply nth_error_Some. congruence. Qed.
(** a new object with a new container *)
Lemma good_new w s st : good w -> (st <> [] -> st = s) -> good (mkworld (containers w ++ [s]) (objects w ++ [mkobj (Some (length (containers w))) st])).
Proof.
  intros (A & B & C) E. repeat split; cbn.
  - intros i a c H K. rewrite app_length. cbn. apply nth_snoc in H as [H|[_ ->]]; [specialize (A i a c H K); lia|]. cbn in K. injection K as <-. lia.
  - intros i j a b c H1 H2 K1 K2. apply nth_snoc in H1 as [H1|[-> ->]]; apply nth_snoc in H2 as [H2|[-> ->]].
    + exact (B i j a b c H1 H2 K1 K2).
    + cbn in K2. injection K2 as <-. specialize (A i a _ H1 K1). lia.
    + cbn in K1. injection K1 as <-. specialize (A j b _ H2 K2). lia.
    + reflexivity.
  - intros i a H K. apply nth_snoc in H as [H|[-> ->]].
    + destruct (C i a H K) as (c & E1 & E2). exists c. split; [exact E1|now apply nth_app_l].
    + exists (length (containers w)). cbn in *. split; [reflexivity|]. rewrite nth_error_app2, Nat.sub_diag by lia. cbn. now rewrite (E K).
Qed.
Lemma upd_get {A} (l : list A) i x k y : nth_error (upd i x l) k = Some y -> (k = i /\ y = x /\ i < length l) \/ (k <> i /\ nth_error l k = Some y).
Proof.
  intros H. destruct (Nat.eq_dec k i) as [->|N].
  - left. assert (L : i < length l) by (rewrite <- (upd_length i x l); apply nth_error_Some; congruence). rewrite upd_nth_error_same in H by exact L. split; [reflexivity|]. split; [congruence|exact L].
  - right. split; [exact N|]. now rewrite upd_nth_error_other in H by auto.
Qed.
Lemma step_good w o w' : good w -> unshared o -> step w o = Ok w' -> good w'.
Proof.
  intros G U H. pose proof G as (A & B & C). destruct o as [go|go c| | |i|i j|i|i j]; cbn in U, H; try contradiction.
  - injection H as <-. now apply good_new.
  - injection H as <-. repeat split; cbn.
    + intros i a c H K. apply nth_snoc in H as [H|[_ ->]]; [exact (A i a c H K)|discriminate].
    + intros i j a b c H1 H2 K1 K2. apply nth_snoc in H1 as [H1|[_ ->]]; [|discriminate]. apply nth_snoc in H2 as [H2|[_ ->]]; [|discriminate]. exact (B i j a b c H1 H2 K1 K2).
    + intros i a H K. apply nth_snoc in H as [H|[_ ->]]; [exact (C i a H K)|contradiction].
  - injection H as <-. apply good_new; [exact G|contradiction].
  - destruct (deref (objects w) i) as [a| |]; try discriminate. cbn [bind] in H. destruct (pointee w a) as [s| |]; try discriminate. injection H as <-. apply good_new; [exact G|contradiction].
  - unfold deref in H. destruct (nth_error (objects w) i) as [a|] eqn:Ea; [|discriminate]. cbn [bind] in H. destruct (nth_error (objects w) j) as [b|] eqn:Eb; [|discriminate]. cbn [bind] in H.
    destruct (i =? j) eqn:Eij; [injection H as <-; exact G|]. destruct (pointee w b) as [s| |]; try discriminate. cbn [bind] in H. destruct (cont a) as [c|] eqn:Eca.
    + destruct (nth_error (containers w) c) as [old|] eqn:Ec; [|discriminate]. cbn in H. injection H as <-. repeat split; cbn.
      * intros k x c' H K. rewrite upd_length. apply upd_get in H as [(-> & -> & _)|[_ H]]; [cbn in K; injection K as <-; exact (A i a c Ea Eca)|exact (A k x c' H K)].
      * intros k l x y c' H1 H2 K1 K2. apply upd_get in H1 as [(-> & -> & _)|[N1 H1]]; apply upd_get in H2 as [(-> & -> & _)|[N2 H2]]; [reflexivity| | |exact (B k l x y c' H1 H2 K1 K2)].
        -- cbn in K1. injection K1 as <-. exact (B i l a y c Ea H2 Eca K2).
        -- cbn in K2. injection K2 as <-. exact (B k i x a c H1 Ea K1 Eca).
      * intros k x H K. apply upd_get in H as [(-> & -> & _)|[N H]]; [contradiction|]. destruct (C k x H K) as (c' & E1 & E2). exists c'. split; [exact E1|].
        rewrite upd_nth_error_other; [exact E2|]. intros ->. apply N. exact (B k i x a _ H Ea E1 Eca).
    + injection H as <-. repeat split; cbn.
      * intros k x c' H K. rewrite app_length. cbn. apply upd_get in H as [(-> & -> & _)|[_ H]]; [cbn in K; injection K as <-; lia|specialize (A k x c' H K); lia].
      * intros k l x y c' H1 H2 K1 K2. apply upd_get in H1 as [(-> & -> & _)|[N1 H1]]; apply upd_get in H2 as [(-> & -> & _)|[N2 H2]]; [reflexivity| | |exact (B k l x y c' H1 H2 K1 K2)].
        -- cbn in K1. injection K1 as <-. specialize (A l y _ H2 K2). lia.
        -- cbn in K2. injection K2 as <-. specialize (A k x _ H1 K1). lia.
      * intros k x H K. apply upd_get in H as [(-> & -> & _)|[N H]]; [contradiction|]. destruct (C k x H K) as (c' & E1 & E2). exists c'. split; [exact E1|now apply nth_app_l].
  - unfold deref in H. destruct (nth_error (objects w) i) as [a|] eqn:Ea; [|discriminate]. injection H as <-. repeat split; cbn.
    + intros k x c' H K. apply upd_get in H as [(-> & -> & _)|[_ H]]; [discriminate|exact (A k x c' H K)].
    + intros k l x y c' H1 H2 K1 K2. apply upd_get in H1 as [(-> & -> & _)|[N1 H1]]; [discriminate|]. apply upd_get in H2 as [(-> & -> & _)|[N2 H2]]; [discriminate|]. exact (B k l x y c' H1 H2 K1 K2).
    + intros k x H K. apply upd_get in H as [(-> & -> & _)|[N H]]; [contradiction|]. exact (C k x H K).
Qed.
Lemma run_good l : forall w w', good w -> Forall unshared l -> run l w = Ok w' -> good w'.
Proof.
  unfold run. induction l as [|o l IH]; intros w w' G F H; cbn [foldM] in H; [injection H as <-; exact G|].
  inversion F; subst. destruct (step w o) as [w1| |] eqn:E; try discriminate. cbn [bind] in H. eapply IH; [|eassumption|exact H]. eapply step_good; eassumption.
Qed.
