(** Coarse system (C72). *)
From Coq Require Import Reals Lra.
From Verif Require Import Common CommonFacts ParModel ParSpec ParProofs ParProofs2 GeneoModel GeneoSpec GeneoProofs.

Lemma nodup_join {A} (l l' : list A) : NoDup l -> NoDup l' -> (forall x, In x l -> ~ In x l') -> NoDup (l ++ l').
Proof.
  induction l as [|x l IH]; intros N N' H; cbn; auto. inversion N; subst. constructor.
  - rewrite in_app_iff. intros [I|I]; [auto|]. apply (H x); [now left|auto].
  - apply IH; auto. intros y Y. apply H. now right.
Qed.

(** ** Sums *)

Lemma fold_rsum {A} (f : A -> R) l : forall a, fold_left (fun s x => (s + f x)%R) l a = (a + rsum f l)%R.
Proof. induction l as [|x l IH]; intros a; cbn; [lra|]. rewrite IH. unfold rsum. lra. Qed.

Lemma stored_iff W q x : stored W q x = true <-> has_dof W q x.
Proof. apply has_dofb_iff. Qed.
Lemma stored_false W q x : stored W q x = false -> ~ has_dof W q x.
Proof. intros H D. apply stored_iff in D. congruence. Qed.

Lemma in_dofs_of W q x : In x (dofs_of W q) <-> In (fst x) (held W q) /\ snd x < ndofs W (fst x).
Proof.
  unfold dofs_of. rewrite in_flat_map. split.
  - intros (e & E & I). apply in_map_iff in I as (i & <- & I). apply in_seq in I. cbn. split; auto. lia.
  - destruct x as [e i]. cbn. intros (E & I). exists e. split; auto. apply in_map_iff. exists i. rewrite in_seq. split; auto. lia.
Qed.

Lemma dofs_arranged W q : q < nranks W -> NoDup (held W q) -> arranges W q (dofs_of W q).
Proof.
  intros Q N. split.
  - unfold dofs_of. induction (held W q) as [|e l IH]; cbn; [constructor|]. inversion N as [|? ? N1 N2]; subst.
    apply nodup_join; auto.
    + apply FinFun.Injective_map_NoDup; [|apply seq_NoDup]. intros a b H. now injection H.
    + intros x I J. apply in_map_iff in I as (i & <- & _). apply in_flat_map in J as (e' & E' & J).
      apply in_map_iff in J as (i' & J & _). injection J as -> _. contradiction.
  - intros x. rewrite in_dofs_of. unfold has_dof. tauto.
Qed.

Lemma rsum_local W q all (f : dof -> R) : q < nranks W -> NoDup (held W q) -> all_dofs W all ->
  rsum (fun x => if stored W q x then f x else 0%R) all = rsum f (dofs_of W q).
Proof.
  intros Q N A. rewrite <- (rsum_filter f (stored W q)). symmetry. apply rsum_perm.
  apply (arranges_filter W q); auto. now apply dofs_arranged.
Qed.

(** ** Offsets *)

Section offsets.
  Variable size : nat -> nat.

  Lemma offset_sum r : offset size r = sum_nat (map size (seq 0 r)).
  Proof.
    unfold offset. assert (H : forall l a, fold_left (fun o i => o + size i) l a = a + sum_nat (map size l)).
    { induction l as [|x l IH]; intros a; cbn [map fold_left]; [cbn; lia|]. rewrite IH. change (sum_nat (size x :: map size l)) with (size x + sum_nat (map size l)). lia. }
    now rewrite H.
  Qed.
  Lemma offset_S r : offset size (S r) = offset size r + size r.
  Proof. rewrite !offset_sum, seq_S, map_app, sum_nat_app. cbn. lia. Qed.
  Lemma offset_le r s : r <= s -> offset size r <= offset size s.
  Proof. induction 1; auto. rewrite offset_S. lia. Qed.
  Lemma offset_lt r s i : r < s -> i < size r -> offset size r + i < offset size s.
  Proof. intros H I. pose proof (offset_le (S r) s H) as L. rewrite offset_S in L. lia. Qed.
  Lemma offset_inj r s i j : i < size r -> j < size s -> offset size r + i = offset size s + j -> r = s /\ i = j.
  Proof.
    intros I J E. destruct (Nat.lt_trichotomy r s) as [H|[->|H]]; [|lia|].
    - pose proof (offset_lt r s i H I). lia.
    - pose proof (offset_lt s r j H J). lia.
  Qed.
  Lemma offset_split n c : c < offset size n -> exists r i, r < n /\ i < size r /\ c = offset size r + i.
  Proof.
    induction n as [|n IH]; [cbn; lia|]. rewrite offset_S. intros H.
    destruct (Nat.lt_ge_cases c (offset size n)) as [L|G].
    - destruct (IH L) as (r & i & A & B & C). exists r, i. auto.
    - exists n, (c - offset size n). lia.
  Qed.

  Lemma nth_blocks {A} (g : nat -> nat -> A) n p i d : p < n -> i < size p ->
    nth (offset size p + i) (flat_map (fun q => map (g q) (seq 0 (size q))) (seq 0 n)) d = g p i.
  Proof.
    assert (LEN : forall n, length (flat_map (fun q => map (g q) (seq 0 (size q))) (seq 0 n)) = offset size n).
    { induction n0 as [|n0 IH]; auto. rewrite seq_S, flat_map_app, app_length, IH, offset_S. cbn.
      rewrite app_nil_r, map_length, seq_length. auto. }
    induction n as [|n IH]; [lia|]. intros P I. rewrite seq_S, flat_map_app.
    destruct (Nat.eq_dec p n) as [->|D].
    - rewrite app_nth2 by (rewrite LEN; lia). rewrite LEN. replace (offset size n + i - offset size n) with i by lia.
      cbn [flat_map plus]. rewrite app_nil_r. rewrite (nth_indep _ d (g n 0)) by (rewrite map_length, seq_length; auto).
      rewrite map_nth, seq_nth by auto. reflexivity.
    - rewrite app_nth1; [apply IH; lia|]. rewrite LEN. apply offset_lt; lia.
  Qed.
End offsets.

Lemma global_size_offset W size : global_size W size = offset size (nranks W).
Proof. reflexivity. Qed.

Lemma max_size_ge W size q : q < nranks W -> size q <= max_size W size.
Proof.
  unfold max_size. assert (H : forall l a, a <= fold_left (fun m r => Nat.max m (size r)) l a /\
    forall q, In q l -> size q <= fold_left (fun m r => Nat.max m (size r)) l a).
  { induction l as [|x l IH]; intros a; cbn [fold_left In]; [split; [lia|tauto]|].
    destruct (IH (Nat.max a (size x))) as (A & B). split; [lia|]. intros r [->|I]; [|auto].
    pose proof (Nat.le_max_r a (size r)). lia. }
  intros Q. apply H. apply in_seq. lia.
Qed.

(** ** Neighbour indices *)

Lemma index_of_le r l : index_of r l <= length l.
Proof. induction l as [|x l IH]; cbn; auto. destruct (x =? r); lia. Qed.
Lemma index_of_in r l : In r l -> index_of r l < length l /\ nth (index_of r l) l 0 = r.
Proof.
  induction l as [|x l IH]; cbn; [tauto|]. intros [->|I].
  - rewrite Nat.eqb_refl. split; [lia|auto].
  - destruct (Nat.eqb_spec x r) as [->|D]; [split; [lia|auto]|]. destruct (IH I). split; [lia|auto].
Qed.
Lemma index_of_not r l : ~ In r l -> index_of r l = length l.
Proof.
  induction l as [|x l IH]; cbn; auto. intros H. destruct (Nat.eqb_spec x r) as [->|D]; [tauto|]. rewrite IH; auto.
Qed.
Lemma index_of_nth k l : NoDup l -> k < length l -> index_of (nth k l 0) l = k.
Proof.
  revert k. induction l as [|x l IH]; intros k N K; cbn in *; [lia|]. inversion N; subst.
  destruct k as [|k]; [now rewrite Nat.eqb_refl|].
  destruct (Nat.eqb_spec x (nth k l 0)) as [E|_]; [|f_equal; apply IH; auto; lia].
  exfalso. apply H1. rewrite E. apply nth_In. lia.
Qed.

Lemma upd_nth_eq {B} k (x d : B) l : k < length l -> nth k (upd k x l) d = x.
Proof. revert k. induction l as [|y l IH]; intros [|k] K; cbn in *; try lia; auto. apply IH. lia. Qed.
Lemma upd_nth_neq {B} k k' (x d : B) l : k <> k' -> nth k' (upd k x l) d = nth k' l d.
Proof. revert k k'. induction l as [|y l IH]; intros [|k] [|k'] K; cbn; try lia; auto. Qed.
Lemma upd_len {B} k (x : B) l : length (upd k x l) = length l.
Proof. revert k. induction l as [|y l IH]; intros [|k]; cbn; auto. Qed.

Section coarse.
  Variables (W : world) (nb : nat -> list nat) (size : nat -> nat) (phi : nat -> nat -> nat -> list R)
            (A : nat -> dof -> dof -> R).
  Hypothesis N : forall q, q < nranks W -> NoDup (held W q).
  Hypothesis NB : neighbours W nb.
  Hypothesis BS : basis_sized W size phi.

  (** ** Products *)

  Lemma dot_rsum q u v : dot W q u v = rsum (fun x => at_dof 0 u x * at_dof 0 v x)%R (dofs_of W q).
  Proof. unfold dot. rewrite (fold_rsum (fun x => at_dof 0 u x * at_dof 0 v x)%R). lra. Qed.
  Lemma mv_at q v x : has_dof W q x ->
    at_dof 0%R (mv W A q v) x = rsum (fun y => A q x y * at_dof 0 v y)%R (dofs_of W q).
  Proof.
    intros (Q & E & K). destruct x as [e i]. cbn [fst snd] in *. unfold at_dof at 1, mv. cbn [fst snd].
    rewrite (nth_indep _ 0%R ((fun i => fold_left (fun s y => (s + A q (e, i) y * at_dof 0 v y)%R) (dofs_of W q) 0%R) 0))
      by (rewrite map_length, seq_length; auto).
    rewrite (map_nth (fun i => fold_left (fun s y => (s + A q (e, i) y * at_dof 0 v y)%R) (dofs_of W q) 0%R)).
    rewrite seq_nth by auto. rewrite (fold_rsum (fun y => A q (e, (0 + i)%nat) y * at_dof 0 v y)%R). cbn [plus]. lra.
  Qed.
  Definition product (q : nat) (u v : nat -> list R) : R := dot W q u (mv W A q v).
  Lemma product_rsum q u v : q < nranks W ->
    product q u v =
    rsum (fun x => at_dof 0 u x * rsum (fun y => A q x y * at_dof 0 v y)%R (dofs_of W q))%R (dofs_of W q).
  Proof.
    intros Q. unfold product. rewrite dot_rsum. apply rsum_ext. intros x X. rewrite mv_at; auto.
    apply (dofs_arranged W q Q (N q Q)), X.
  Qed.
  Lemma product_ext q u v v' : q < nranks W -> (forall x, has_dof W q x -> at_dof 0%R v x = at_dof 0%R v' x) ->
    product q u v = product q u v'.
  Proof.
    intros Q H. rewrite !product_rsum by auto. apply rsum_ext. intros x _. f_equal. apply rsum_ext. intros y Y.
    rewrite H; auto. apply (dofs_arranged W q Q (N q Q)), Y.
  Qed.

  (** ** One exchange of basis vectors *)

  Definition zeros (e : nat) : list R := repeat 0%R (ndofs W e).
  (** What the target vector [k] of rank [q] holds on entity [e] after round [r]. *)
  Definition received (r q k e : nat) : list R :=
    let s := nth k (nb q) 0 in
    if stores W s e then if r <? size s then phi s r e else zeros e else zeros e.

  Definition targets_ok (st : dvec (list R)) : Prop :=
    forall q e, q < nranks W -> In e (held W q) ->
      length (st q e) = length (nb q) /\
      forall k, k < length (nb q) ->
        length (nth k (st q e) []) = ndofs W e /\
        (stores W (nth k (nb q) 0) e = false -> nth k (st q e) [] = zeros e).

  Lemma nb_rank q k : q < nranks W -> k < length (nb q) -> nth k (nb q) 0 < nranks W /\ nth k (nb q) 0 <> q.
  Proof.
    intros Q K. assert (I : In (nth k (nb q) 0) (nb q)) by (apply nth_In; auto).
    apply (proj2 (NB q Q)) in I. tauto.
  Qed.

  Lemma targets0 : targets_ok (neighbor_basis0 W nb).
  Proof.
    intros q e Q E. unfold neighbor_basis0. split; [apply repeat_length|]. intros k K.
    rewrite nth_repeat_lt by auto. split; [apply repeat_length|auto].
  Qed.

  Lemma round_ok r order st : Permutation order (all_all W) -> targets_ok st ->
    exists st', communicate (passed W size phi r) (multi_scatter nb) order st = Ok st' /\ targets_ok st' /\
      forall q e k, q < nranks W -> In e (held W q) -> k < length (nb q) -> nth k (st' q e) [] = received r q k e.
  Proof.
    intros P T.
    set (h := fun (q e : nat) (v : list (list R)) (m : nat * list R) => upd (index_of (fst m) (nb q)) (snd m) v).
    set (I := fun q e v => q < nranks W -> In e (held W q) ->
        length v = length (nb q) /\ forall k, k < length (nb q) -> length (nth k v ([] : list R)) = ndofs W e).
    assert (PL : forall s e v, s < nranks W -> In e (held W s) -> length (snd (passed W size phi r s e v)) = ndofs W e).
    { intros s e v S1 S2. unfold passed. cbn [snd]. destruct (Nat.ltb_spec r (size s)); [now apply BS|apply repeat_length]. }
    destruct (communicate_at (passed W size phi r) (multi_scatter nb) h I order st) as (st' & E & F).
    { intros s q e v M IV. apply (Permutation_in _ P), in_messages in M. destruct M as (S1 & Q & SQ & S2 & S3 & _ & _).
      assert (M : In s (nb q)) by (apply (proj2 (NB q Q)); eauto).
      destruct (IV Q S3) as (L1 & L2). pose proof (index_of_in s (nb q) M) as (X1 & X2).
      specialize (PL s e (st s e) S1 S2). unfold passed in *. cbn [snd] in PL. unfold multi_scatter.
      destruct (Nat.eqb_spec (index_of s (nb q)) (length (nb q))) as [|_]; [lia|].
      rewrite L2, PL, Nat.eqb_refl by auto. cbn [negb]. split; [reflexivity|].
      intros _ _. unfold h. cbn [fst snd]. split; [now rewrite upd_len|]. intros k K.
      destruct (Nat.eq_dec (index_of s (nb q)) k) as [<-|D]; [rewrite upd_nth_eq; auto; lia|].
      rewrite upd_nth_neq by auto. auto. }
    { intros q e Q H. destruct (T q e Q H) as (A1 & A2). split; auto. intros k K. now apply A2. }
    exists st'. split; auto.
    assert (V : forall q e k, q < nranks W -> In e (held W q) -> k < length (nb q) ->
      length (st' q e) = length (nb q) /\ nth k (st' q e) [] = received r q k e).
    { intros q e k Q H K. destruct (T q e Q H) as (T1 & T2). rewrite F.
      set (ms := from order q e).
      assert (MS : forall s, In s ms <-> s < nranks W /\ s <> q /\ In e (held W s)).
      { intros s. unfold ms.
        assert (X : forall s, In s (from order q e) <-> In s (from (all_all W) q e)).
        { intros t. split; intros IT; [apply (Permutation_in _ (from_perm _ _ q e P) IT)|
            apply (Permutation_in _ (Permutation_sym (from_perm _ _ q e P)) IT)]. }
        rewrite X. unfold all_all. rewrite from_messages by auto. rewrite filter_In, in_seq, !andb_true_iff, negb_true_iff, Nat.eqb_neq, stores_iff.
        unfold everywhere. intuition lia. }
      assert (G : forall l v, incl l ms -> length v = length (nb q) ->
        length (fold_left (h q e) (map (fun s => passed W size phi r s e (st s e)) l) v) = length (nb q) /\
        nth k (fold_left (h q e) (map (fun s => passed W size phi r s e (st s e)) l) v) [] =
          if existsb (Nat.eqb (nth k (nb q) 0)) l then snd (passed W size phi r (nth k (nb q) 0) e []) else nth k v []).
      { induction l as [|s l IH]; intros v IN LV; [cbn; auto|]. cbn [map fold_left existsb].
        destruct (IH (h q e v (passed W size phi r s e (st s e)))) as (G1 & G2).
        { intros t Ht. apply IN. now right. }
        { unfold h. now rewrite upd_len. }
        split; auto. rewrite G2. destruct (existsb (Nat.eqb (nth k (nb q) 0)) l); [now rewrite orb_true_r|].
        rewrite orb_false_r. unfold h, passed. cbn [fst snd].
        assert (M : In s (nb q)).
        { assert (X : In s ms) by (apply IN; now left). apply MS in X. apply (proj2 (NB q Q)). intuition. eauto. }
        destruct (index_of_in s (nb q) M) as (X1 & X2).
        destruct (Nat.eqb_spec (nth k (nb q) 0) s) as [EQ|NE].
        - rewrite <- EQ at 1. rewrite index_of_nth by (auto; apply (NB q Q)). rewrite upd_nth_eq by lia. now rewrite EQ.
        - rewrite upd_nth_neq; auto. intros EQ. apply NE. now rewrite <- EQ. }
      destruct (G ms (st q e) (incl_refl _) T1) as (G1 & G2). split; auto. rewrite G2.
      unfold received. destruct (nb_rank q k Q K) as (R1 & R2).
      destruct (stores W (nth k (nb q) 0) e) eqn:ST.
      - assert (X : existsb (Nat.eqb (nth k (nb q) 0)) ms = true).
        { apply existsb_exists. exists (nth k (nb q) 0). rewrite Nat.eqb_refl. split; auto. apply MS.
          apply stores_iff in ST. auto. }
        rewrite X. reflexivity.
      - destruct (existsb (Nat.eqb (nth k (nb q) 0)) ms) eqn:X.
        + apply existsb_exists in X as (s & X & Y). apply Nat.eqb_eq in Y. subst s. apply MS in X.
          assert (stores W (nth k (nb q) 0) e = true) by (apply stores_iff; tauto). congruence.
        + apply T2; auto. }
    split; [|intros; now apply V].
    intros q e Q H. destruct (T q e Q H) as (T1 & T2). split.
    - destruct (Nat.eq_dec (length (nb q)) 0) as [Z|NZ]; [|apply (V q e 0 Q H); lia].
      rewrite F. assert (X : forall ms v, length v = length (nb q) -> length (fold_left (h q e) ms v) = length (nb q)).
      { induction ms as [|m ms IH]; intros v LV; cbn; auto. apply IH. unfold h. now rewrite upd_len. }
      apply X; auto.
    - intros k K. rewrite (proj2 (V q e k Q H K)). unfold received, zeros. destruct (nb_rank q k Q K) as (R1 & R2).
      destruct (stores W (nth k (nb q) 0) e) eqn:ST.
      + split; [|discriminate]. destruct (r <? size (nth k (nb q) 0)) eqn:L; [|apply repeat_length].
        apply Nat.ltb_lt in L. apply BS; auto. now apply stores_iff.
      + split; [apply repeat_length|auto].
  Qed.

  (** ** The rows *)

  Definition block_size (q k : nat) : nat := if k =? length (nb q) then size q else size (nth k (nb q) 0).
  Definition vec (q k j : nat) : nat -> list R := if k =? length (nb q) then phi q j else received j q k.

  Definition rows_ok (r q : nat) (rows : list (list (list R))) : Prop :=
    length rows = size q /\
    forall i, i < size q -> length (nth i rows []) = length (nb q) + 1 /\
      forall k, k <= length (nb q) ->
        nth k (nth i rows []) [] = map (fun j => product q (phi q i) (vec q k j)) (seq 0 (Nat.min r (block_size q k))).

  Lemma push_at i k x rows i' k' : i < length rows -> k < length (nth i rows []) ->
    length (push i k x rows) = length rows /\
    length (nth i' (push i k x rows) []) = length (nth i' rows []) /\
    nth k' (nth i' (push i k x rows) []) [] =
      if (i' =? i) && (k' =? k) then nth k (nth i rows []) [] ++ [x] else nth k' (nth i' rows []) [].
  Proof.
    intros I K. unfold push. split; [apply upd_len|].
    destruct (Nat.eqb_spec i' i) as [->|D]; cbn [andb].
    - rewrite upd_nth_eq by auto. split; [apply upd_len|].
      destruct (Nat.eqb_spec k' k) as [->|D]; [now rewrite upd_nth_eq|now rewrite upd_nth_neq by auto].
    - rewrite upd_nth_neq by auto. auto.
  Qed.

  Lemma products_at q k v rows :
    length rows = size q -> (forall i, i < size q -> k < length (nth i rows [])) ->
    length (products W size phi A q k v rows) = size q /\
    forall i, i < size q ->
      length (nth i (products W size phi A q k v rows) []) = length (nth i rows []) /\
      forall k', nth k' (nth i (products W size phi A q k v rows) []) [] =
        if k' =? k then nth k (nth i rows []) [] ++ [product q (phi q i) v] else nth k' (nth i rows []) [].
  Proof.
    intros L H. unfold products. fold (product q).
    assert (G : forall n, n <= size q ->
      let R1 := fold_left (fun rows i => push i k (dot W q (phi q i) (mv W A q v)) rows) (seq 0 n) rows in
      length R1 = size q /\
      forall i, i < size q ->
        length (nth i R1 []) = length (nth i rows []) /\
        forall k', nth k' (nth i R1 []) [] =
          if (i <? n) && (k' =? k) then nth k (nth i rows []) [] ++ [product q (phi q i) v] else nth k' (nth i rows []) []).
    { induction n as [|n IH]; intros LE.
      - cbn. split; auto.
      - cbv zeta in *. destruct (IH ltac:(lia)) as (G1 & G2). rewrite seq_S, fold_left_app. cbn [fold_left plus].
        set (R1 := fold_left _ (seq 0 n) rows) in *. change (dot W q (phi q n) (mv W A q v)) with (product q (phi q n) v).
        assert (KN : k < length (nth n R1 [])) by (rewrite (proj1 (G2 n ltac:(lia))); apply H; lia).
        assert (NL : n < length R1) by lia.
        destruct (push_at n k (product q (phi q n) v) R1 0 0 NL KN) as (A1 & _).
        split; [lia|]. intros i Hi. destruct (G2 i Hi) as (G3 & G4). split.
        + rewrite (proj1 (proj2 (push_at n k (product q (phi q n) v) R1 i 0 NL KN))). auto.
        + intros k'. rewrite (proj2 (proj2 (push_at n k (product q (phi q n) v) R1 i k' NL KN))).
          destruct (Nat.eqb_spec i n) as [->|D]; cbn [andb].
          * destruct (Nat.ltb_spec n (S n)); [|lia]. cbn [andb].
            destruct (Nat.eqb_spec k' k) as [->|D]; rewrite G4; destruct (Nat.ltb_spec n n); try lia; cbn [andb]; auto.
          * rewrite G4. destruct (Nat.ltb_spec i n), (Nat.ltb_spec i (S n)); try lia; auto. }
    destruct (G (size q) (le_n _)) as (G1 & G2). split; auto. intros i Hi. destruct (G2 i Hi) as (G3 & G4). split; auto.
    intros k'. rewrite G4. destruct (Nat.ltb_spec i (size q)); [|lia]. reflexivity.
  Qed.

  (** One round on one rank appends the products with the vector of this round to every block that has one. *)
  Lemma local_products_ok r q nbasis rows : q < nranks W ->
    (forall e k, In e (held W q) -> k < length (nb q) -> nth k (nbasis q e) [] = received r q k e) ->
    rows_ok r q rows -> rows_ok (S r) q (local_products W nb size phi A r nbasis q rows).
  Proof.
    intros Q NBS (L & H).
    (* rows where the blocks in [done] already contain the products of round r *)
    set (mid := fun (done : nat -> bool) (rows : list (list (list R))) =>
      length rows = size q /\
      forall i, i < size q -> length (nth i rows []) = length (nb q) + 1 /\
        forall k, k <= length (nb q) ->
          nth k (nth i rows []) [] = map (fun j => product q (phi q i) (vec q k j))
            (seq 0 (Nat.min (if done k then S r else r) (block_size q k)))).
    assert (STEP : forall done k v rows, mid done rows -> k <= length (nb q) -> done k = false -> r < block_size q k ->
       (forall u, product q u v = product q u (vec q k r)) ->
       mid (fun k' => (k' =? k) || done k') (products W size phi A q k v rows)).
    { intros done k v rw (M1 & M2) K D B V.
      destruct (products_at q k v rw M1) as (P1 & P2). { intros i Hi. rewrite (proj1 (M2 i Hi)). lia. }
      split; auto. intros i Hi. destruct (P2 i Hi) as (P3 & P4). destruct (M2 i Hi) as (M3 & M4). split; [lia|].
      intros k' K'. rewrite P4. destruct (Nat.eqb_spec k' k) as [->|NE]; cbn [orb].
      - rewrite M4 by auto. rewrite D. rewrite (Nat.min_l r) by lia. rewrite (Nat.min_l (S r)) by lia.
        rewrite seq_S, map_app. cbn. now rewrite V.
      - apply M4; auto. }
    assert (SKIP : forall done k rows, mid done rows -> (k <= length (nb q) -> block_size q k <= r) ->
       mid (fun k' => (k' =? k) || done k') rows).
    { intros done k rw (M1 & M2) B. split; auto. intros i Hi. destruct (M2 i Hi) as (M3 & M4). split; auto.
      intros k' K'. rewrite M4 by auto. destruct (Nat.eqb_spec k' k) as [->|NE]; cbn [orb]; auto.
      rewrite (Nat.min_r (S r)) by (specialize (B K'); lia). destruct (done k); rewrite Nat.min_r; auto; specialize (B K'); lia. }
    assert (M0 : mid (fun _ => false) rows) by (split; auto).
    unfold local_products.
    set (rows1 := if r <? size q then products W size phi A q (length (nb q)) (phi q r) rows else rows).
    assert (BO : block_size q (length (nb q)) = size q) by (unfold block_size; now rewrite Nat.eqb_refl).
    assert (M1 : mid (fun k' => (k' =? length (nb q)) || false) rows1).
    { unfold rows1. destruct (Nat.ltb_spec r (size q)).
      - apply STEP; auto; [lia|]. intros u. unfold vec. now rewrite Nat.eqb_refl.
      - apply SKIP; auto. intros _. lia. }
    assert (G : forall n, n <= length (nb q) ->
      mid (fun k' => (k' <? n) || (k' =? length (nb q)))
        (fold_left (fun rows k => if size (nth k (nb q) 0) <=? r then rows
            else products W size phi A q k (fun e => nth k (nbasis q e) []) rows) (seq 0 n) rows1)).
    { assert (CH : forall d d' rw, (forall k, d k = d' k) -> mid d rw -> mid d' rw).
      { intros d d' rw E (X1 & X2). split; auto. intros i Hi. destruct (X2 i Hi) as (X3 & X4). split; auto.
        intros k K. rewrite X4 by auto. now rewrite E. }
      induction n as [|n IH]; intros LE.
      - cbn. apply (CH (fun k' => (k' =? length (nb q)) || false)); auto. intros k. rewrite orb_false_r. destruct (Nat.ltb_spec k 0); [lia|reflexivity].
      - specialize (IH ltac:(lia)). rewrite seq_S, fold_left_app. cbn [fold_left plus].
        set (R1 := fold_left _ (seq 0 n) rows1) in *.
        assert (BN : block_size q n = size (nth n (nb q) 0)).
        { unfold block_size. destruct (Nat.eqb_spec n (length (nb q))); [lia|auto]. }
        apply (CH (fun k' => (k' =? n) || ((k' <? n) || (k' =? length (nb q))))).
        { intros k. destruct (Nat.eqb_spec k n), (Nat.ltb_spec k n), (Nat.ltb_spec k (S n)); cbn; auto; lia. }
        destruct (Nat.leb_spec (size (nth n (nb q) 0)) r).
        + apply SKIP; auto. intros _. lia.
        + apply STEP; auto; [lia| |lia|].
          { destruct (Nat.ltb_spec n n), (Nat.eqb_spec n (length (nb q))); auto; lia. }
          intros u. apply product_ext; auto. intros [e j] (_ & E & J). cbn [fst snd] in *. unfold at_dof. cbn [fst snd].
          rewrite NBS by (auto; lia). unfold vec. destruct (Nat.eqb_spec n (length (nb q))); [lia|auto]. }
    destruct (G (length (nb q)) (le_n _)) as (G1 & G2). split; auto. intros i Hi. destruct (G2 i Hi) as (G3 & G4). split; auto.
    intros k K. rewrite G4 by auto. destruct (Nat.ltb_spec k (length (nb q))), (Nat.eqb_spec k (length (nb q))); cbn [orb]; auto; lia.
  Qed.

  Lemma rows0_ok q : rows_ok 0 q (rows0 nb size q).
  Proof.
    unfold rows0. split; [apply repeat_length|]. intros i Hi. rewrite nth_repeat_lt by auto.
    split; [apply repeat_length|]. intros k K. rewrite nth_repeat_lt by lia. reflexivity.
  Qed.

  Lemma rounds_ok orders : (forall r, r < max_size W size -> Permutation (orders r) (all_all W)) ->
    exists nbasis rows, rounds W nb size phi A orders = Ok (nbasis, rows) /\
      forall q, q < nranks W -> rows_ok (max_size W size) q (rows q).
  Proof.
    intros P. unfold rounds.
    assert (G : forall n, n <= max_size W size -> exists nbasis rows,
      foldM (fun '(nbasis, rows) r =>
        let* nbasis := communicate (passed W size phi r) (multi_scatter nb) (orders r) nbasis in
        Ok (nbasis, fun q => local_products W nb size phi A r nbasis q (rows q)))
      (seq 0 n) (neighbor_basis0 W nb, rows0 nb size) = Ok (nbasis, rows) /\ targets_ok nbasis /\
      forall q, q < nranks W -> rows_ok n q (rows q)).
    { induction n as [|n IH]; intros LE.
      - exists (neighbor_basis0 W nb), (rows0 nb size). split; [reflexivity|]. split; [apply targets0|]. intros. apply rows0_ok.
      - destruct (IH ltac:(lia)) as (st & rows & E & T & RO). rewrite seq_S, foldM_app, E. cbn [bind foldM plus].
        destruct (round_ok n (orders n) st (P n ltac:(lia)) T) as (st' & E' & T' & V). rewrite E'. cbn [bind].
        eexists st', _. split; [reflexivity|]. split; auto. intros q Q. apply local_products_ok; auto. }
    destruct (G (max_size W size) (le_n _)) as (st & rows & E & _ & RO). eauto.
  Qed.
End coarse.
