(** Coarse matrix, restriction and prolongation (C72) and the preconditioner (C73). *)
From Coq Require Import Reals Lra.
From Verif Require Import Common CommonFacts ParModel ParSpec ParProofs ParProofs2 GeneoModel GeneoSpec GeneoProofs GeneoProofs2.

Lemma combine_map {A B C} (f : A -> B) (g : A -> C) l : combine (map f l) (map g l) = map (fun x => (f x, g x)) l.
Proof. induction l as [|x l IH]; cbn; congruence. Qed.

Lemma flat_map_nth {B} (f : nat -> list B) l : flat_map f l = flat_map (fun k => f (nth k l 0)) (seq 0 (length l)).
Proof.
  induction l as [|x l IH]; cbn; auto. rewrite IH, <- seq_shift. f_equal. rewrite !flat_map_concat_map, map_map. reflexivity.
Qed.

Lemma flat_map_ext' {A B} (f g : A -> list B) l : (forall x, In x l -> f x = g x) -> flat_map f l = flat_map g l.
Proof. induction l as [|x l IH]; cbn; intros H; auto. rewrite H, IH; auto. Qed.

(** Looking up a column: all pairs with this column carry the same value. *)
Lemma lookup_found {A} (pos : A -> nat) (val : A -> R) c a l : forall v,
  (forall x, In x l -> pos x = c -> val x = a) -> (exists x, In x l /\ pos x = c) \/ v = a ->
  fold_left (fun v '(p, x) => if p =? c then x else v) (map (fun x => (pos x, val x)) l) v = a.
Proof.
  induction l as [|x l IH]; intros v H E; cbn.
  - destruct E as [(x & [] & _)|E]; auto.
  - apply IH; [intros; apply H; auto; now right|].
    destruct (Nat.eqb_spec (pos x) c) as [P|P].
    + right. apply H; auto. now left.
    + destruct E as [(y & [->|I] & Y)|E]; [contradiction| |]; eauto.
Qed.
Lemma lookup_none {A} (pos : A -> nat) (val : A -> R) c l : forall v,
  (forall x, In x l -> pos x <> c) ->
  fold_left (fun v '(p, x) => if p =? c then x else v) (map (fun x => (pos x, val x)) l) v = v.
Proof.
  induction l as [|x l IH]; intros v H; cbn; auto. destruct (Nat.eqb_spec (pos x) c) as [P|_].
  - exfalso. apply (H x); auto. now left.
  - apply IH. intros y Y. apply H. now right.
Qed.

Section coarse.
  Variables (W : world) (nb : nat -> list nat) (size : nat -> nat) (phi : nat -> nat -> nat -> list R)
            (Aq : nat -> dof -> dof -> R).
  Hypothesis N : forall q, q < nranks W -> NoDup (held W q).
  Hypothesis NB : neighbours W nb.
  Hypothesis BS : basis_sized W size phi.

  Definition block_rank (q k : nat) : nat := if k =? length (nb q) then q else nth k (nb q) 0.
  Definition value (q i : nat) (s : nat * nat) : R :=
    product W Aq q (phi q i) (vec W nb size phi q (fst s) (snd s)).

  Lemma in_sources q k j : In (k, j) (sources nb size q) <-> k <= length (nb q) /\ j < size (block_rank q k).
  Proof.
    unfold sources, block_rank. rewrite in_app_iff, in_map_iff, in_flat_map. split.
    - intros [(x & E & I)|(k' & K & I)].
      + injection E as <- <-. apply in_seq in I. rewrite Nat.eqb_refl. lia.
      + apply in_map_iff in I as (x & E & I). injection E as -> ->. apply in_seq in K. apply in_seq in I.
        destruct (Nat.eqb_spec k (length (nb q))); lia.
    - intros (K & J). destruct (Nat.eqb_spec k (length (nb q))) as [->|D].
      + left. exists j. rewrite in_seq. split; auto. lia.
      + right. exists k. rewrite in_seq. split; [lia|]. apply in_map_iff. exists j. rewrite in_seq. split; auto. lia.
  Qed.

  Lemma positions_sources q :
    positions nb size q = map (fun s => offset size (block_rank q (fst s)) + snd s) (sources nb size q).
  Proof.
    unfold positions, sources, block_rank. rewrite map_app, map_map. f_equal.
    - apply map_ext. intros j. cbn [fst snd]. now rewrite Nat.eqb_refl.
    - rewrite flat_map_nth. rewrite map_flat_map. apply flat_map_ext'. intros k K. rewrite map_map. apply map_ext.
      intros j. cbn [fst snd]. apply in_seq in K. destruct (Nat.eqb_spec k (length (nb q))); [lia|auto].
  Qed.

  Lemma entries_ok q i rows : q < nranks W -> i < size q ->
    rows_ok W nb size phi Aq (max_size W size) q rows -> entries nb size q i rows = Ok (map (value q i) (sources nb size q)).
  Proof.
    intros Q I (_ & H). destruct (H i I) as (_ & H2). unfold entries.
    assert (G : forall l acc, incl l (sources nb size q) ->
      foldM (fun l '(k, j) => match nth_error (nth k (nth i rows []) []) j with Some x => Ok (l ++ [x]) | None => UB end) l acc
      = Ok (acc ++ map (value q i) l)).
    { induction l as [|[k j] l IH]; intros acc IN; cbn [foldM map].
      - now rewrite app_nil_r.
      - assert (S1 : In (k, j) (sources nb size q)) by (apply IN; now left).
        apply in_sources in S1 as (K & J). rewrite H2 by auto.
        assert (B : block_size nb size q k = size (block_rank q k)).
        { unfold block_size, block_rank. destruct (k =? length (nb q)); auto. }
        assert (M : size (block_rank q k) <= max_size W size).
        { apply max_size_ge. unfold block_rank. destruct (Nat.eqb_spec k (length (nb q))); auto.
          apply (nb_rank W nb Aq NB); auto. lia. }
        rewrite Nat.min_r, B by lia.
        rewrite nth_error_map, (nth_error_nth' _ 0) by (rewrite seq_length; auto). rewrite seq_nth by auto.
        cbn [option_map plus bind]. rewrite IH; [|intros s Hs; apply IN; now right]. now rewrite <- app_assoc. }
    apply (G _ []), incl_refl.
  Qed.

  Definition row (q i : nat) : list (nat * R) :=
    map (fun s => (offset size (block_rank q (fst s)) + snd s, value q i s)) (sources nb size q).

  Lemma coarse_system_ok orders : (forall r, r < max_size W size -> Permutation (orders r) (all_all W)) ->
    coarse_system W nb size phi Aq orders =
      Ok (flat_map (fun q => map (row q) (seq 0 (size q))) (seq 0 (nranks W))).
  Proof.
    intros P. destruct (rounds_ok W nb size phi Aq N NB BS orders P) as (st & rows & E & RO).
    unfold coarse_system. rewrite E. cbn [bind].
    assert (I : forall q l M, q < nranks W -> incl l (seq 0 (size q)) ->
      foldM (fun M i => let* x := entries nb size q i (rows q) in Ok (M ++ [combine (positions nb size q) x])) l M
      = Ok (M ++ map (row q) l)).
    { induction l as [|i l IH]; intros M Q IN; cbn [foldM map]; [now rewrite app_nil_r|].
      assert (Hi : i < size q) by (assert (X : In i (seq 0 (size q))) by (apply IN; now left); apply in_seq in X; lia).
      rewrite entries_ok by auto. cbn [bind]. rewrite IH; [|auto|intros s Hs; apply IN; now right].
      rewrite <- app_assoc. cbn [app]. rewrite positions_sources, combine_map. reflexivity. }
    assert (G : forall l M, (forall q, In q l -> q < nranks W) ->
      foldM (fun M q =>
        foldM (fun M i => let* x := entries nb size q i (rows q) in Ok (M ++ [combine (positions nb size q) x])) (seq 0 (size q)) M)
      l M = Ok (M ++ flat_map (fun q => map (row q) (seq 0 (size q))) l)).
    { induction l as [|q l IH]; intros M H; cbn [foldM flat_map]; [now rewrite app_nil_r|].
      rewrite I; [|apply H; now left|apply incl_refl]. cbn [bind]. rewrite IH; [|intros; apply H; now right].
      now rewrite <- app_assoc. }
    rewrite G; auto. intros q Q. apply in_seq in Q. lia.
  Qed.

  (** ** The Galerkin product *)

  Variables (A : dof -> dof -> R) (all : list dof).
  Hypothesis ALL : all_dofs W all.
  Hypothesis RC : rows_complete W size phi Aq A.

  (** On rank [q], the vectors multiplied with are the restrictions of the extended basis vectors. *)
  Lemma vec_at q k j x : q < nranks W -> k <= length (nb q) -> j < size (block_rank q k) -> has_dof W q x ->
    at_dof 0%R (vec W nb size phi q k j) x = extended W (block_rank q k) (phi (block_rank q k) j) x.
  Proof.
    intros Q K J H. unfold vec, block_rank in *. destruct (Nat.eqb_spec k (length (nb q))) as [->|D].
    - unfold extended. apply stored_iff in H. now rewrite H.
    - unfold at_dof at 1, received. destruct (nb_rank W nb Aq NB q k Q ltac:(lia)) as (R1 & _).
      unfold extended. destruct (stored W (nth k (nb q) 0) x) eqn:S1.
      + apply stored_iff in S1 as (_ & S1 & _). apply stores_iff in S1. rewrite S1.
        destruct (Nat.ltb_spec j (size (nth k (nb q) 0))); [|lia]. reflexivity.
      + apply stored_false in S1. destruct (stores W (nth k (nb q) 0) (fst x)) eqn:S2.
        * exfalso. apply S1. apply stores_iff in S2. destruct H as (_ & _ & H). repeat split; auto.
        * unfold zeros. apply nth_repeat_lt. apply H.
  Qed.

  Lemma form_local q i s j : q < nranks W -> i < size q ->
    form all A (extended W q (phi q i)) (extended W s (phi s j)) =
    rsum (fun x => at_dof 0 (phi q i) x * rsum (fun y => Aq q x y * extended W s (phi s j) y) (dofs_of W q))%R (dofs_of W q).
  Proof.
    intros Q I. unfold form.
    rewrite <- (rsum_local W q all) by auto. apply rsum_ext. intros x X. unfold extended at 1.
    destruct (stored W q x) eqn:S1; [|rewrite (rsum_zero (fun y => _)); [reflexivity|intros; lra]].
    apply stored_iff in S1. rewrite <- rsum_scale, <- (rsum_local W q all) by auto. apply rsum_ext. intros y Y.
    destruct (Req_dec (at_dof 0%R (phi q i) x) 0) as [Z|NZ].
    { rewrite Z. destruct (stored W q y); lra. }
    destruct (RC q i x Q I S1 NZ y) as (R1 & R2). destruct (stored W q y) eqn:S2.
    - apply stored_iff in S2. rewrite R1 by auto. lra.
    - apply stored_false in S2. rewrite R2; [lra|auto|]. now apply ALL.
  Qed.

  Lemma value_form q i k j : q < nranks W -> i < size q -> k <= length (nb q) -> j < size (block_rank q k) ->
    value q i (k, j) = form all A (extended W q (phi q i)) (extended W (block_rank q k) (phi (block_rank q k) j)).
  Proof.
    intros Q I K J. unfold value. cbn [fst snd]. rewrite product_rsum, form_local by auto. apply rsum_ext. intros x _.
    f_equal. apply rsum_ext. intros y Y. rewrite vec_at; auto. apply (dofs_arranged W q Q (N q Q)), Y.
  Qed.

  Lemma block_rank_lt q k : q < nranks W -> k <= length (nb q) -> block_rank q k < nranks W.
  Proof.
    intros Q K. unfold block_rank. destruct (Nat.eqb_spec k (length (nb q))); auto. apply (nb_rank W nb Aq NB); auto. lia.
  Qed.

  Lemma galerkin q i s j orders : (forall r, r < max_size W size -> Permutation (orders r) (all_all W)) ->
    q < nranks W -> i < size q -> s < nranks W -> j < size s ->
    exists M, coarse_system W nb size phi Aq orders = Ok M /\
      length M = global_size W size /\
      entry M (offset size q + i) (offset size s + j) = form all A (extended W q (phi q i)) (extended W s (phi s j)).
  Proof.
    intros P Q I S1 J. eexists. split; [apply coarse_system_ok; auto|]. split.
    { rewrite global_size_offset. generalize (nranks W). induction n as [|n IH]; auto.
      rewrite seq_S, flat_map_app, app_length, IH, offset_S. cbn. now rewrite app_nil_r, map_length, seq_length. }
    unfold entry. rewrite nth_blocks by auto. unfold row.
    assert (U : forall x, In x (sources nb size q) -> offset size (block_rank q (fst x)) + snd x = offset size s + j ->
       block_rank q (fst x) = s /\ snd x = j /\ fst x <= length (nb q)).
    { intros [k m] X E. apply in_sources in X as (X1 & X2). cbn [fst snd] in *.
      destruct (offset_inj size _ _ _ _ X2 J E). auto. }
    destruct (Nat.eq_dec s q) as [->|D].
    - apply lookup_found.
      + intros [k m] X E. destruct (U _ X E) as (U1 & U2 & U3). cbn [fst snd] in *. subst m.
        rewrite value_form by (auto; rewrite U1; auto). now rewrite U1.
      + left. exists (length (nb q), j). rewrite in_sources. unfold block_rank. cbn [fst snd]. rewrite Nat.eqb_refl. auto.
    - destruct (in_dec Nat.eq_dec s (nb q)) as [IN|NI].
      + apply lookup_found.
        * intros [k m] X E. destruct (U _ X E) as (U1 & U2 & U3). cbn [fst snd] in *. subst m.
          rewrite value_form by (auto; rewrite U1; auto). now rewrite U1.
        * left. destruct (index_of_in s (nb q) IN) as (X1 & X2). exists (index_of s (nb q), j).
          assert (B : block_rank q (index_of s (nb q)) = s).
          { unfold block_rank. destruct (Nat.eqb_spec (index_of s (nb q)) (length (nb q))); [lia|auto]. }
          rewrite in_sources. cbn [fst snd]. rewrite B. split; auto. split; [lia|auto].
      + rewrite lookup_none.
        * rewrite form_local by auto. symmetry. apply rsum_zero. intros x X. rewrite rsum_zero; [lra|]. intros y Y.
          unfold extended. destruct (stored W s y) eqn:SY; [|lra]. exfalso. apply NI. apply (proj2 (NB q Q)).
          apply stored_iff in SY as (_ & SY & _). apply in_dofs_of in Y as (Y & _). eauto.
        * intros [k m] X E. destruct (U _ X E) as (U1 & U2 & U3). cbn [fst snd] in *. unfold block_rank in U1.
          destruct (Nat.eqb_spec k (length (nb q))) as [->|D2]; [congruence|]. apply NI. rewrite <- U1. apply nth_In. lia.
  Qed.
End coarse.

(** ** Restriction and prolongation *)

Section transfer.
  Variables (W : world) (size : nat -> nat) (phi : nat -> nat -> nat -> list R).

  Lemma displs_ok r : r < nranks W -> nth r (displs W size) 0 = offset size r.
  Proof.
    unfold displs. set (n := nranks W).
    set (step := fun d r => fold_left (fun d i => upd i (nth i d 0 + size r) d) (seq (r + 1) (n - (r + 1))) d).
    assert (IN : forall l c d, NoDup l -> (forall i, In i l -> i < length d) ->
      length (fold_left (fun d i => upd i (nth i d 0 + c) d) l d) = length d /\
      forall i, nth i (fold_left (fun d i => upd i (nth i d 0 + c) d) l d) 0 = if existsb (Nat.eqb i) l then nth i d 0 + c else nth i d 0).
    { induction l as [|x l IH]; intros c d ND H; cbn [fold_left existsb]; auto. inversion ND as [|? ? N1 N2]; subst.
      destruct (IH c (upd x (nth x d 0 + c) d) N2) as (A & B).
      { intros i Hi. rewrite upd_len. apply H. now right. }
      rewrite upd_len in A. split; auto. intros i. rewrite B. destruct (Nat.eqb_spec i x) as [->|D]; cbn [orb].
      - assert (F : existsb (Nat.eqb x) l = false).
        { destruct (existsb (Nat.eqb x) l) eqn:F; auto. apply existsb_exists in F as (y & Y1 & Y2). apply Nat.eqb_eq in Y2. now subst. }
        rewrite F. apply upd_nth_eq. apply H. now left.
      - rewrite upd_nth_neq by auto. reflexivity. }
    assert (G : forall m, m <= n -> let d := fold_left step (seq 0 m) (repeat 0 n) in
       length d = n /\ forall i, i < n -> nth i d 0 = offset size (Nat.min m i)).
    { induction m as [|m IH]; intros LE.
      - cbn. split; [apply repeat_length|]. intros i Hi. now rewrite nth_repeat_lt.
      - cbv zeta in *. destruct (IH ltac:(lia)) as (L & V). rewrite seq_S, fold_left_app. cbn [fold_left plus].
        set (d := fold_left step (seq 0 m) (repeat 0 n)) in *. unfold step.
        destruct (IN (seq (m + 1) (n - (m + 1))) (size m) d (seq_NoDup _ _)) as (A & B).
        { intros i Hi. apply in_seq in Hi. lia. }
        split; [lia|]. intros i Hi. rewrite B, V by auto.
        destruct (existsb (Nat.eqb i) (seq (m + 1) (n - (m + 1)))) eqn:X.
        + apply existsb_exists in X as (y & Y1 & Y2). apply Nat.eqb_eq in Y2. subst y. apply in_seq in Y1.
          rewrite (Nat.min_l m), (Nat.min_l (S m)) by lia. now rewrite offset_S.
        + assert (i <= m).
          { destruct (Nat.le_gt_cases i m); auto. exfalso.
            assert (existsb (Nat.eqb i) (seq (m + 1) (n - (m + 1))) = true); [|congruence].
            apply existsb_exists. exists i. rewrite Nat.eqb_refl, in_seq. split; auto. lia. }
          rewrite !Nat.min_r by lia. reflexivity. }
    intros R1. destruct (G n (le_n _)) as (_ & V). rewrite V by auto. rewrite Nat.min_r; auto. lia.
  Qed.

  Lemma restrict_ok fine : length (restrict W size phi fine) = global_size W size /\
    forall q i, q < nranks W -> i < size q ->
      nth (offset size q + i) (restrict W size phi fine) 0%R = dot W q (phi q i) (fine q).
  Proof.
    unfold restrict.
    set (step := fun buf r => fold_left (fun buf i => upd (nth r (displs W size) 0 + i) (nth i (local_defect W size phi fine r) 0%R) buf) (seq 0 (size r)) buf).
    assert (LD : forall r i, i < size r -> nth i (local_defect W size phi fine r) 0%R = dot W r (phi r i) (fine r)).
    { intros r i I. unfold local_defect.
      rewrite (nth_indep _ 0%R ((fun i => dot W r (phi r i) (fine r)) 0)) by (rewrite map_length, seq_length; auto).
      rewrite (map_nth (fun i => dot W r (phi r i) (fine r))), seq_nth; auto. }
    assert (IN : forall r, r < nranks W -> forall n buf, n <= size r -> length buf = global_size W size ->
      let b := fold_left (fun buf i => upd (nth r (displs W size) 0 + i) (nth i (local_defect W size phi fine r) 0%R) buf) (seq 0 n) buf in
      length b = global_size W size /\
      (forall i, i < n -> nth (offset size r + i) b 0%R = dot W r (phi r i) (fine r)) /\
      (forall c, c < offset size r -> nth c b 0%R = nth c buf 0%R)).
    { intros r R1. induction n as [|n IH]; intros buf LE L; cbv zeta in *.
      - cbn. split; auto. split; [lia|auto].
      - destruct (IH buf ltac:(lia) L) as (A & B & C). rewrite seq_S, fold_left_app. cbn [fold_left plus].
        set (b := fold_left _ (seq 0 n) buf) in *. rewrite displs_ok, LD by (auto; lia).
        assert (BD : offset size r + n < length b).
        { rewrite A, global_size_offset. apply offset_lt; auto. }
        split; [now rewrite upd_len|]. split.
        + intros i Hi. destruct (Nat.eq_dec i n) as [->|D]; [now rewrite upd_nth_eq|].
          rewrite upd_nth_neq by lia. apply B. lia.
        + intros c Hc. rewrite upd_nth_neq by lia. auto. }
    assert (G : forall m, m <= nranks W -> let b := fold_left step (seq 0 m) (repeat 0%R (global_size W size)) in
      length b = global_size W size /\
      forall q i, q < m -> i < size q -> nth (offset size q + i) b 0%R = dot W q (phi q i) (fine q)).
    { induction m as [|m IH]; intros LE; cbv zeta in *.
      - cbn. split; [apply repeat_length|lia].
      - destruct (IH ltac:(lia)) as (L & V). rewrite seq_S, fold_left_app. cbn [fold_left plus].
        destruct (IN m ltac:(lia) (size m) _ (le_n _) L) as (A & B & C). unfold step at 1 3. split; auto.
        intros q i Q I. destruct (Nat.eq_dec q m) as [->|D]; [now apply B|].
        rewrite C by (apply offset_lt; lia). apply V; auto. lia. }
    destruct (G (nranks W) (le_n _)) as (A & B). split; auto.
  Qed.

  Lemma prolongate_ok coarse q : basis_sized W size phi -> q < nranks W ->
    (forall e, In e (held W q) -> length (prolongate W size phi coarse q e) = ndofs W e) /\
    forall x, has_dof W q x ->
      at_dof 0%R (prolongate W size phi coarse q) x =
      rsum (fun i => nth (offset size q + i) coarse 0 * at_dof 0 (phi q i) x)%R (seq 0 (size q)).
  Proof.
    intros BS Q. unfold prolongate.
    assert (G : forall n, n <= size q ->
      let v := fold_left (fun v i => fun e => zip Rplus (v e) (map (fun x => (x * nth (offset size q + i) coarse 0)%R) (phi q i e)))
        (seq 0 n) (fun e => repeat 0%R (ndofs W e)) in
      (forall e, In e (held W q) -> length (v e) = ndofs W e) /\
      forall x, has_dof W q x ->
        at_dof 0%R v x = rsum (fun i => nth (offset size q + i) coarse 0 * at_dof 0 (phi q i) x)%R (seq 0 n)).
    { induction n as [|n IH]; intros LE; cbv zeta in *.
      - cbn. split; [intros; apply repeat_length|]. intros x (_ & _ & K). unfold at_dof. now apply nth_repeat_lt.
      - destruct (IH ltac:(lia)) as (A & B). rewrite seq_S, fold_left_app. cbn [fold_left plus].
        set (v := fold_left _ (seq 0 n) _) in *. split.
        + intros e E. rewrite zip_length; auto. rewrite map_length, BS, A; auto; lia.
        + intros x H. pose proof H as (_ & E & K). rewrite rsum_app, <- B by auto. unfold at_dof at 1.
          rewrite (zip_nth Rplus _ 0%R 0%R) by (rewrite ?map_length, ?BS, ?A; auto; lia).
          rewrite (nth_indep (map _ _) 0%R ((fun x => (x * nth (offset size q + n) coarse 0)%R) 0%R)) by (rewrite map_length, BS; auto; lia).
          rewrite (map_nth (fun x => (x * nth (offset size q + n) coarse 0)%R)). unfold rsum, at_dof. cbn. lra. }
    apply (G (size q) (le_n _)).
  Qed.
End transfer.
