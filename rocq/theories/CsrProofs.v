(** The CSR matrix implements its pattern. *)
From Coq Require Import Lra Sorted.
From Verif Require Import CsrModel CsrSpec CommonFacts.
Local Open Scope R_scope.

(** ** Sorting *)
Lemma insert_perm x l : Permutation (x :: l) (insert x l).
Proof.
  induction l as [|y l IH]; cbn; [reflexivity|]. destruct (x <=? y)%nat; [reflexivity|].
  rewrite perm_swap. apply perm_skip, IH.
Qed.
Lemma sort_perm l : Permutation l (sort l).
Proof. induction l as [|x l IH]; cbn; [reflexivity|]. rewrite <- insert_perm. apply perm_skip, IH. Qed.
Lemma sort_length l : length (sort l) = length l.
Proof. symmetry. apply Permutation_length, sort_perm. Qed.
Lemma insert_sorted x l : StronglySorted le l -> StronglySorted le (insert x l).
Proof.
  induction 1 as [|y l S IH F]; cbn; [repeat constructor|]. destruct (Nat.leb_spec x y).
  - constructor; [constructor; assumption|]. constructor; [exact H|]. eapply Forall_impl; [|exact F]. cbn. intros. lia.
  - constructor; [exact IH|]. apply Forall_forall. intros z I. apply (Permutation_in _ (Permutation_sym (insert_perm x l))) in I.
    destruct I as [<-|I]; [lia|]. rewrite Forall_forall in F. auto.
Qed.
Lemma sort_sorted l : StronglySorted le (sort l).
Proof. induction l; cbn; [constructor|]. apply insert_sorted. assumption. Qed.
Lemma mem_in c r : mem c r = true <-> In c r.
Proof.
  unfold mem. rewrite existsb_exists. split.
  - intros (x & I & E). apply Nat.eqb_eq in E. subst. exact I.
  - intros I. exists c. split; [exact I|]. apply Nat.eqb_refl.
Qed.

Lemma lower_bound_le j l : (lower_bound j l <= length l)%nat.
Proof. induction l as [|x l IH]; cbn; [lia|]. destruct (x <? j)%nat; lia. Qed.
(** On a sorted row: the entries before the position are smaller, the one at the position is the least not smaller. *)
Lemma lower_bound_spec j l : StronglySorted le l ->
  (forall k, (k < lower_bound j l)%nat -> (nth k l 0 < j)%nat) /\
  (forall k, (lower_bound j l <= k < length l)%nat -> (j <= nth k l 0)%nat).
Proof.
  induction 1 as [|x l S IH F]; cbn [lower_bound length]; [split; intros; lia|]. destruct (Nat.ltb_spec x j).
  - destruct IH as (A & B). split; intros [|k] K; cbn; [lia|apply A; lia|lia|apply B; lia].
  - split; intros k K; [lia|]. destruct k; cbn; [lia|]. rewrite Forall_forall in F. enough (x <= nth k l 0)%nat by lia. apply F, nth_In. lia.
Qed.
Lemma lower_bound_in j l : StronglySorted le l -> In j l -> (lower_bound j l < length l)%nat /\ nth (lower_bound j l) l 0%nat = j.
Proof.
  intros S I. destruct (lower_bound_spec j l S) as (A & B). pose proof (lower_bound_le j l) as L.
  destruct (In_nth l j 0%nat I) as (k & K & E).
  assert (lower_bound j l <= k)%nat. { destruct (Nat.le_gt_cases (lower_bound j l) k); [assumption|]. specialize (A k). lia. }
  split; [lia|]. specialize (B (lower_bound j l)).
  assert (nth (lower_bound j l) l 0 <= nth k l 0)%nat; [|lia].
  clear - S H K. revert k H K. generalize (lower_bound j l) as q. induction S as [|x l S IH F]; intros q k H K; [cbn in *; lia|].
  destruct q, k; cbn in *; try lia. 2: apply IH; lia. rewrite Forall_forall in F. apply F, nth_In. lia.
Qed.

(** ** Rows inside the concatenation *)
Definition off (p : pattern) (i : nat) : nat := Common.sum_nat (map (@length nat) (firstn i p)).
Lemma offsets_nth p : forall o i, (i <= length p)%nat -> nth_error (o :: offsets o p) i = Some (o + off p i)%nat.
Proof.
  induction p as [|r p IH]; intros o i L; unfold off.
  - destruct i; [|cbn in L; lia]. cbn. f_equal. lia.
  - destruct i; [cbn; f_equal; lia|]. cbn [nth_error offsets]. cbn in L. rewrite IH by lia. unfold off. cbn [firstn map Common.sum_nat fold_right]. f_equal. unfold Common.sum_nat. lia.
Qed.
Lemma offsets_length p : forall o, length (offsets o p) = length p.
Proof. induction p; intros o; cbn; [reflexivity|]. f_equal. apply IHp. Qed.
Lemma offsets_none p o i : (length p < i)%nat -> nth_error (o :: offsets o p) i = None.
Proof. intros. apply nth_error_None. cbn. rewrite offsets_length. lia. Qed.
Lemma off_S p i r : nth_error p i = Some r -> off p (S i) = (off p i + length r)%nat.
Proof.
  revert i. induction p as [|q p IH]; intros i N; [destruct i; discriminate|]. destruct i; cbn in N.
  - injection N as ->. unfold off. cbn. lia.
  - specialize (IH i N). unfold off in *. cbn [firstn map Common.sum_nat fold_right] in *. unfold Common.sum_nat in *. lia.
Qed.
Lemma off_le p : forall i k, (i <= k)%nat -> (off p i <= off p k)%nat.
Proof.
  intros i k H. unfold off. replace (firstn k p) with (firstn i p ++ firstn (k - i) (skipn i p)).
  - rewrite map_app, sum_nat_app. lia.
  - rewrite <- (firstn_skipn i p) at 3. rewrite firstn_app, firstn_firstn, firstn_length. replace (min k i) with i by lia. f_equal.
    destruct (Nat.le_gt_cases i (length p)); [rewrite min_l by lia; reflexivity|].
    rewrite !skipn_all2 by lia. rewrite !firstn_nil. reflexivity.
Qed.
Lemma last_nth (l : list nat) d : l <> [] -> nth_error l (length l - 1) = Some (last l d).
Proof.
  induction l as [|x l IH]; [congruence|]. intros _. destruct l as [|y l]; [reflexivity|].
  cbn [last length Nat.sub] in *. rewrite Nat.sub_0_r in *. cbn [nth_error]. apply IH. discriminate.
Qed.
Lemma last_off p : last (0%nat :: offsets 0 p) 0%nat = off p (length p).
Proof.
  pose proof (last_nth (0%nat :: offsets 0 p) 0 ltac:(discriminate)) as H. cbn [length] in H.
  rewrite offsets_length, Nat.sub_succ, Nat.sub_0_r, offsets_nth in H by lia. remember (last _ _). injection H as <-. reflexivity.
Qed.

Lemma concat_sorted_nth p : forall i r k, nth_error p i = Some r -> (k < length r)%nat ->
  nth_error (concat (map sort p)) (off p i + k) = nth_error (sort r) k.
Proof.
  induction p as [|q p IH]; intros i r k N K; [destruct i; discriminate|]. cbn [map concat]. destruct i; cbn in N.
  - injection N as ->. unfold off. cbn. rewrite nth_error_app1 by (rewrite sort_length; lia). reflexivity.
  - unfold off. cbn [firstn map Common.sum_nat fold_right]. rewrite nth_error_app2 by (rewrite sort_length; lia).
    rewrite sort_length. replace (_ - _)%nat with (off p i + k)%nat by (unfold off, Common.sum_nat; lia). apply IH; assumption.
Qed.
Lemma concat_length p : length (concat (map sort p)) = off p (length p).
Proof.
  unfold off. rewrite firstn_all. induction p as [|q p IH]; cbn; [reflexivity|]. rewrite app_length, sort_length, IH. reflexivity.
Qed.
Lemma slice_row p : forall i r, nth_error p i = Some r -> slice (off p i) (length r) (concat (map sort p)) = sort r.
Proof.
  induction p as [|q p IH]; intros i r N; [destruct i; discriminate|]. cbn [map concat]. unfold slice. destruct i; cbn in N.
  - injection N as ->. unfold off. cbn. rewrite <- (sort_length r), firstn_app, Nat.sub_diag, firstn_all. cbn. apply app_nil_r.
  - unfold off. cbn [firstn map Common.sum_nat fold_right]. rewrite skipn_app, sort_length, skipn_all2 by (rewrite sort_length; lia). cbn [app].
    replace (_ - _)%nat with (off p i) by (unfold off, Common.sum_nat; lia). apply (IH i r N).
Qed.

(** ** The invariant *)
Definition shape (p : pattern) (m : csr) : Prop :=
  rows m = length p /\ rowoffset m = 0%nat :: offsets 0 p /\ colindex m = concat (map sort p) /\ length (data m) = off p (length p).
Lemma shape_set p m d : shape p m -> length d = length (data m) -> shape p (set_data m d).
Proof. intros (A & B & C & D) L. unfold shape. cbn. repeat split; congruence. Qed.
Lemma shape_allocate p n e : shape p (allocate p n e).
Proof. unfold shape, allocate. cbn [rows rowoffset colindex data]. rewrite repeat_length, last_off. auto. Qed.

(** place of entry (i,j) *)
Definition place (p : pattern) (i j : nat) : nat :=
  match nth_error p i with Some r => (off p i + lower_bound j (sort r))%nat | None => 0%nat end.
Lemma place_in p i j r : nth_error p i = Some r -> In j r ->
  (off p i <= place p i j < off p (S i))%nat /\ nth_error (concat (map sort p)) (place p i j) = Some j.
Proof.
  intros N I. unfold place. rewrite N. destruct (lower_bound_in j (sort r) (sort_sorted r)) as (A & B).
  { apply (Permutation_in _ (sort_perm r)), I. }
  rewrite (off_S _ _ _ N), sort_length in *. split; [lia|]. rewrite (concat_sorted_nth _ _ _ _ N A).
  rewrite (nth_error_nth' _ 0%nat) by (rewrite sort_length; lia). congruence.
Qed.
Lemma present_row p i j : present p i j = true <-> exists r, nth_error p i = Some r /\ In j r.
Proof.
  unfold present. destruct (nth_error p i) as [r|]; split.
  - intros H. apply mem_in in H. eauto.
  - intros (r' & E & I). injection E as <-. apply mem_in, I.
  - discriminate.
  - intros (r' & E & _). discriminate.
Qed.
Lemma place_lt p i j : present p i j = true -> (place p i j < off p (length p))%nat.
Proof.
  intros P. apply present_row in P. destruct P as (r & N & I). destruct (place_in p i j r N I) as (A & _).
  assert (i < length p)%nat by (apply nth_error_Some; congruence). pose proof (off_le p (S i) (length p) ltac:(lia)). lia.
Qed.
Lemma row_of_place p i j i' j' : present p i j = true -> present p i' j' = true -> place p i j = place p i' j' -> i = i' /\ j = j'.
Proof.
  intros P P' E. apply present_row in P, P'. destruct P as (r & N & I), P' as (r' & N' & I').
  destruct (place_in p i j r N I) as (A & B), (place_in p i' j' r' N' I') as (A' & B'). rewrite E in *. rewrite B in B'. injection B' as ->.
  split; [|reflexivity]. destruct (Nat.lt_trichotomy i i') as [H|[H|H]]; [|exact H|].
  - pose proof (off_le p (S i) i' ltac:(lia)). lia.
  - pose proof (off_le p (S i') i ltac:(lia)). lia.
Qed.
Lemma position_shape chk p m i j : shape p m -> position chk m i j =
  match nth_error p i with
  | None => UB
  | Some r => if chk && (lower_bound j (sort r) =? length r)%nat then Throw
              else if (off p i + lower_bound j (sort r) <? off p (length p))%nat then Ok (off p i + lower_bound j (sort r))%nat else UB
  end.
Proof.
  intros (A & B & C & D). unfold position. rewrite B, C, D. destruct (nth_error p i) as [r|] eqn:N.
  - assert (i < length p)%nat by (apply nth_error_Some; congruence). rewrite !offsets_nth by lia. cbn [Nat.add].
    rewrite (off_S _ _ _ N). replace (off p i + length r - off p i)%nat with (length r) by lia. rewrite (slice_row _ _ _ N).
    replace (off p i + lower_bound j (sort r) =? off p i + length r)%nat with (lower_bound j (sort r) =? length r)%nat; [reflexivity|].
    destruct (Nat.eqb_spec (lower_bound j (sort r)) (length r)), (Nat.eqb_spec (off p i + lower_bound j (sort r)) (off p i + length r)); lia || reflexivity.
  - apply nth_error_None in N. rewrite (offsets_none p 0 (S i)) by lia. destruct (nth_error _ i); reflexivity.
Qed.
Lemma position_in chk p m i j : shape p m -> present p i j = true -> position chk m i j = Ok (place p i j).
Proof.
  intros S P. rewrite (position_shape chk p m i j S). pose proof (place_lt p i j P) as L. apply present_row in P. destruct P as (r & N & I).
  unfold place in *. rewrite N in *. destruct (lower_bound_in j (sort r) (sort_sorted r)) as (A & B).
  { apply (Permutation_in _ (sort_perm r)), I. }
  rewrite sort_length in A. destruct (Nat.eqb_spec (lower_bound j (sort r)) (length r)); [lia|]. rewrite andb_false_r.
  destruct (Nat.ltb_spec (off p i + lower_bound j (sort r)) (off p (length p))); [reflexivity|lia].
Qed.

(** ** Histories *)
Definition agrees (p : pattern) (m : csr) (A : matrix) : Prop := forall i j,
  if present p i j then nth (place p i j) (data m) 0 = A i j else A i j = 0.
Lemma fill_range_length b e v d : (b <= e <= length d)%nat -> length (fill_range b e v d) = length d.
Proof. intros. unfold fill_range. rewrite !app_length, firstn_length, repeat_length, skipn_length. lia. Qed.
Lemma fill_range_nth b e v d k : (b <= e <= length d)%nat ->
  nth k (fill_range b e v d) 0 = if (b <=? k)%nat && (k <? e)%nat then v else nth k d 0.
Proof.
  intros H. unfold fill_range. destruct (Nat.leb_spec b k).
  - rewrite app_nth2 by (rewrite firstn_length; lia). rewrite firstn_length, min_l by lia. destruct (Nat.ltb_spec k e); cbn [andb].
    + rewrite app_nth1 by (rewrite repeat_length; lia). rewrite nth_indep with (d' := v) by (rewrite repeat_length; lia). apply nth_repeat.
    + rewrite app_nth2 by (rewrite repeat_length; lia). rewrite repeat_length. rewrite <- (firstn_skipn (b + (e - b)) d) at 2.
      rewrite (app_nth2 (firstn (b + (e - b)) d)) by (rewrite firstn_length; lia). rewrite firstn_length. f_equal. lia.
  - cbn [andb]. rewrite app_nth1 by (rewrite firstn_length; lia). rewrite <- (firstn_skipn b d) at 2. rewrite app_nth1 by (rewrite firstn_length; lia). reflexivity.
Qed.

Lemma write_spec chk p m A i j f g : shape p m -> agrees p m A -> present p i j = true -> (f (A i j) = g) ->
  exists m', write chk m i j f = Ok m' /\ shape p m' /\ agrees p m' (fun k l => if (k =? i)%nat && (l =? j)%nat then g else A k l) /\ cols m' = cols m.
Proof.
  intros S G P F. unfold write. rewrite (position_in chk p m i j S P). cbn [bind]. eexists. split; [reflexivity|]. split.
  - apply shape_set; [exact S|]. apply upd_length.
  - split; [|reflexivity]. intros k l. specialize (G k l) as G'. cbn [data set_data]. destruct (present p k l) eqn:PK.
    + destruct (Nat.eqb_spec k i), (Nat.eqb_spec l j); cbn [andb]; subst.
      1: { specialize (G i j). rewrite P in G. rewrite G, upd_nth_same; [reflexivity|]. destruct S as (_ & _ & _ & ->). apply place_lt, P. }
      all: rewrite upd_nth_other; [exact G'|]; intros E; destruct (row_of_place p i j _ _ P PK E); congruence.
    + destruct (Nat.eqb_spec k i), (Nat.eqb_spec l j); cbn [andb]; subst; try exact G'. congruence.
Qed.
Lemma step_spec chk p m A o : shape p m -> agrees p m A -> addresses (present p) o ->
  exists m', step chk m o = Ok m' /\ shape p m' /\ agrees p m' (meaning (present p) A o) /\ cols m' = cols m.
Proof.
  intros HS G L. destruct o as [i j v|i j v|v|v|i v]; cbn [step addresses] in *.
  - apply (write_spec chk p m A i j _ v HS G L eq_refl).
  - destruct (write_spec chk p m A i j (fun x => x + v) _ HS G L eq_refl) as (m' & W & S' & G' & C'). exists m'. split; [exact W|]. split; [exact S'|].
    split; [|exact C']. intros k l. specialize (G' k l). cbn in *. destruct (Nat.eqb_spec k i), (Nat.eqb_spec l j); subst; exact G'.
  - eexists. split; [reflexivity|]. split; [apply shape_set; [exact HS|apply repeat_length]|]. split; [|reflexivity]. intros k l. specialize (G k l). cbn.
    destruct (present p k l) eqn:P; [|exact G]. rewrite nth_indep with (d' := v); [apply nth_repeat|].
    rewrite repeat_length. destruct HS as (_ & _ & _ & ->). apply place_lt, P.
  - eexists. split; [reflexivity|]. split; [apply shape_set; [exact HS|apply map_length]|]. split; [|reflexivity]. intros k l. specialize (G k l). cbn.
    destruct (present p k l) eqn:P; [|rewrite G; ring]. rewrite nth_indep with (d' := v * 0).
    + rewrite (map_nth (fun x => v * x)), G. reflexivity.
    + rewrite map_length. destruct HS as (_ & _ & _ & ->). apply place_lt, P.
  - pose proof L as L0. apply present_row in L0. destruct L0 as (r & N & I).
    assert (Hi : (i < length p)%nat) by (apply nth_error_Some; congruence).
    unfold clear_row. pose proof HS as (A1 & A2 & A3 & A4). rewrite A2, !offsets_nth by lia. cbn [Nat.add].
    assert (Q : (off p i <= off p (S i) <= length (data m))%nat).
    { rewrite A4. split; apply off_le; lia. }
    destruct (write_spec chk p (set_data m (fill_range (off p i) (off p (S i)) 0 (data m)))
       (fun k l => if (k =? i)%nat then 0 else A k l) i i (fun _ => v) v) as (m' & W & S' & G' & C').
    + apply shape_set; [exact HS|]. apply fill_range_length, Q.
    + intros k l. specialize (G k l). cbn [data set_data]. rewrite fill_range_nth by exact Q. destruct (present p k l) eqn:P.
      * apply present_row in P. destruct P as (r' & N' & I'). destruct (place_in p k l r' N' I') as (B1 & _).
        destruct (Nat.eqb_spec k i) as [->|NE].
        -- destruct (Nat.leb_spec (off p i) (place p i l)); [|lia]. destruct (Nat.ltb_spec (place p i l) (off p (S i))); [reflexivity|lia].
        -- enough ((off p i <=? place p k l)%nat && (place p k l <? off p (S i))%nat = false) as -> by exact G.
           destruct (Nat.leb_spec (off p i) (place p k l)); [|reflexivity]. cbn [andb]. apply Nat.ltb_ge.
           destruct (Nat.lt_ge_cases i k); [pose proof (off_le p (S i) k ltac:(lia)); lia|].
           pose proof (off_le p (S k) i ltac:(lia)). lia.
      * destruct (k =? i)%nat; [reflexivity|exact G].
    + exact L.
    + reflexivity.
    + exists m'. split; [exact W|]. split; [exact S'|]. split; [|exact C']. intros k l. specialize (G' k l). cbv beta in G'. unfold meaning. revert G'.
      destruct (Nat.eqb_spec k i) as [->|]; cbn [andb]; intros G'; exact G'.
Qed.
Lemma history_spec chk p ops : Forall (addresses (present p)) ops -> forall m A, shape p m -> agrees p m A ->
  exists m', foldM (step chk) ops m = Ok m' /\ shape p m' /\ agrees p m' (fold_left (meaning (present p)) ops A) /\ cols m' = cols m.
Proof.
  induction 1 as [|o ops L _ IH]; intros m A S G; [exists m; auto|]. destruct (step_spec chk p m A o S G L) as (m1 & E & S1 & G1 & C1).
  destruct (IH m1 _ S1 G1) as (m2 & E2 & S2 & G2 & C2). exists m2. cbn [foldM]. rewrite E. cbn [bind]. split; [exact E2|]. split; [exact S2|].
  split; [exact G2|]. congruence.
Qed.
Lemma allocate_agrees p n e : agrees p (allocate p n e) (initial (present p) e).
Proof.
  intros i j. unfold initial. destruct (present p i j) eqn:P; [|reflexivity]. cbn [allocate data]. rewrite last_off.
  rewrite nth_indep with (d' := e); [apply nth_repeat|]. rewrite repeat_length. apply place_lt, P.
Qed.
Lemma read_spec chk p m A i j : shape p m -> agrees p m A -> present p i j = true -> read chk m i j = Ok (A i j).
Proof. intros S G P. unfold read. rewrite (position_in chk p m i j S P). cbn [bind]. specialize (G i j). rewrite P in G. congruence. Qed.

(** ** Products *)
Lemma dot_ext n a a' x : (forall k, (k < n)%nat -> a k = a' k) -> dot n a x = dot n a' x.
Proof. induction n as [|n IH]; intros H; [reflexivity|]. cbn. rewrite IH, H by auto with arith. reflexivity. Qed.
Lemma dot_zero n a x : (forall k, (k < n)%nat -> a k = 0) -> dot n a x = 0.
Proof. induction n as [|n IH]; intros H; [reflexivity|]. cbn. rewrite IH, H by auto with arith. ring. Qed.
Lemma dot_add1 n a x c v : (c < n)%nat -> dot n (fun k => if (k =? c)%nat then a k + v else a k) x = dot n a x + v * x c.
Proof.
  induction n as [|n IH]; intros L; [lia|]. cbn [dot]. destruct (Nat.eqb_spec n c) as [->|].
  - rewrite (dot_ext c _ a); [ring|]. intros k K. destruct (Nat.eqb_spec k c); [lia|reflexivity].
  - rewrite IH by lia. ring.
Qed.
(** The sum over a row of stored entries. *)
Definition stored (d : list R) (c : list nat) (k : nat) : R :=
  fold_right (fun q acc => (if (k =? snd q)%nat then fst q else 0) + acc) 0 (combine d c).
Lemma inner_spec n x : length x = n -> forall d c acc, length d = length c -> (forall k, In k c -> (k < n)%nat) ->
  inner acc d c x = Ok (acc + dot n (stored d c) (at_ x)).
Proof.
  intros Lx. induction d as [|v d IH]; intros c acc L B; destruct c as [|k c]; try discriminate.
  - cbn [inner]. f_equal. rewrite dot_zero; [ring|]. reflexivity.
  - cbn [inner]. pose proof (B k (or_introl eq_refl)) as K. rewrite (nth_error_nth' x 0) by lia.
    rewrite IH; [|cbn in L; lia|intros; apply B; right; assumption]. f_equal.
    transitivity (acc + dot n (fun q => if (q =? k)%nat then stored d c q + v else stored d c q) (at_ x)).
    + rewrite dot_add1 by exact K. unfold at_. ring.
    + f_equal. apply dot_ext. intros q _. unfold stored. cbn [combine fold_right fst snd]. destruct (q =? k)%nat; ring.
Qed.
Lemma stored_at d c k : forall q, NoDup c -> length d = length c -> nth_error c q = Some k -> stored d c k = nth q d 0.
Proof.
  revert c. induction d as [|v d IH]; intros c q ND L N; destruct c as [|k0 c]; try discriminate; [destruct q; discriminate|].
  apply NoDup_cons_iff in ND. destruct ND as (X & ND). unfold stored. cbn [combine fold_right fst snd]. fold (stored d c k). destruct q as [|q]; cbn in N.
  - injection N as ->. rewrite Nat.eqb_refl. cbn [nth]. replace (stored d c k) with 0; [ring|]. symmetry.
    clear IH L. revert c X ND. induction d as [|v' d IHd]; intros c X ND; [reflexivity|]. destruct c as [|k1 c]; [reflexivity|].
    unfold stored. cbn [combine fold_right fst snd]. fold (stored d c k). apply NoDup_cons_iff in ND. cbn in X.
    rewrite IHd by tauto. destruct (Nat.eqb_spec k k1); [subst; tauto|ring].
  - destruct (Nat.eqb_spec k k0) as [->|].
    + exfalso. apply X. eapply nth_error_In, N.
    + cbn [nth]. rewrite (IH c q ND ltac:(cbn in L; lia) N). ring.
Qed.
Lemma stored_none d c k : ~ In k c -> stored d c k = 0.
Proof.
  revert c. induction d as [|v d IH]; intros c X; [reflexivity|]. destruct c as [|k0 c]; [reflexivity|].
  unfold stored. cbn [combine fold_right fst snd]. fold (stored d c k). cbn in X. rewrite IH by tauto. destruct (Nat.eqb_spec k k0); [subst; tauto|ring].
Qed.
Lemma slice_length {X} b n (l : list X) : (b + n <= length l)%nat -> length (slice b n l) = n.
Proof. intros. unfold slice. rewrite firstn_length, skipn_length. lia. Qed.
Lemma slice_nth b n (l : list R) k : (b + n <= length l)%nat -> (k < n)%nat -> nth k (slice b n l) 0 = nth (b + k) l 0.
Proof.
  intros H K. unfold slice. rewrite <- (firstn_skipn b l) at 2. rewrite (app_nth2 (firstn b l)) by (rewrite firstn_length; lia).
  rewrite firstn_length, min_l by lia. replace (b + k - b)%nat with k by lia.
  rewrite <- (firstn_skipn n (skipn b l)) at 2. rewrite app_nth1 by (rewrite firstn_length, skipn_length; lia). reflexivity.
Qed.
Lemma row_product_spec p m A x i : sets p -> shape p m -> agrees p m A -> (forall k l, present p k l = true -> (l < cols m)%nat) ->
  length x = cols m -> (i < length p)%nat -> row_product m i x = Ok (dot (cols m) (A i) (at_ x)).
Proof.
  intros ND (A1 & A2 & A3 & A4) G B Lx Hi. unfold row_product. rewrite A2, !offsets_nth by lia. cbn [Nat.add].
  destruct (nth_error p i) as [r|] eqn:N; [|apply nth_error_None in N; lia]. rewrite (off_S _ _ _ N).
  replace (off p i + length r - off p i)%nat with (length r) by lia. rewrite A3, (slice_row _ _ _ N).
  assert (LD : (off p i + length r <= length (data m))%nat).
  { rewrite A4, <- (off_S _ _ _ N). apply off_le. lia. }
  rewrite (inner_spec (cols m) x Lx).
  - f_equal. rewrite Rplus_0_l. apply dot_ext. intros k _. specialize (G i k).
    assert (NDr : NoDup (sort r)). { eapply Permutation_NoDup; [apply sort_perm|]. eapply Forall_forall in ND; [exact ND|]. eapply nth_error_In, N. }
    destruct (present p i k) eqn:P.
    + unfold present in P. rewrite N in P. apply mem_in in P. destruct (lower_bound_in k (sort r) (sort_sorted r)) as (B1 & B2).
      { apply (Permutation_in _ (sort_perm r)), P. }
      rewrite (stored_at _ _ k (lower_bound k (sort r)) NDr).
      * unfold place in G. rewrite N in G. rewrite slice_nth by (rewrite ?sort_length in *; lia). exact G.
      * rewrite slice_length, sort_length by lia. reflexivity.
      * rewrite (nth_error_nth' _ 0%nat) by exact B1. congruence.
    + rewrite G. apply stored_none. intros I. apply (Permutation_in _ (Permutation_sym (sort_perm r))) in I.
      enough (present p i k = true) by congruence. apply present_row. eauto.
  - rewrite slice_length, sort_length by lia. reflexivity.
  - intros k I. apply (Permutation_in _ (Permutation_sym (sort_perm r))) in I. apply (B i k). apply present_row. eauto.
Qed.
Lemma rows_loop (f : list R -> nat -> res R) (g : nat -> R -> R) y0 n : length y0 = n ->
  (forall y r, (r < n)%nat -> nth r y 0 = nth r y0 0 -> f y r = Ok (g r (nth r y0 0))) ->
  exists y, foldM (fun y r => let* v := f y r in put r v y) (seq 0 n) y0 = Ok y /\ length y = n /\ forall r, (r < n)%nat -> nth r y 0 = g r (nth r y0 0).
Proof.
  intros L H.
  assert (Gen : forall k s y, (s + k = n)%nat -> length y = n -> (forall r, (r < s)%nat -> nth r y 0 = g r (nth r y0 0)) ->
     (forall r, (s <= r < n)%nat -> nth r y 0 = nth r y0 0) ->
     exists y', foldM (fun y r => let* v := f y r in put r v y) (seq s k) y = Ok y' /\ length y' = n /\ forall r, (r < n)%nat -> nth r y' 0 = g r (nth r y0 0)).
  { induction k as [|k IH]; intros s y E Ly D U.
    - exists y. split; [reflexivity|]. split; [exact Ly|]. intros r R0. apply D. lia.
    - cbn [seq foldM]. rewrite H by (try lia; apply U; lia). cbn [bind]. unfold put. destruct (Nat.ltb_spec s (length y)); [|lia]. cbn [bind].
      apply IH; [lia|rewrite upd_length; exact Ly| |].
      + intros r R0. destruct (Nat.eq_dec r s) as [->|NE]; [apply upd_nth_same; lia|]. rewrite upd_nth_other by congruence. apply D. lia.
      + intros r R0. rewrite upd_nth_other by lia. apply U. lia. }
  apply (Gen n 0%nat y0); auto. intros r R0. lia.
Qed.
Lemma mv_spec p m A x y : sets p -> shape p m -> agrees p m A -> (forall k l, present p k l = true -> (l < cols m)%nat) ->
  length x = cols m -> length y = length p ->
  exists y', mv m x y = Ok y' /\ length y' = length p /\ forall r, (r < length p)%nat -> nth r y' 0 = dot (cols m) (A r) (at_ x).
Proof.
  intros ND S G B Lx Ly. unfold mv. pose proof S as (A1 & _). rewrite A1.
  destruct (rows_loop (fun _ r => row_product m r x) (fun r _ => dot (cols m) (A r) (at_ x)) y (length p) Ly) as (y' & E & L' & V).
  - intros y1 r Hr _. apply (row_product_spec p); assumption.
  - exists y'. auto.
Qed.
Lemma usmv_spec p m A alpha x y : sets p -> shape p m -> agrees p m A -> (forall k l, present p k l = true -> (l < cols m)%nat) ->
  length x = cols m -> length y = length p ->
  exists y', usmv m alpha x y = Ok y' /\ length y' = length p /\ forall r, (r < length p)%nat -> nth r y' 0 = nth r y 0 + alpha * dot (cols m) (A r) (at_ x).
Proof.
  intros ND S G B Lx Ly. unfold usmv. pose proof S as (A1 & _). rewrite A1.
  destruct (rows_loop (fun y r => let* v := row_product m r x in Ok (nth r y 0 + alpha * v)) (fun r v => v + alpha * dot (cols m) (A r) (at_ x)) y (length p) Ly) as (y' & E & L' & V).
  - intros y1 r Hr Hy. rewrite (row_product_spec p m A x r) by assumption. cbn [bind]. rewrite Hy. reflexivity.
  - exists y'. split; [|auto]. rewrite <- E. clear. generalize (seq 0 (length p)). intros l. revert y. induction l as [|r l IH]; intros y; [reflexivity|].
    cbn [foldM]. destruct (row_product m r x); cbn [bind]; try reflexivity. destruct (put r _ y); cbn [bind]; [apply IH|reflexivity|reflexivity].
Qed.
