(** Patterns, dense matrices and accesses outside the pattern. *)
From Coq Require Import Lra Sorted.
From Verif Require Import CsrModel CsrSpec CommonFacts CsrProofs.
Local Open Scope R_scope.

(** ** Building a pattern *)
Lemma add_link_present p k l p' i j : add_link p (k, l) = Ok p' ->
  present p' i j = present p i j || ((i =? k)%nat && (j =? l)%nat) /\ (sets p -> sets p') /\ length p' = length p.
Proof.
  unfold add_link. cbn [fst snd]. destruct (nth_error p k) as [r|] eqn:N; [|discriminate]. intros E. injection E as <-.
  assert (K : (k < length p)%nat) by (apply nth_error_Some; congruence). split; [|split].
  - unfold present. destruct (Nat.eqb_spec i k) as [->|NE].
    + rewrite upd_nth_error_same, N by exact K. cbn [andb]. destruct (mem l r) eqn:M.
      * destruct (Nat.eqb_spec j l) as [->|]; [rewrite M; reflexivity|]. rewrite orb_false_r. reflexivity.
      * unfold mem. cbn [existsb]. apply orb_comm.
    + rewrite upd_nth_error_other by congruence. rewrite orb_false_r. reflexivity.
  - intros S. unfold sets in *. rewrite Forall_forall in *. intros q I. apply In_nth_error in I. destruct I as (n & I).
    destruct (Nat.eq_dec n k) as [->|NE].
    + rewrite upd_nth_error_same in I by exact K. injection I as <-. pose proof (S r (nth_error_In _ _ N)) as Sr. destruct (mem l r) eqn:M; [exact Sr|].
      constructor; [|exact Sr]. intros I. apply mem_in in I. congruence.
    + rewrite upd_nth_error_other in I by congruence. apply S. eapply nth_error_In, I.
  - apply upd_length.
Qed.
Lemma links_present links : forall p, Forall (fun q => (fst q < length p)%nat) links -> sets p ->
  exists p', foldM add_link links p = Ok p' /\ sets p' /\ length p' = length p /\
    forall i j, present p' i j = true <-> present p i j = true \/ In (i, j) links.
Proof.
  induction links as [|(k, l) links IH]; intros p F S.
  - exists p. cbn. intuition.
  - apply Forall_cons_iff in F. destruct F as (F0 & F). cbn [fst] in F0. cbn [foldM].
    destruct (add_link p (k, l)) as [p1| |] eqn:A.
    + cbn [bind]. destruct (add_link_present p k l p1 0 0 A) as (_ & S1 & L1). destruct (IH p1) as (p' & E & S' & L' & G).
      { rewrite L1. exact F. } { auto. }
      exists p'. split; [exact E|]. split; [exact S'|]. split; [congruence|]. intros i j. rewrite G.
      destruct (add_link_present p k l p1 i j A) as (-> & _). rewrite orb_true_iff, andb_true_iff, !Nat.eqb_eq. cbn [In].
      assert ((k, l) = (i, j) <-> i = k /\ j = l) by (split; [intros Q; injection Q; auto|intros (-> & ->); reflexivity]). tauto.
    + unfold add_link in A. cbn in A. destruct (nth_error p k); discriminate.
    + unfold add_link in A. cbn in A. destruct (nth_error p k) eqn:N; [discriminate|]. apply nth_error_None in N. lia.
Qed.
Lemma repeat_nil_sets n : sets (repeat [] n).
Proof. unfold sets. apply Forall_forall. intros q I. apply repeat_spec in I. subst. constructor. Qed.
Lemma repeat_nil_present n i j : present (repeat [] n) i j = false.
Proof.
  unfold present. destruct (nth_error (repeat [] n) i) eqn:N; [|reflexivity]. apply nth_error_In, repeat_spec in N. subst. reflexivity.
Qed.

(** ** Dense matrix *)
Definition inside (n k i j : nat) : bool := (i <? n)%nat && (j <? k)%nat.
Definition dshape (n k : nat) (m : dense) : Prop := drows m = n /\ dcols m = k /\ length (entries m) = (n * k)%nat.
Definition dagrees (n k : nat) (m : dense) (A : matrix) : Prop := forall i j,
  if inside n k i j then nth (i * k + j) (entries m) 0 = A i j else A i j = 0.
Lemma inside_iff n k i j : inside n k i j = true <-> (i < n /\ j < k)%nat.
Proof. unfold inside. rewrite andb_true_iff, !Nat.ltb_lt. tauto. Qed.
Lemma inside_lt n k i j : inside n k i j = true -> (i * k + j < n * k)%nat.
Proof. rewrite inside_iff. intros (A & B). nia. Qed.
Lemma dplace_inj (k i j i' j' : nat) : (j < k)%nat -> (j' < k)%nat -> (i * k + j = i' * k + j')%nat -> i = i' /\ j = j'.
Proof. intros A B E. assert (i = i') by nia. subst. split; [reflexivity|lia]. Qed.
Lemma dwrite_spec n k m A i j f g : dshape n k m -> dagrees n k m A -> inside n k i j = true -> f (A i j) = g ->
  exists m', dwrite m i j f = Ok m' /\ dshape n k m' /\ dagrees n k m' (fun q l => if (q =? i)%nat && (l =? j)%nat then g else A q l).
Proof.
  intros (S1 & S2 & S3) G P F. pose proof (inside_lt _ _ _ _ P) as L. unfold dwrite. rewrite S2.
  rewrite (nth_error_nth' _ 0) by lia. eexists. split; [reflexivity|]. split; [split; [exact S1|split; [reflexivity|cbn; rewrite upd_length; exact S3]]|].
  intros q l. specialize (G q l) as G'. cbn [entries]. pose proof (G i j) as Gi. rewrite P in Gi. rewrite Gi, F. destruct (inside n k q l) eqn:Q.
  - apply inside_iff in P, Q. destruct (Nat.eqb_spec q i), (Nat.eqb_spec l j); cbn [andb]; subst.
    1: apply upd_nth_same; lia.
    all: rewrite upd_nth_other; [exact G'|]; intros E; apply dplace_inj in E; try lia; destruct E; congruence.
  - destruct (Nat.eqb_spec q i), (Nat.eqb_spec l j); cbn [andb]; subst; try exact G'. congruence.
Qed.
Lemma dstep_spec n k m A o : dshape n k m -> dagrees n k m A -> addresses (inside n k) o ->
  exists m', dstep m o = Ok m' /\ dshape n k m' /\ dagrees n k m' (meaning (inside n k) A o).
Proof.
  intros HS G L. pose proof HS as (S1 & S2 & S3). destruct o as [i j v|i j v|v|v|i v]; cbn [dstep addresses] in *.
  - apply (dwrite_spec n k m A i j _ v HS G L eq_refl).
  - destruct (dwrite_spec n k m A i j (fun x => x + v) _ HS G L eq_refl) as (m' & W & S' & G'). exists m'. split; [exact W|]. split; [exact S'|].
    intros q l. specialize (G' q l). cbn in *. destruct (Nat.eqb_spec q i), (Nat.eqb_spec l j); subst; exact G'.
  - eexists. split; [reflexivity|]. split; [split; [exact S1|split; [exact S2|cbn; rewrite repeat_length; exact S3]]|]. intros q l. specialize (G q l). cbn.
    destruct (inside n k q l) eqn:P; [|exact G]. rewrite nth_indep with (d' := v); [apply nth_repeat|].
    rewrite repeat_length, S3. apply inside_lt, P.
  - eexists. split; [reflexivity|]. split; [split; [exact S1|split; [exact S2|cbn; rewrite map_length; exact S3]]|]. intros q l. specialize (G q l). cbn.
    destruct (inside n k q l) eqn:P; [|rewrite G; ring]. rewrite nth_indep with (d' := v * 0).
    + rewrite (map_nth (fun x => v * x)), G. reflexivity.
    + rewrite map_length, S3. apply inside_lt, P.
  - pose proof L as L0. apply inside_iff in L0. rewrite S2, S3. destruct (Nat.leb_spec (S i * k) (n * k)) as [Q|Q]; [|nia].
    assert (Q' : (i * k <= S i * k <= length (entries m))%nat) by (rewrite S3; nia).
    destruct (dwrite_spec n k (mkdense (drows m) k (fill_range (i * k) (S i * k) 0 (entries m)))
       (fun q l => if (q =? i)%nat then 0 else A q l) i i (fun _ => v) v) as (m' & W & S' & G').
    + split; [exact S1|split; [reflexivity|]]. cbn [entries]. rewrite fill_range_length by exact Q'. exact S3.
    + intros q l. specialize (G q l). cbn [entries]. rewrite fill_range_nth by exact Q'. destruct (inside n k q l) eqn:P.
      * apply inside_iff in P. destruct (Nat.eqb_spec q i) as [->|NE].
        -- destruct (Nat.leb_spec (i * k) (i * k + l)); [|lia]. destruct (Nat.ltb_spec (i * k + l) (S i * k)); [reflexivity|lia].
        -- enough ((i * k <=? q * k + l)%nat && (q * k + l <? S i * k)%nat = false) as -> by exact G.
           destruct (Nat.leb_spec (i * k) (q * k + l)); [|reflexivity]. cbn [andb]. apply Nat.ltb_ge.
           destruct (Nat.lt_ge_cases i q); nia.
      * destruct (q =? i)%nat; [reflexivity|exact G].
    + exact L.
    + reflexivity.
    + exists m'. split; [exact W|]. split; [exact S'|]. intros q l. specialize (G' q l). cbv beta in G'. unfold meaning. revert G'.
      destruct (Nat.eqb_spec q i) as [->|]; cbn [andb]; intros G'; exact G'.
Qed.
Lemma dhistory_spec n k ops : Forall (addresses (inside n k)) ops -> forall m A, dshape n k m -> dagrees n k m A ->
  exists m', foldM dstep ops m = Ok m' /\ dshape n k m' /\ dagrees n k m' (fold_left (meaning (inside n k)) ops A).
Proof.
  induction 1 as [|o ops L _ IH]; intros m A S G; [exists m; auto|]. destruct (dstep_spec n k m A o S G L) as (m1 & E & S1 & G1).
  destruct (IH m1 _ S1 G1) as (m2 & E2 & S2 & G2). exists m2. cbn [foldM]. rewrite E. cbn [bind]. auto.
Qed.
Lemma dallocate_spec n k e : dshape n k (dallocate n k e) /\ dagrees n k (dallocate n k e) (initial (inside n k) e).
Proof.
  split; [repeat split; cbn; apply repeat_length|]. intros i j. unfold initial. destruct (inside n k i j) eqn:P; [|reflexivity]. cbn [dallocate entries].
  rewrite nth_indep with (d' := e); [apply nth_repeat|]. rewrite repeat_length. apply inside_lt, P.
Qed.
Lemma dread_spec n k m A i j : dshape n k m -> dagrees n k m A -> inside n k i j = true -> dread m i j = Ok (A i j).
Proof.
  intros (S1 & S2 & S3) G P. unfold dread. rewrite S2. pose proof (inside_lt _ _ _ _ P). rewrite (nth_error_nth' _ 0) by lia. specialize (G i j). rewrite P in G. congruence.
Qed.
Lemma dot_shift n a x : dot (S n) a x = a O * x O + dot n (fun i => a (S i)) (fun i => x (S i)).
Proof. induction n as [|n IH]; [cbn; ring|]. cbn [dot] in *. rewrite IH. ring. Qed.
Lemma dinner_spec k : forall acc d x, (k <= length d)%nat -> (k <= length x)%nat ->
  dinner acc d x k = Ok (acc + dot k (fun i => nth i d 0) (at_ x)).
Proof.
  induction k as [|k IH]; intros acc d x Ld Lx; [cbn [dinner dot]; rewrite Rplus_0_r; reflexivity|]. destruct d as [|v d]; [cbn in Ld; lia|]. destruct x as [|w x]; [cbn in Lx; lia|].
  cbn [dinner]. rewrite IH by (cbn in *; lia). f_equal. rewrite dot_shift. unfold at_. cbn [nth]. ring.
Qed.
Lemma dmv_rows_spec f m x k : dcols m = k -> length x = k -> forall y it, (length y * k <= length it)%nat ->
  exists y', dmv_rows f m x it y = Ok y' /\ length y' = length y /\
    forall r, (r < length y)%nat -> nth r y' 0 = f (nth r y 0) (dot k (fun j => nth (r * k + j) it 0) (at_ x)).
Proof.
  intros Ck Lx. induction y as [|v y IH]; intros it L; [exists []; cbn; intuition lia|]. cbn [dmv_rows length] in *. rewrite Ck.
  rewrite dinner_spec by lia. cbn [bind]. destruct (IH (skipn k it)) as (y' & E & Ly & V); [rewrite skipn_length; lia|]. rewrite E. cbn [bind].
  eexists. split; [reflexivity|]. split; [cbn; lia|]. intros [|r] Hr; cbn [nth].
  - rewrite Rplus_0_l. reflexivity.
  - rewrite V by lia. f_equal. apply dot_ext. intros j _. rewrite <- (firstn_skipn k it) at 2. rewrite app_nth2 by (rewrite firstn_length; lia).
    rewrite firstn_length. f_equal. nia.
Qed.
Lemma dmv_spec n k m A x y : dshape n k m -> dagrees n k m A -> length x = k -> length y = n ->
  exists y', dmv m x y = Ok y' /\ length y' = n /\ forall r, (r < n)%nat -> nth r y' 0 = dot k (A r) (at_ x).
Proof.
  intros (S1 & S2 & S3) G Lx Ly. destruct (dmv_rows_spec (fun _ s => s) m x k S2 Lx y (entries m)) as (y' & E & L & V); [lia|].
  exists y'. split; [exact E|]. split; [lia|]. intros r Hr. rewrite V by lia. apply dot_ext. intros j Hj. specialize (G r j).
  rewrite (proj2 (inside_iff n k r j)) in G by lia. exact G.
Qed.
Lemma dusmv_spec n k m A alpha x y : dshape n k m -> dagrees n k m A -> length x = k -> length y = n ->
  exists y', dusmv m alpha x y = Ok y' /\ length y' = n /\ forall r, (r < n)%nat -> nth r y' 0 = nth r y 0 + alpha * dot k (A r) (at_ x).
Proof.
  intros (S1 & S2 & S3) G Lx Ly. destruct (dmv_rows_spec (fun v s => v + alpha * s) m x k S2 Lx y (entries m)) as (y' & E & L & V); [lia|].
  exists y'. split; [exact E|]. split; [lia|]. intros r Hr. rewrite V by lia. do 2 f_equal. apply dot_ext. intros j Hj. specialize (G r j).
  rewrite (proj2 (inside_iff n k r j)) in G by lia. exact G.
Qed.

(** ** Outside the pattern *)
Lemma outside_position p m i j : shape p m -> present p i j = false ->
  (forall j', (j < j')%nat -> present p i j' = false) -> position true m i j = Throw \/ position true m i j = UB.
Proof.
  intros S P A. rewrite (position_shape true p m i j S). unfold present in P, A. destruct (nth_error p i) as [r|]; [|right; reflexivity]. left.
  destruct (lower_bound_spec j (sort r) (sort_sorted r)) as (_ & B). pose proof (lower_bound_le j (sort r)) as L. rewrite sort_length in *.
  destruct (Nat.eqb_spec (lower_bound j (sort r)) (length r)); [reflexivity|]. exfalso.
  specialize (B (lower_bound j (sort r)) ltac:(lia)). set (c := nth (lower_bound j (sort r)) (sort r) 0%nat) in *.
  assert (I : In c r). { apply (Permutation_in _ (Permutation_sym (sort_perm r))). apply nth_In. rewrite sort_length. lia. }
  apply mem_in in I. destruct (Nat.eq_dec j c) as [E|NE]; [rewrite <- E in I; congruence|]. rewrite A in I by lia. discriminate.
Qed.
Lemma outside_next chk p m i j j' : shape p m -> present p i j = false -> (j < j')%nat -> present p i j' = true ->
  (forall q, (j < q < j')%nat -> present p i q = false) -> position chk m i j = Ok (place p i j').
Proof.
  intros S P L P' N. rewrite <- (position_in chk p m i j' S P'). rewrite !(position_shape chk p m _ _ S). unfold present in *.
  destruct (nth_error p i) as [r|]; [|discriminate]. enough (lower_bound j (sort r) = lower_bound j' (sort r)) as -> by reflexivity.
  destruct (lower_bound_spec j (sort r) (sort_sorted r)) as (A1 & B1). destruct (lower_bound_spec j' (sort r) (sort_sorted r)) as (A2 & B2).
  pose proof (lower_bound_le j (sort r)) as L1. pose proof (lower_bound_le j' (sort r)) as L2.
  assert (Hm : forall k, (k < length (sort r))%nat -> mem (nth k (sort r) 0%nat) r = true).
  { intros k K. apply mem_in. apply (Permutation_in _ (Permutation_sym (sort_perm r))), nth_In, K. }
  destruct (Nat.lt_trichotomy (lower_bound j (sort r)) (lower_bound j' (sort r))) as [H|[H|H]]; [|exact H|].
  - specialize (A2 _ H). specialize (B1 (lower_bound j (sort r)) ltac:(lia)). specialize (Hm (lower_bound j (sort r)) ltac:(lia)).
    destruct (Nat.eq_dec (nth (lower_bound j (sort r)) (sort r) 0%nat) j) as [E|NE]; [rewrite E in Hm; congruence|].
    rewrite N in Hm by lia. discriminate.
  - specialize (A1 _ H). specialize (B2 (lower_bound j' (sort r)) ltac:(lia)). lia.
Qed.
