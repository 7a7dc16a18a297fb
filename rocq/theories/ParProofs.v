(** Proofs about one communication: what arrives at an entity of a rank. *)
From Coq Require Import Reals Lra.
From Verif Require Import Common CommonFacts ParModel ParSpec.

Lemma stores_iff W q e : stores W q e = true <-> In e (held W q).
Proof.
  unfold stores. rewrite existsb_exists. split.
  - intros (x & H & E). apply Nat.eqb_eq in E. now subst.
  - intros H. exists e. rewrite Nat.eqb_refl. auto.
Qed.

(** Senders of the messages to entity [e] of rank [q], in the order of arrival. *)
Definition from (order : list (nat * nat * nat)) (q e : nat) : list nat :=
  map (fun m => fst (fst m)) (filter (fun m => (snd (fst m) =? q) && (snd m =? e)) order).

Lemma perm_filter {A} (f : A -> bool) l l' : Permutation l l' -> Permutation (filter f l) (filter f l').
Proof.
  induction 1; cbn; auto.
  - destruct (f x); auto.
  - destruct (f x), (f y); auto. constructor.
  - etransitivity; eauto.
Qed.
Lemma from_perm o o' q e : Permutation o o' -> Permutation (from o q e) (from o' q e).
Proof. intros P. apply Permutation_map, perm_filter, P. Qed.

Lemma filter_flat_map {A B} (f : B -> bool) (g : A -> list B) l :
  filter f (flat_map g l) = flat_map (fun x => filter f (g x)) l.
Proof. induction l as [|x l IH]; cbn; auto. now rewrite filter_app, IH. Qed.
Lemma map_flat_map {A B C} (f : B -> C) (g : A -> list B) l :
  map f (flat_map g l) = flat_map (fun x => map f (g x)) l.
Proof. induction l as [|x l IH]; cbn; auto. now rewrite map_app, IH. Qed.
Lemma flat_map_one {B} (g : nat -> list B) x l :
  NoDup l -> In x l -> (forall y, In y l -> y <> x -> g y = []) -> flat_map g l = g x.
Proof.
  induction l as [|y l IH]; cbn; intros N I H; [tauto|]. inversion N as [|? ? N1 N2]; subst.
  destruct (Nat.eq_dec y x) as [->|D].
  - assert (Z : flat_map g l = []).
    { assert (H' : forall z, In z l -> g z = []) by (intros z Hz; apply H; [auto|intros ->; contradiction]).
      clear -H'. induction l as [|z l IH]; cbn; auto. rewrite H' by now left. apply IH. intros y Hy. apply H'. now right. }
    rewrite Z. apply app_nil_r.
  - rewrite H by auto. cbn. apply IH; auto. destruct I; [congruence|auto].
Qed.
Lemma filter_ext_in' {A} (f g : A -> bool) l : (forall x, In x l -> f x = g x) -> filter f l = filter g l.
Proof. apply filter_ext_in. Qed.
Lemma filter_none {A} (f : A -> bool) l : (forall x, In x l -> f x = false) -> filter f l = [].
Proof. induction l as [|x l IH]; cbn; intros H; auto. rewrite H by auto. rewrite IH; auto. Qed.
Lemma filter_all {A} (f : A -> bool) l : (forall x, In x l -> f x = true) -> filter f l = l.
Proof. induction l as [|x l IH]; cbn; intros H; auto. rewrite H by auto. rewrite IH; auto. Qed.

Lemma from_messages W snd rcv q e :
  q < nranks W -> NoDup (held W q) -> In e (held W q) ->
  from (messages W snd rcv) q e =
  filter (fun s => negb (s =? q) && stores W s e && snd s e && rcv q e) (seq 0 (nranks W)).
Proof.
  intros Q N I. unfold from, messages.
  rewrite filter_flat_map, map_flat_map.
  rewrite (flat_map_one _ q); [|apply seq_NoDup|apply in_seq; lia|].
  - rewrite filter_flat_map, map_flat_map. rewrite (flat_map_one _ e); auto.
    + rewrite filter_all; [rewrite map_map; cbn; apply map_id|].
      intros m H. apply in_map_iff in H. destruct H as (s & <- & _). cbn. now rewrite !Nat.eqb_refl.
    + intros y _ D. rewrite filter_none; auto.
      intros m H. apply in_map_iff in H. destruct H as (s & <- & _). cbn.
      apply Nat.eqb_neq in D. rewrite D. apply andb_false_r.
  - intros y _ D. rewrite filter_none; auto.
    intros m H. apply in_flat_map in H. destruct H as (z & _ & H).
    apply in_map_iff in H. destruct H as (s & <- & _). cbn.
    apply Nat.eqb_neq in D. now rewrite D.
Qed.

Lemma in_messages W snd rcv s q e :
  In (s, q, e) (messages W snd rcv) <->
  s < nranks W /\ q < nranks W /\ s <> q /\ In e (held W s) /\ In e (held W q) /\ snd s e = true /\ rcv q e = true.
Proof.
  unfold messages. rewrite in_flat_map. split.
  - intros (q' & Q & H). apply in_flat_map in H. destruct H as (e' & E & H).
    apply in_map_iff in H. destruct H as (s' & X & H). injection X as -> -> ->.
    apply filter_In in H. destruct H as (S1 & H). apply in_seq in S1, Q.
    rewrite !andb_true_iff, negb_true_iff, Nat.eqb_neq, stores_iff in H. intuition lia.
  - intros (S1 & Q & D & E & E' & A & B). exists q. split; [apply in_seq; lia|].
    apply in_flat_map. exists e. split; auto. apply in_map_iff. exists s. split; auto.
    apply filter_In. split; [apply in_seq; lia|].
    rewrite !andb_true_iff, negb_true_iff, Nat.eqb_neq, stores_iff. auto.
Qed.

(** What a communication leaves at (q, e): the scatters of the messages for (q, e) in the order of arrival. *)
Lemma communicate_at {A B} (gather : nat -> nat -> list A -> B) scatter
      (h : nat -> nat -> list A -> B -> list A) (I : nat -> nat -> list A -> Prop) order st :
  (forall s q e v, In (s, q, e) order -> I q e v ->
     scatter q e v (gather s e (st s e)) = Ok (h q e v (gather s e (st s e))) /\ I q e (h q e v (gather s e (st s e)))) ->
  (forall q e, I q e (st q e)) ->
  exists st', communicate gather scatter order st = Ok st' /\
    forall q e, st' q e = fold_left (h q e) (map (fun s => gather s e (st s e)) (from order q e)) (st q e).
Proof.
  unfold communicate. intros H.
  set (sent := fun s e => gather s e (st s e)).
  assert (H' : forall s q e v, In (s, q, e) order -> I q e v ->
     scatter q e v (sent s e) = Ok (h q e v (sent s e)) /\ I q e (h q e v (sent s e))) by exact H.
  clear H. change (fun s e => gather s e (st s e)) with sent.
  assert (G : forall o cur, incl o order -> (forall q e, I q e (cur q e)) ->
    exists st', foldM (deliver scatter sent) o cur = Ok st' /\
    forall q e, st' q e = fold_left (h q e) (map (fun s => sent s e) (from o q e)) (cur q e)).
  { induction o as [|[[s q0] e0] o IH]; intros cur L C; [exists cur; auto|].
    cbn [foldM deliver].
    destruct (H' s q0 e0 (cur q0 e0)) as (E & J); [apply L; now left|auto|].
    rewrite E. cbn [bind].
    destruct (IH (upd2 cur q0 e0 (h q0 e0 (cur q0 e0) (sent s e0)))) as (st' & E1 & F).
    { intros m Hm. apply L. now right. }
    { intros q e. unfold upd2. destruct (Nat.eqb_spec q q0), (Nat.eqb_spec e e0); cbn; subst; auto. }
    exists st'. split; auto. intros q e. rewrite F. unfold upd2, from. cbn [filter fst snd].
    rewrite (Nat.eqb_sym q0 q), (Nat.eqb_sym e0 e).
    destruct (Nat.eqb_spec q q0), (Nat.eqb_spec e e0); cbn; subst; auto. }
  intros C. apply G; auto. apply incl_refl.
Qed.

(** ** Ownership *)

Lemma fold_min_spec l : forall a, (fold_left Nat.min l a = a \/ In (fold_left Nat.min l a) l) /\
  fold_left Nat.min l a <= a /\ forall x, In x l -> fold_left Nat.min l a <= x.
Proof.
  induction l as [|y l IH]; intros a; cbn; [repeat split; auto; tauto|].
  destruct (IH (Nat.min a y)) as (A & B & C). repeat split.
  - destruct A as [A|A]; [|auto]. rewrite A. destruct (Nat.min_spec a y) as [[_ ->]|[_ ->]]; auto.
  - lia.
  - intros x [->|H]; [lia|auto].
Qed.

(** The scatter of the partition handle applied to equal values. *)
Definition part_step (W : world) (q e current received : nat) : nat :=
  if negb (ib W q e) && (current =? q) then received else Nat.min current received.

Lemma map_repeat' {A B} (f : A -> B) x n : map f (repeat x n) = repeat (f x) n.
Proof. induction n; cbn; congruence. Qed.

Lemma part_fold W q e n : forall l a,
  fold_left (fun v received => map (fun current => part_step W q e current received) v) l (repeat a n) =
  repeat (fold_left (part_step W q e) l a) n.
Proof. induction l as [|x l IH]; intros a; cbn; auto. now rewrite map_repeat', IH. Qed.

Lemma part_fold_ib W q e l : ib W q e = true -> forall a, fold_left (part_step W q e) l a = fold_left Nat.min l a.
Proof. intros H. induction l as [|x l IH]; intros a; cbn; auto. rewrite IH. unfold part_step. now rewrite H. Qed.
Lemma part_fold_other W q e l : (forall x, In x l -> x <> q) ->
  forall a, a <> q -> fold_left (part_step W q e) l a = fold_left Nat.min l a.
Proof.
  induction l as [|x l IH]; intros H a D; cbn; auto.
  unfold part_step at 2. apply Nat.eqb_neq in D as D'. rewrite D', andb_false_r.
  rewrite IH; auto. { intros y Hy. apply H. now right. }
  assert (x <> q) by (apply H; now left). destruct (Nat.min_spec a x) as [[_ ->]|[_ ->]]; auto.
Qed.

(** The senders to a stored entity under the interior-border-to-all interface (or its restriction). *)
Lemma ib_all_from W only order q e :
  grid_ok W only -> Permutation order (ib_all_messages W only) -> q < nranks W -> In e (held W q) ->
  forall s, In s (from order q e) <-> s <> q /\ s < nranks W /\ In e (held W s) /\ ib W s e = true.
Proof.
  intros (N & X & O) P Q E s.
  assert (B : only = true -> ib W q e = true) by (intros T; apply O; auto).
  assert (K : In s (from order q e) <-> In s (from (ib_all_messages W only) q e)).
  { split; apply Permutation_in; [|symmetry]; apply from_perm; auto. }
  rewrite K. unfold ib_all_messages, interior_border_all, interior_border_interior_border.
  destruct only; rewrite from_messages by auto; rewrite filter_In, in_seq, !andb_true_iff, negb_true_iff, Nat.eqb_neq, stores_iff;
    unfold everywhere; [rewrite B by auto|]; intuition lia.
Qed.

Lemma partition_value W only order q e :
  grid_ok W only -> Permutation order (ib_all_messages W only) -> q < nranks W -> In e (held W q) ->
  smallest_ib W e (fold_left (part_step W q e) (from order q e) q).
Proof.
  intros G P Q E. pose proof (ib_all_from W only order q e G P Q E) as F.
  destruct G as (N & X & O).
  destruct (ib W q e) eqn:B.
  - rewrite part_fold_ib by auto. destruct (fold_min_spec (from order q e) q) as (M1 & M2 & M3).
    split.
    + destruct M1 as [->|M1]; auto. apply F in M1. tauto.
    + intros r' R1 R2 R3. destruct (Nat.eq_dec r' q) as [->|D]; auto. apply M3, F. auto.
  - destruct (X q e Q E) as (r & R1 & R2 & R3).
    assert (In r (from order q e)) as IR by (apply F; repeat split; auto; intros ->; congruence).
    assert (FN : forall x, In x (from order q e) -> x <> q) by (intros x Hx; apply F in Hx; tauto).
    destruct (from order q e) as [|s l] eqn:L; [destruct IR|].
    cbn [fold_left]. unfold part_step at 2. rewrite B, Nat.eqb_refl. cbn [negb andb].
    rewrite part_fold_other by (try (intros x Hx; apply FN; now right); apply FN; now left).
    destruct (fold_min_spec l s) as (M1 & M2 & M3).
    split.
    + destruct M1 as [->|M1]; [|apply (or_intror (A := s = fold_left Nat.min l s)) in M1; apply F in M1; tauto].
      assert (In s (s :: l)) as Y by now left. apply F in Y. tauto.
    + intros r' A1 A2 A3. assert (Y : In r' (s :: l)) by (apply F; repeat split; auto; intros ->; congruence).
      destruct Y as [<-|Y]; auto.
Qed.

Lemma smallest_unique W e r r' : smallest_ib W e r -> smallest_ib W e r' -> r = r'.
Proof. intros ((A1 & A2 & A3) & A) ((B1 & B2 & B3) & B). specialize (A r' B1 B2 B3). specialize (B r A1 A2 A3). lia. Qed.

Lemma partition_spec W only order :
  grid_ok W only -> Permutation order (ib_all_messages W only) ->
  exists part, rank_partition W order = Ok part /\
    forall q e, q < nranks W -> In e (held W q) -> exists r, smallest_ib W e r /\ part q e = repeat r (ndofs W e).
Proof.
  intros G P. unfold rank_partition.
  destruct (communicate_at (partition_gather : nat -> nat -> list nat -> nat) (partition_scatter W)
    (fun q e v received => map (fun current => part_step W q e current received) v) (fun _ _ _ => True) order
    (filled W (fun q => q))) as (part & E & F); auto.
  { intros s q e v _ _. split; auto. unfold partition_scatter. f_equal. apply map_ext. intros c.
    unfold part_step. destruct (negb (ib W q e) && (c =? q)); auto. }
  exists part. split; auto. intros q e Q H. exists (fold_left (part_step W q e) (from order q e) q).
  split; [eapply partition_value; eauto|]. rewrite F. unfold partition_gather.
  rewrite map_id. unfold filled. apply part_fold.
Qed.

Lemma ghosts_spec W only order :
  grid_ok W only -> Permutation order (ib_all_messages W only) ->
  exists g, ghosts W order = Ok g /\
    forall q e, q < nranks W -> In e (held W q) -> g q e = repeat (negb (ib W q e)) (ndofs W e).
Proof.
  intros G P. unfold ghosts.
  destruct (communicate_at (ghost_gather W) (ghost_scatter W)
    (fun q e v _ => map (fun _ => negb (ib W q e)) v) (fun _ _ _ => True) order
    (filled W (fun _ => false))) as (g & E & F); auto.
  exists g. split; auto. intros q e Q H. rewrite F.
  assert (Z : forall {B} (l : list B) a n, l <> [] \/ a = negb (ib W q e) ->
     fold_left (fun v _ => map (fun _ : bool => negb (ib W q e)) v) l (repeat a n) = repeat (negb (ib W q e)) n).
  { induction l as [|x l IH]; intros a n D; cbn; [destruct D; congruence|]. rewrite map_repeat'. apply IH. auto. }
  unfold filled. apply Z. destruct (ib W q e) eqn:B; [now right|left].
  destruct G as (N & X & O). destruct (X q e Q H) as (r & R1 & R2 & R3).
  assert (IR : In r (from order q e)).
  { apply (ib_all_from W only order q e); auto. split; [exact N|split; auto]. repeat split; auto. intros ->. congruence. }
  intros Z'. apply map_eq_nil in Z'. rewrite Z' in IR. destruct IR.
Qed.

(** ** Combination of DOF values *)

Lemma zip_length {A B C} (f : A -> B -> C) l : forall l', length l = length l' -> length (zip f l l') = length l.
Proof. induction l as [|x l IH]; intros [|y l'] H; cbn in *; auto; lia. Qed.
Lemma zip_nth {A B C} (f : A -> B -> C) l d d' d'' : forall l' k, length l = length l' -> k < length l ->
  nth k (zip f l l') d'' = f (nth k l d) (nth k l' d').
Proof.
  induction l as [|x l IH]; intros [|y l'] [|k] H K; cbn in *; try lia; auto. apply IH; lia.
Qed.
Lemma fold_zip_nth {A} (op : A -> A -> A) d n ls : forall v k, length v = n -> (forall l, In l ls -> length l = n) -> k < n ->
  length (fold_left (zip op) ls v) = n /\
  nth k (fold_left (zip op) ls v) d = fold_left op (map (fun l => nth k l d) ls) (nth k v d).
Proof.
  induction ls as [|l ls IH]; intros v k L H K; cbn; [auto|].
  assert (E : length v = length l) by (rewrite L; symmetry; apply H; now left).
  destruct (IH (zip op v l) k) as (I1 & I2); auto.
  { rewrite zip_length; auto. }
  { intros l' Hl. apply H. now right. }
  split; auto. rewrite I2. f_equal. apply zip_nth; lia.
Qed.

Lemma dofs_at {A} (op : A -> A -> A) d W snd rcv order st :
  sized W st -> Permutation order (messages W snd rcv) ->
  exists st', communicate gather_dofs (scatter_dofs op) order st = Ok st' /\ sized W st' /\
    forall q e, q < nranks W -> In e (held W q) ->
      st' q e = fold_left (zip op) (map (fun s => st s e) (from order q e)) (st q e) /\
      forall k, k < ndofs W e ->
      nth k (st' q e) d = fold_left op (map (fun s => nth k (st s e) d) (from order q e)) (nth k (st q e) d).
Proof.
  intros SZ P.
  assert (IM : forall s q e, In (s, q, e) order -> s < nranks W /\ q < nranks W /\ In e (held W s) /\ In e (held W q)).
  { intros s q e H. apply (Permutation_in _ P), in_messages in H. tauto. }
  destruct (communicate_at (@gather_dofs A) (scatter_dofs op)
    (fun _ _ => zip op)
    (fun q e v => q < nranks W -> In e (held W q) -> length v = ndofs W e) order st) as (st' & E & F).
  { intros s q e v H L. apply IM in H as (H1 & H2 & H3 & H4). unfold scatter_dofs, gather_dofs.
    rewrite L, SZ, Nat.eqb_refl by auto. split; auto. intros _ _. rewrite zip_length; auto. rewrite L, SZ; auto. }
  { intros q e. auto. }
  assert (FR : forall s q e, In s (from order q e) -> s < nranks W /\ In e (held W s)).
  { intros s q e H. unfold from in H. apply in_map_iff in H as ([[s' q'] e'] & <- & H).
    apply filter_In in H as (H & H'). cbn in *. apply andb_true_iff in H' as (H1 & H2).
    apply Nat.eqb_eq in H1, H2. subst. apply IM in H. tauto. }
  assert (LL : forall q e l, In l (map (fun s => st s e) (from order q e)) -> length l = ndofs W e).
  { intros q e l H. apply in_map_iff in H as (s & <- & H). apply FR in H. apply SZ; tauto. }
  exists st'. split; auto. split.
  - intros q e Q H. rewrite F. destruct (ndofs W e) as [|n] eqn:Z.
    + assert (Y : forall ls v, length v = 0 -> length (fold_left (zip op) ls v) = 0).
      { induction ls as [|l ls IH]; intros v V; cbn; auto. apply IH. destruct v; [destruct l; auto|discriminate]. }
      unfold gather_dofs. apply Y. rewrite SZ; auto.
    + apply (fold_zip_nth op d (S n) _ _ 0); [rewrite SZ; auto| |lia]. intros l Hl. rewrite <- Z. eapply LL; eauto.
  - intros q e Q H. split; [apply F|]. intros k K. rewrite F. unfold gather_dofs.
    rewrite (proj2 (fold_zip_nth op d (ndofs W e) _ _ k (SZ q e Q H) (LL q e) K)).
    rewrite map_map. reflexivity.
Qed.

Lemma fold_perm {A} (op : A -> A -> A) l l' :
  (forall a x y, op (op a x) y = op (op a y) x) -> Permutation l l' -> forall a, fold_left op l a = fold_left op l' a.
Proof.
  intros C P. induction P; intros a; cbn; auto.
  - now rewrite C.
  - now rewrite IHP1.
Qed.

(** The senders in increasing order. *)
Lemma from_contributors W snd rcv order q e cs :
  Permutation order (messages W snd rcv) -> q < nranks W -> NoDup (held W q) -> In e (held W q) -> rcv q e = true ->
  contributors W snd q e cs -> Permutation cs (q :: from order q e).
Proof.
  intros P Q N E RC (NC & C). apply NoDup_Permutation; auto.
  - pose proof (from_perm _ _ q e P) as PF. rewrite from_messages in PF by auto. constructor.
    + intros H. apply (Permutation_in _ PF) in H. apply filter_In in H as (_ & H). now rewrite Nat.eqb_refl in H.
    + apply (Permutation_NoDup (Permutation_sym PF)). apply NoDup_filter, seq_NoDup.
  - pose proof (from_perm _ _ q e P) as PF. rewrite from_messages in PF by auto.
    intros s. rewrite C. unfold contributes. cbn [In]. rewrite (conj (Permutation_in s PF) (Permutation_in s (Permutation_sym PF)) : _ <-> _).
    rewrite filter_In, in_seq, !andb_true_iff, negb_true_iff, Nat.eqb_neq, stores_iff.
    split.
    + intros (A & B & D). destruct (Nat.eq_dec s q) as [->|K]; auto. right. destruct D; [contradiction|]. repeat split; auto; lia.
    + intros [<-|H]; [auto|]. destruct H as ((_ & H) & ((H1 & H2) & H3) & H4). repeat split; auto.
Qed.
Lemma from_not_receiving W snd rcv order q e :
  Permutation order (messages W snd rcv) -> q < nranks W -> NoDup (held W q) -> In e (held W q) -> rcv q e = false ->
  from order q e = [].
Proof.
  intros P Q N E RC. pose proof (from_perm _ _ q e P) as PF. rewrite from_messages in PF by auto.
  rewrite filter_none in PF.
  - now apply Permutation_sym, Permutation_nil in PF.
  - intros x _. rewrite RC. apply andb_false_r.
Qed.
