(** Proofs: combination of values over all copies (C41) and scalar products (C40). *)
From Coq Require Import Reals Lra.
From Verif Require Import Common CommonFacts ParModel ParSpec ParProofs.

(** ** C41 *)

Lemma fold_add_rsum {A} (f : A -> R) l : forall a, fold_left op_add (map f l) a = (a + rsum f l)%R.
Proof. induction l as [|x l IH]; intros a; cbn; [lra|]. rewrite IH. unfold op_add, rsum. lra. Qed.
Lemma rsum_perm {A} (f : A -> R) l l' : Permutation l l' -> rsum f l = rsum f l'.
Proof. unfold rsum. induction 1; cbn [fold_right] in *; lra. Qed.

Lemma op_min_Rmin a b : op_min a b = Rmin a b.
Proof. unfold op_min, Rmin. destruct (Rlt_dec b a), (Rle_dec a b); lra. Qed.
Lemma op_max_Rmax a b : op_max a b = Rmax a b.
Proof. unfold op_max, Rmax. destruct (Rlt_dec a b), (Rle_dec a b); lra. Qed.

(** A selecting operation returns the extreme element with respect to the order [le]. *)
Lemma fold_select (op : R -> R -> R) (le : R -> R -> Prop) (f : nat -> R) :
  (forall a b, op a b = a \/ op a b = b) -> (forall a b, le (op a b) a) -> (forall a b, le (op a b) b) ->
  (forall a, le a a) -> (forall a b c, le a b -> le b c -> le a c) ->
  forall l q, (exists s, In s (q :: l) /\ fold_left op (map f l) (f q) = f s) /\
              (forall s, In s (q :: l) -> le (fold_left op (map f l) (f q)) (f s)).
Proof.
  intros S1 L1 L2 RF TR.
  assert (G : forall l a, (fold_left op (map f l) a = a \/ exists s, In s l /\ fold_left op (map f l) a = f s) /\
     le (fold_left op (map f l) a) a /\ forall s, In s l -> le (fold_left op (map f l) a) (f s)).
  { induction l as [|x l IH]; intros a; cbn; [repeat split; auto; tauto|].
    destruct (IH (op a (f x))) as (A & B & C). repeat split.
    - destruct A as [A|(s & I & A)]; [|eauto]. rewrite A. destruct (S1 a (f x)) as [->| ->]; eauto.
    - eauto.
    - intros s [<-|I]; eauto. }
  intros l q. destruct (G l (f q)) as (A & B & C). split.
  - destruct A as [->|(s & I & A)]; [exists q; cbn; auto|exists s; cbn; auto].
  - intros s [<-|I]; auto.
Qed.

Section exchange.
  Variables (W : world) (snd rcv : nat -> nat -> bool) (order : list (nat * nat * nat)).
  Hypothesis N : forall q, q < nranks W -> NoDup (held W q).
  Hypothesis P : Permutation order (messages W snd rcv).

  Lemma contributors_exist q e : exists cs, contributors W snd q e cs.
  Proof.
    exists (filter (fun s => stores W s e && ((s =? q) || snd s e)) (seq 0 (nranks W))). split.
    - apply NoDup_filter, seq_NoDup.
    - intros s. rewrite filter_In, in_seq, andb_true_iff, orb_true_iff, stores_iff, Nat.eqb_eq. unfold contributes. intuition lia.
  Qed.

  Lemma add_spec st : sized W st ->
    exists st', add_handle order st = Ok st' /\ sized W st' /\
      forall q e k, q < nranks W -> In e (held W q) -> k < ndofs W e ->
        (rcv q e = true -> forall cs, contributors W snd q e cs -> nth k (st' q e) 0%R = rsum (fun s => nth k (st s e) 0%R) cs) /\
        (rcv q e = false -> nth k (st' q e) 0%R = nth k (st q e) 0%R).
  Proof.
    intros SZ. destruct (dofs_at op_add 0%R W snd rcv order st SZ P) as (st' & E & SZ' & F).
    exists st'. split; auto. split; auto. intros q e k Q H K. rewrite (proj2 (F q e Q H) k K).
    rewrite fold_add_rsum. split.
    - intros RC cs C. pose proof (from_contributors W snd rcv order q e cs P Q (N q Q) H RC C) as PC.
      rewrite (rsum_perm _ _ _ PC). cbn. reflexivity.
    - intros RC. rewrite (from_not_receiving W snd rcv order q e P Q (N q Q) H RC). cbn. lra.
  Qed.

  Lemma select_spec (op : R -> R -> R) (le : R -> R -> Prop) st :
    (forall a b, op a b = a \/ op a b = b) -> (forall a b, le (op a b) a) -> (forall a b, le (op a b) b) ->
    (forall a, le a a) -> (forall a b c, le a b -> le b c -> le a c) ->
    sized W st ->
    exists st', communicate gather_dofs (scatter_dofs op) order st = Ok st' /\ sized W st' /\
      forall q e k, q < nranks W -> In e (held W q) -> k < ndofs W e ->
        (rcv q e = true ->
           (exists s, contributes W snd q e s /\ nth k (st' q e) 0%R = nth k (st s e) 0%R) /\
           (forall s, contributes W snd q e s -> le (nth k (st' q e) 0%R) (nth k (st s e) 0%R))) /\
        (rcv q e = false -> nth k (st' q e) 0%R = nth k (st q e) 0%R).
  Proof.
    intros S1 L1 L2 RF TR SZ. destruct (dofs_at op 0%R W snd rcv order st SZ P) as (st' & E & SZ' & F).
    exists st'. split; auto. split; auto. intros q e k Q H K. rewrite (proj2 (F q e Q H) k K).
    split.
    - intros RC. destruct (contributors_exist q e) as (cs & C).
      pose proof (from_contributors W snd rcv order q e cs P Q (N q Q) H RC C) as PC.
      destruct (fold_select op le (fun s => nth k (st s e) 0%R) S1 L1 L2 RF TR (from order q e) q) as ((s & I & A) & B).
      destruct C as (_ & C). split.
      + exists s. split; auto. apply C. apply (Permutation_in _ (Permutation_sym PC)). auto.
      + intros s' H'. apply B. apply (Permutation_in _ PC). now apply C.
    - intros RC. rewrite (from_not_receiving W snd rcv order q e P Q (N q Q) H RC). reflexivity.
  Qed.

  Lemma copy_spec {A} (st : dvec A) : sized W st ->
    exists st', copy_handle order st = Ok st' /\ sized W st' /\
      forall q e, q < nranks W -> In e (held W q) ->
        ((exists s, s <> q /\ contributes W snd q e s /\ rcv q e = true /\ st' q e = st s e) \/
         (st' q e = st q e /\ (rcv q e = false \/ forall s, contributes W snd q e s -> s = q))).
  Proof.
    intros SZ. 
    assert (D : forall (l l' : list A), length l = length l' -> zip op_copy l l' = l').
    { induction l as [|x l IH]; intros [|y l'] L; cbn in *; try discriminate; auto. f_equal. apply IH. lia. }
    assert (X : exists st', copy_handle order st = Ok st' /\ sized W st' /\
       forall q e, q < nranks W -> In e (held W q) -> st' q e = fold_left (zip op_copy) (map (fun s => st s e) (from order q e)) (st q e)).
    { destruct (Nat.eq_dec 0 1); [lia|].
      assert (Y : (exists a : A, True) \/ (forall q e, q < nranks W -> In e (held W q) -> st q e = [])).
      { destruct (existsb (fun q => existsb (fun e => 0 <? length (st q e)) (held W q)) (seq 0 (nranks W))) eqn:B.
        - apply existsb_exists in B as (q & _ & B). apply existsb_exists in B as (e & _ & B).
          left. destruct (st q e) as [|a l]; [discriminate|eauto].
        - right. intros q e Q H. destruct (st q e) as [|a l] eqn:L; auto. exfalso.
          assert (T : existsb (fun q => existsb (fun e => 0 <? length (st q e)) (held W q)) (seq 0 (nranks W)) = true).
          { apply existsb_exists. exists q. split; [apply in_seq; lia|]. apply existsb_exists. exists e. split; auto. rewrite L. reflexivity. }
          congruence. }
      destruct Y as [(a & _)|Y].
      - destruct (dofs_at op_copy a W snd rcv order st SZ P) as (st' & E & SZ' & F).
        exists st'. split; auto. split; auto. intros q e Q H. apply F; auto.
      - destruct (communicate_at (@gather_dofs A) (scatter_dofs op_copy) (fun _ _ => zip op_copy)
          (fun q e v => q < nranks W -> In e (held W q) -> v = []) order st) as (st' & E & F); auto.
        { intros s q e v I V. apply (Permutation_in _ P), in_messages in I. unfold gather_dofs, scatter_dofs.
          rewrite V, Y by tauto. cbn. auto. }
        exists st'. split; auto. split.
        + intros q e Q H. rewrite F. rewrite Y by auto. rewrite <- SZ by (eauto). rewrite Y by auto.
          generalize (map (fun s => gather_dofs s e (st s e)) (from order q e)). intros ls. induction ls; cbn; auto.
        + intros q e Q H. apply F. }
    destruct X as (st' & E & SZ' & F). exists st'. split; auto. split; auto.
    intros q e Q H. rewrite F by auto. destruct (rcv q e) eqn:RC.
    - destruct (contributors_exist q e) as (cs & C).
      pose proof (from_contributors W snd rcv order q e cs P Q (N q Q) H RC C) as PC. destruct C as (NC & C).
      assert (ND : NoDup (q :: from order q e)) by (apply (Permutation_NoDup PC NC)).
      destruct (from order q e) as [|s l] eqn:L.
      + right. split; auto. right. intros s Hs. apply C in Hs. apply (Permutation_in _ PC) in Hs. destruct Hs as [->|[]]; auto.
      + left. destruct (exists_last (l := s :: l) ltac:(discriminate)) as (l' & s' & L').
        rewrite L' in *. exists s'.
        assert (IS : In s' (q :: l' ++ [s'])) by (right; apply in_app_iff; right; now left).
        repeat split; auto.
        * intros ->. inversion ND as [|? ? N1 _]; subst. apply N1. apply in_app_iff. right. now left.
        * apply C. apply (Permutation_in _ (Permutation_sym PC)). auto.
        * apply C. apply (Permutation_in _ (Permutation_sym PC)). auto.
        * apply C. apply (Permutation_in _ (Permutation_sym PC)). auto.
        * rewrite map_app, fold_left_app. cbn. apply D.
          assert (LL : forall (ls : list (list A)) (v : list A), length v = ndofs W e -> (forall l0, In l0 ls -> length l0 = ndofs W e) ->
              length (fold_left (zip op_copy) ls v) = ndofs W e).
          { induction ls as [|l0 ls IH]; intros v V Hl; cbn; auto. apply IH; [|intros; apply Hl; now right].
            rewrite zip_length; auto. rewrite V. symmetry. apply Hl. now left. }
          assert (HS : forall t, In t (q :: l' ++ [s']) -> length (st t e) = ndofs W e).
          { intros t Ht. apply (Permutation_in _ (Permutation_sym PC)) in Ht. apply C in Ht. destruct Ht as (T1 & T2 & _). apply SZ; auto. }
          rewrite LL; [symmetry; now apply HS|apply SZ; auto|].
          intros l0 Hl. apply in_map_iff in Hl as (t & <- & Ht). apply HS. right. apply in_app_iff. auto.
    - right. rewrite (from_not_receiving W snd rcv order q e P Q (N q Q) H RC). auto.
  Qed.
End exchange.

(** ** C40 *)

Lemma blocks_ind' {A} (P : blocks A -> Prop) :
  (forall l, P (Field l)) -> (forall l, Forall P l -> P (Block l)) -> forall t, P t.
Proof.
  intros F B. fix IH 1. intros [l|l]; [apply F|]. apply B. induction l as [|t l IHl]; constructor; auto.
Qed.

Lemma rsum_app {A} (f : A -> R) l l' : rsum f (l ++ l') = (rsum f l + rsum f l')%R.
Proof. induction l as [|x l IH]; unfold rsum in *; cbn; [lra|]. rewrite IH. lra. Qed.
Lemma rsum_ext {A} (f g : A -> R) l : (forall x, In x l -> f x = g x) -> rsum f l = rsum g l.
Proof.
  induction l as [|x l IH]; intros H; cbn; auto. unfold rsum in *. rewrite IH; [|intros; apply H; now right].
  rewrite H by now left. reflexivity.
Qed.
Lemma rsum_zero {A} (f : A -> R) l : (forall x, In x l -> f x = 0%R) -> rsum f l = 0%R.
Proof.
  induction l as [|x l IH]; intros H; cbn; auto. unfold rsum in *. rewrite IH; [|intros; apply H; now right].
  rewrite H by now left. lra.
Qed.
Lemma rsum_plus {A} (f g : A -> R) l : rsum (fun x => (f x + g x)%R) l = (rsum f l + rsum g l)%R.
Proof. induction l as [|x l IH]; unfold rsum in *; cbn; [lra|]. rewrite IH. lra. Qed.
Lemma rsum_swap {A B} (f : A -> B -> R) la lb : rsum (fun x => rsum (f x) lb) la = rsum (fun y => rsum (fun x => f x y) la) lb.
Proof.
  induction la as [|x la IH]; [cbn; symmetry; apply rsum_zero; reflexivity|]. 
  change (rsum (fun x0 => rsum (f x0) lb) (x :: la)) with (rsum (f x) lb + rsum (fun x0 => rsum (f x0) lb) la)%R.
  rewrite IH, <- rsum_plus. apply rsum_ext. reflexivity.
Qed.
Lemma rsum_filter {A} (f : A -> R) (b : A -> bool) l : rsum f (filter b l) = rsum (fun x => if b x then f x else 0%R) l.
Proof. induction l as [|x l IH]; cbn; auto. destruct (b x); cbn; unfold rsum in *; rewrite IH; lra. Qed.
Lemma rsum_one (f : nat -> R) k l : NoDup l -> In k l -> (forall i, In i l -> i <> k -> f i = 0%R) -> rsum f l = f k.
Proof.
  induction l as [|x l IH]; intros ND I H; [destruct I|]. inversion ND; subst.
  change (rsum f (x :: l)) with (f x + rsum f l)%R. destruct (Nat.eq_dec x k) as [->|D].
  - rewrite rsum_zero; [lra|]. intros y Hy. apply H; [now right|]. intros ->. contradiction.
  - rewrite H by (auto; now left). rewrite IH; auto; [lra|destruct I; [congruence|auto]|].
    intros i Hi Hd. apply H; auto. now right.
Qed.

Lemma rsum_cons {A} (f : A -> R) x l : rsum f (x :: l) = (f x + rsum f l)%R. Proof. reflexivity. Qed.
Local Arguments rsum : simpl never.
Lemma ddot_flat rank (x y : dof -> R) (m : dof -> nat) shape :
  disjoint_dot rank (bmap x shape) (bmap y shape) (bmap m shape) =
  rsum (fun d => if m d =? rank then (x d * y d)%R else 0%R) (flatten shape).
Proof.
  induction shape as [l|l IH] using blocks_ind'; cbn.
  - induction l as [|d l IH]; cbn; auto. rewrite rsum_cons, IH. reflexivity.
  - induction IH as [|t l Ht _ IHl]; cbn; auto. rewrite Ht, IHl, rsum_app. reflexivity.
Qed.
Lemma mask_flat rank (x : dof -> R) (m : dof -> nat) shape :
  mask_foreign rank (bmap x shape) (bmap m shape) = bmap (fun d => if m d =? rank then x d else 0%R) shape.
Proof.
  induction shape as [l|l IH] using blocks_ind'; cbn; f_equal.
  - induction l as [|d l IH]; cbn; auto. now rewrite IH.
  - induction IH as [|t l Ht _ IHl]; cbn; auto. now rewrite Ht, IHl.
Qed.
Lemma flatten_bmap {A B} (f : A -> B) t : flatten (bmap f t) = map f (flatten t).
Proof.
  induction t as [l|l IH] using blocks_ind'; cbn; auto.
  induction IH as [|t l Ht _ IHl]; cbn; auto. now rewrite map_app, Ht, IHl.
Qed.

Definition has_dofb (W : world) (q : nat) (x : dof) : bool :=
  (q <? nranks W) && stores W q (fst x) && (snd x <? ndofs W (fst x)).
Lemma has_dofb_iff W q x : has_dofb W q x = true <-> has_dof W q x.
Proof. unfold has_dofb, has_dof. rewrite !andb_true_iff, stores_iff, !Nat.ltb_lt. tauto. Qed.

Lemma arranges_filter W q l all : all_dofs W all -> arranges W q l -> Permutation l (filter (has_dofb W q) all).
Proof.
  intros (N & A) (N' & B). apply NoDup_Permutation; auto.
  - now apply NoDup_filter.
  - intros x. rewrite B, filter_In, A, has_dofb_iff. split; [|tauto]. eauto.
Qed.

(** A sum over the ranks of sums over the DOFs a rank owns is a sum over all DOFs. *)
Lemma sum_owned W only (own : nat -> dof -> nat) (shape : nat -> list dof) all (f : nat -> dof -> R) :
  grid_ok W only -> all_dofs W all -> (forall q, q < nranks W -> arranges W q (shape q)) ->
  (forall q x, has_dof W q x -> smallest_ib W (fst x) (own q x)) ->
  forall owner : dof -> nat, (forall x, In x all -> smallest_ib W (fst x) (owner x)) ->
  rsum (fun q => rsum (fun x => if own q x =? q then f q x else 0%R) (shape q)) (seq 0 (nranks W)) =
  rsum (fun x => f (owner x) x) all.
Proof.
  intros G A S O owner OW.
  transitivity (rsum (fun q => rsum (fun x => if has_dofb W q x then if own q x =? q then f q x else 0%R else 0%R) all) (seq 0 (nranks W))).
  { apply rsum_ext. intros q Q. apply in_seq in Q. etransitivity; [|apply (rsum_filter _ (has_dofb W q))]. apply rsum_perm, arranges_filter; auto. apply S. lia. }
  rewrite rsum_swap. apply rsum_ext. intros x X.
  assert (OX := OW x X). destruct OX as ((O1 & O2 & O3) & O4).
  assert (K : snd x < ndofs W (fst x)).
  { destruct A as (_ & A). apply A in X as (q & _ & _ & X). auto. }
  rewrite (rsum_one _ (owner x)).
  - assert (HD : has_dof W (owner x) x) by (repeat split; auto).
    rewrite (proj2 (has_dofb_iff _ _ _) HD).
    rewrite (smallest_unique _ _ _ _ (O _ _ HD) (OW x X)), Nat.eqb_refl. reflexivity.
  - apply seq_NoDup.
  - apply in_seq. lia.
  - intros q Q D. destruct (has_dofb W q x) eqn:HD; auto. apply has_dofb_iff in HD.
    rewrite (smallest_unique _ _ _ _ (O _ _ HD) (OW x X)).
    destruct (Nat.eqb_spec (owner x) q); [congruence|auto].
Qed.

Lemma at_repeat {A} (d a : A) n k : k < n -> nth k (repeat a n) d = a.
Proof. revert k. induction n as [|n IH]; intros [|k] K; cbn; auto; try lia. apply IH. lia. Qed.
