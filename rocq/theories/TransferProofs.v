(** Proofs about sums, offsets and the projection. *)
From Verif Require Import TransferModel TransferSpec CommonFacts.
From Coq Require Import Lra.
Local Open Scope R_scope.

(** ** Sums *)
Lemma rsum_cons {A} (f : A -> R) x l : rsum f (x :: l) = f x + rsum f l. Proof. reflexivity. Qed.
Lemma rsum_nil {A} (f : A -> R) : rsum f [] = 0. Proof. reflexivity. Qed.
Lemma rsum_app {A} (f : A -> R) l l' : rsum f (l ++ l') = rsum f l + rsum f l'.
Proof. induction l as [|x l IH]; cbn [app]; [rewrite rsum_nil; ring|]. rewrite !rsum_cons, IH. ring. Qed.
Lemma rsum_ext {A} (f g : A -> R) l : (forall x, In x l -> f x = g x) -> rsum f l = rsum g l.
Proof. induction l as [|x l IH]; intros H; [reflexivity|]. rewrite !rsum_cons, IH, H; [reflexivity|now left|]. intros y I. apply H. now right. Qed.
Lemma rsum_zero {A} (f : A -> R) l : (forall x, In x l -> f x = 0) -> rsum f l = 0.
Proof. induction l as [|x l IH]; intros H; [reflexivity|]. rewrite rsum_cons, IH, H; [ring|now left|]. intros y I. apply H. now right. Qed.
Lemma rsum_plus {A} (f g : A -> R) l : rsum (fun x => f x + g x) l = rsum f l + rsum g l.
Proof. induction l as [|x l IH]; [cbn; ring|]. rewrite !rsum_cons, IH. ring. Qed.
Lemma rsum_scal {A} w (f : A -> R) l : rsum (fun x => w * f x) l = w * rsum f l.
Proof. induction l as [|x l IH]; [cbn; ring|]. rewrite !rsum_cons, IH. ring. Qed.
Lemma rsum_swap {A B} (f : A -> B -> R) la lb : rsum (fun x => rsum (f x) lb) la = rsum (fun y => rsum (fun x => f x y) la) lb.
Proof.
  induction la as [|x la IH]; [cbn; symmetry; apply rsum_zero; reflexivity|]. rewrite rsum_cons, IH, <- rsum_plus. apply rsum_ext. intros y _. reflexivity.
Qed.
Lemma rsum_single (f : nat -> R) k : forall n b, (b <= k < b + n)%nat -> (forall i, (b <= i < b + n)%nat -> i <> k -> f i = 0) -> rsum f (seq b n) = f k.
Proof.
  induction n as [|n IH]; intros b H Z; [lia|]. cbn [seq]. rewrite rsum_cons. destruct (Nat.eq_dec b k) as [->|N].
  - rewrite rsum_zero; [ring|]. intros i I. apply in_seq in I. apply Z; lia.
  - rewrite (IH (S b)); [|lia|intros i I J; apply Z; lia]. rewrite Z by lia. ring.
Qed.
Lemma loop_rsum n f : loop n f = rsum f (seq 0 n).
Proof.
  unfold loop. replace (rsum f (seq 0 n)) with (0 + rsum f (seq 0 n)) by ring. generalize (seq 0 n) 0. induction l as [|i l IH]; intros s; cbn; [ring|].
  rewrite IH. unfold rsum. cbn. ring.
Qed.

(** ** Offsets *)
Lemma sum_firstn_S l k : (k < length l)%nat -> Common.sum_nat (firstn (S k) l) = (Common.sum_nat (firstn k l) + nth k l 0)%nat.
Proof.
  revert k. induction l as [|x l IH]; intros k H; [cbn in H; lia|]. destruct k as [|k]; [cbn; lia|].
  change (firstn (S (S k)) (x :: l)) with (x :: firstn (S k) l). change (firstn (S k) (x :: l)) with (x :: firstn k l).
  cbn in H. unfold Common.sum_nat in *. cbn [fold_right nth]. rewrite IH by lia. lia.
Qed.
Lemma sum_firstn_le l k k' : (k <= k')%nat -> (Common.sum_nat (firstn k l) <= Common.sum_nat (firstn k' l))%nat.
Proof.
  revert k k'. induction l as [|x l IH]; intros k k' H; [rewrite !firstn_nil; lia|]. destruct k, k'; cbn [firstn]; unfold Common.sum_nat in *; cbn [fold_right]; try lia.
  specialize (IH k k'). lia.
Qed.
Lemma sum_firstn_total l k : (Common.sum_nat (firstn k l) <= Common.sum_nat l)%nat.
Proof. rewrite <- (firstn_all l) at 2. destruct (le_lt_dec k (length l)); [apply sum_firstn_le; lia|]. rewrite (firstn_all2 (n := k)) by lia. rewrite firstn_all. lia. Qed.
Lemma locate l : forall p, (p < Common.sum_nat l)%nat -> exists k i, (k < length l)%nat /\ (i < nth k l 0)%nat /\ p = (Common.sum_nat (firstn k l) + i)%nat.
Proof.
  induction l as [|x l IH]; intros p H; [cbn in H; lia|]. unfold Common.sum_nat in *. cbn [fold_right] in H. destruct (lt_dec p x) as [L|L].
  - exists 0%nat, p. cbn. lia.
  - destruct (IH (p - x)%nat) as (k & i & K & I & E); [lia|]. exists (S k), i. cbn [length nth firstn fold_right]. lia.
Qed.
Lemma last_psums acc l : last (psums acc l) 0%nat = (acc + Common.sum_nat l)%nat.
Proof.
  revert acc. induction l as [|x l IH]; intros acc; [cbn; lia|]. cbn [psums]. specialize (IH (acc + x)%nat). destruct (psums (acc + x) l) eqn:E; [destruct l; discriminate|].
  cbn [last] in *. rewrite IH. unfold Common.sum_nat. cbn. lia.
Qed.

Section Fem.
Context (F : fem) (HU : uniform F).
Definition known (ch : cache) (c : cell) : Prop := ch (gtype F c) = psums 0 (sizes F c).
Definition cache_ok (ch : cache) : Prop := forall c, ch (gtype F c) = [] \/ known ch c.
Lemma no_cache_ok : cache_ok no_cache. Proof. intros c. left. reflexivity. Qed.
Lemma update_known ch c : cache_ok ch -> known (cache_update F ch c) c.
Proof.
  intros H. unfold cache_update. destruct (Nat.eqb_spec (back ch (gtype F c)) 0) as [Z|Z].
  - unfold known. rewrite Nat.eqb_refl. reflexivity.
  - destruct (H c) as [E|E]; [|exact E]. unfold back in Z. rewrite E in Z. cbn in Z. lia.
Qed.
Lemma update_keeps ch c d : known ch d -> known (cache_update F ch c) d.
Proof.
  intros K. unfold cache_update. destruct (back ch (gtype F c) =? 0)%nat; [|exact K]. unfold known. destruct (Nat.eqb_spec (gtype F d) (gtype F c)) as [E|E]; [|exact K].
  f_equal. apply HU. congruence.
Qed.
Lemma update_ok ch c : cache_ok ch -> cache_ok (cache_update F ch c).
Proof.
  intros H d. destruct (H d) as [E|E]; [|right; apply update_keeps, E]. unfold cache_update.
  destruct (back ch (gtype F c) =? 0)%nat; [|left; exact E]. unfold known. destruct (Nat.eqb_spec (gtype F d) (gtype F c)) as [G|G]; [|left; exact E].
  right. f_equal. apply HU. congruence.
Qed.
Lemma known_offset ch c k : known ch c -> (k <= leaves F)%nat -> offset ch (gtype F c) k = first F c k.
Proof. intros K L. unfold offset. rewrite K, psums_nth; [reflexivity|]. rewrite (proj2 HU). exact L. Qed.
Lemma known_back ch c : known ch c -> back ch (gtype F c) = Common.sum_nat (sizes F c).
Proof. intros K. unfold back. rewrite K. apply last_psums. Qed.
Lemma first_bound c k : (k < leaves F)%nat -> (first F c k + size F c k <= Common.sum_nat (sizes F c))%nat.
Proof. intros K. unfold first, size. rewrite <- sum_firstn_S by (rewrite (proj2 HU); exact K). apply sum_firstn_total. Qed.
Lemma first_disjoint c k k' : (k < leaves F)%nat -> (k' < leaves F)%nat -> (k < k')%nat -> (first F c k + size F c k <= first F c k')%nat.
Proof. intros K K' L. unfold first, size. rewrite <- sum_firstn_S by (rewrite (proj2 HU); exact K). apply sum_firstn_le. lia. Qed.

(** ** Loops that add to the entries of a vector *)
Lemma fold_add {A S} (view : S -> list R) (Inv : S -> Prop) (f : S -> A -> res S) (g : A -> nat -> R) n l :
  (forall s x, In x l -> Inv s -> length (view s) = n -> exists s', f s x = Ok s' /\ Inv s' /\ length (view s') = n /\ forall p, (p < n)%nat -> nth p (view s') 0 = nth p (view s) 0 + g x p) ->
  forall s, Inv s -> length (view s) = n -> exists s', foldM f l s = Ok s' /\ Inv s' /\ length (view s') = n /\ forall p, (p < n)%nat -> nth p (view s') 0 = nth p (view s) 0 + rsum (fun x => g x p) l.
Proof.
  induction l as [|x l IH]; intros H s I L.
  - exists s. cbn. repeat split; auto. intros. ring.
  - destruct (H s x (or_introl eq_refl) I L) as (s1 & E1 & I1 & L1 & V1). cbn [foldM]. rewrite E1. cbn [bind].
    destruct (IH (fun s x J => H s x (or_intror J)) s1 I1 L1) as (s2 & E2 & I2 & L2 & V2). exists s2. repeat split; auto.
    intros p P. rewrite V2, V1 by exact P. rewrite rsum_cons. ring.
Qed.
Lemma add_range (co : nat) (f : nat -> R) n : forall b uc,
  let r := fold_left (fun uc i => upd (co + i) (nth (co + i) uc 0 + f i) uc) (seq b n) uc in
  length r = length uc /\ forall p, (p < length uc)%nat -> nth p r 0 = nth p uc 0 + (if (co + b <=? p)%nat && (p <? co + b + n)%nat then f (p - co)%nat else 0).
Proof.
  induction n as [|n IH]; intros b uc; cbn [seq fold_left].
  - split; [reflexivity|]. intros p P. destruct (Nat.leb_spec (co + b) p), (Nat.ltb_spec p (co + b + 0)); cbn; try lia; ring.
  - destruct (IH (S b) (upd (co + b) (nth (co + b) uc 0 + f b) uc)) as (L & V). rewrite upd_length in L, V. split; [exact L|]. intros p P. rewrite V by exact P.
    destruct (Nat.eq_dec (co + b) p) as [<-|N].
    + rewrite upd_nth_same by exact P. replace (co + S b <=? co + b)%nat with false by (symmetry; apply Nat.leb_gt; lia).
      replace (co + b <=? co + b)%nat with true by (symmetry; apply Nat.leb_le; lia). replace (co + b <? co + b + S n)%nat with true by (symmetry; apply Nat.ltb_lt; lia).
      cbn. replace (co + b - co)%nat with b by lia. ring.
    + rewrite upd_nth_other by exact N. f_equal. destruct (Nat.leb_spec (co + S b) p), (Nat.leb_spec (co + b) p), (Nat.ltb_spec p (co + S b + n)), (Nat.ltb_spec p (co + b + S n)); cbn; try lia; reflexivity.
Qed.

(** ** Projection *)
Definition point_add (mi : list (list R)) (co fo : nat) (uf : list R) (q : qpoint) (p : nat) : R :=
  let '(factor, fphi, cphi) := q in
  if (co <=? p)%nat && (p <? co + length cphi)%nat then
    factor * (rsum (fun j => nth j (nth (p - co) mi []) 0 * nth j cphi 0) (seq 0 (length mi)) * rsum (fun i => nth (fo + i) uf 0 * nth i fphi 0) (seq 0 (length fphi)))
  else 0.
Lemma project_point_spec mi co fo uf uc q :
  (fo + length (snd (fst q)) <= length uf)%nat -> (co + length (snd q) <= length uc)%nat -> length mi = length (snd q) ->
  exists uc', project_point mi co fo uf uc q = Ok uc' /\ length uc' = length uc /\ forall p, (p < length uc)%nat -> nth p uc' 0 = nth p uc 0 + point_add mi co fo uf q p.
Proof.
  destruct q as ((factor, fphi), cphi). cbn [fst snd]. intros A B C. unfold project_point.
  rewrite (proj2 (Nat.leb_le _ _) A), (proj2 (Nat.leb_le _ _) B), (proj2 (Nat.eqb_eq _ _) C). cbn [andb].
  destruct (add_range co (fun i => factor * (loop (length mi) (fun j => nth j (nth i mi []) 0 * nth j cphi 0) * loop (length fphi) (fun i0 => nth (fo + i0) uf 0 * nth i0 fphi 0))) (length cphi) 0 uc) as (L & V).
  eexists. split; [reflexivity|]. split; [exact L|]. intros p P. rewrite V by exact P. rewrite !Nat.add_0_r, !loop_rsum. reflexivity.
Qed.

Lemma project_spec old dofs u ch a : cache_ok ch ->
  (forall c, In c (filter (below a) old) -> length (dofs c) = Common.sum_nat (sizes F c) /\
     forall k q, (k < leaves F)%nat -> In q (quad F c a k) -> length (snd (fst q)) = size F c k /\ length (snd q) = size F a k /\ length (minv F (gtype F a) k) = size F a k) ->
  exists ch' uc, project F old dofs u ch a = Ok (ch', uc) /\ (cache_ok ch' /\ known ch' a /\ forall d, known ch d -> known ch' d) /\ length uc = Common.sum_nat (sizes F a) /\
    forall p, (p < Common.sum_nat (sizes F a))%nat -> nth p uc 0 =
      rsum (fun c => rsum (fun k => rsum (fun q => point_add (minv F (gtype F a) k) (first F a k) (first F c k) (map u (dofs c)) q p) (quad F c a k)) (seq 0 (leaves F))) (filter (below a) old).
Proof.
  intros CO HQ. unfold project. pose proof (update_ok ch a CO) as CO1. pose proof (update_known ch a CO) as K1.
  assert (KK : forall d, known ch d -> known (cache_update F ch a) d) by (intros d; apply update_keeps).
  set (ch1 := cache_update F ch a) in *.
  destruct (fold_add (A := cell) (S := cache * list R) snd (fun st => cache_ok (fst st) /\ known (fst st) a /\ forall d, known ch d -> known (fst st) d)
    (fun st c => let ch0 := cache_update F (fst st) c in let* uc := foldM (project_leaf F ch0 a c (read u (dofs c))) (seq 0 (leaves F)) (snd st) in Ok (ch0, uc))
    (fun c p => rsum (fun k => rsum (fun q => point_add (minv F (gtype F a) k) (first F a k) (first F c k) (map u (dofs c)) q p) (quad F c a k)) (seq 0 (leaves F)))
    (Common.sum_nat (sizes F a)) (filter (below a) old)) with (s := (ch1, repeat 0 (back ch1 (gtype F a)))) as (st & E & I & L & V).
  - intros (ch2, uc) c C (I1 & I2 & I3) L. cbn [fst snd] in *. cbn zeta.
    pose proof (update_ok ch2 c I1) as J1. pose proof (update_known ch2 c I1) as J2. pose proof (update_keeps ch2 c a I2) as J3.
    assert (J4 : forall d, known ch d -> known (cache_update F ch2 c) d) by (intros d D; apply update_keeps, I3, D).
    set (ch3 := cache_update F ch2 c) in *. destruct (HQ c C) as (LD & Q).
    destruct (fold_add (A := nat) (S := list R) (fun x => x) (fun _ => True) (project_leaf F ch3 a c (read u (dofs c)))
      (fun k p => rsum (fun q => point_add (minv F (gtype F a) k) (first F a k) (first F c k) (map u (dofs c)) q p) (quad F c a k))
      (Common.sum_nat (sizes F a)) (seq 0 (leaves F))) with (s := uc) as (uc' & E' & _ & L' & V').
    + intros uc1 k K _ L1. apply in_seq in K. unfold project_leaf. rewrite (known_offset ch3 a k J3), (known_offset ch3 c k J2) by lia.
      apply (fold_add (A := qpoint) (S := list R) (fun x => x) (fun _ => True)); [|exact Logic.I|exact L1].
      intros uc2 q IQ _ L2. destruct (Q k q) as (Q1 & Q2 & Q3); [lia|exact IQ|].
      destruct (project_point_spec (minv F (gtype F a) k) (first F a k) (first F c k) (read u (dofs c)) uc2 q) as (uc3 & E3 & L3 & V3).
      * unfold read. rewrite map_length, LD, Q1. apply first_bound. lia.
      * rewrite Q2, L2. apply first_bound. lia.
      * congruence.
      * exists uc3. split; [exact E3|]. split; [exact Logic.I|]. split; [congruence|]. intros p P. apply V3. rewrite L2. exact P.
    + exact Logic.I.
    + exact L.
    + exists (ch3, uc'). rewrite E'. cbn [bind fst snd]. repeat split; auto.
  - cbn [fst]. repeat split; auto.
  - cbn [snd]. rewrite repeat_length. apply known_back, K1.
  - destruct st as (ch', uc). exists ch', uc. split; [exact E|]. split; [exact I|]. split; [exact L|]. intros p P. cbn [snd] in V. rewrite (V p P).
    replace (nth p (repeat 0 (back ch1 (gtype F a))) 0) with 0; [ring|]. symmetry. apply nth_repeat.
Qed.

Lemma point_add_out mi co fo uf q p : ~ (co <= p < co + length (snd q))%nat -> point_add mi co fo uf q p = 0.
Proof.
  destruct q as ((w, fphi), cphi). cbn [snd]. intros N. unfold point_add. destruct (Nat.leb_spec co p), (Nat.ltb_spec p (co + length cphi)); cbn; try reflexivity. exfalso. apply N. lia.
Qed.
(** The projection of a representable function is its coarse representation. *)
Lemma projection_value old a k i (co : list R) (ca : cell -> list R) :
  (k < leaves F)%nat -> (i < size F a k)%nat ->
  (forall c k q, In c (filter (below a) old) -> (k < leaves F)%nat -> In q (quad F c a k) ->
     length (snd (fst q)) = size F c k /\ length (snd q) = size F a k /\
     rsum (fun i => coefficient F (ca c) c k i * nth i (snd (fst q)) 0) (seq 0 (size F c k)) =
     rsum (fun m => coefficient F co a k m * nth m (snd q) 0) (seq 0 (size F a k))) ->
  length (minv F (gtype F a) k) = size F a k ->
  (forall m, (m < size F a k)%nat -> rsum (fun j => nth j (nth i (minv F (gtype F a) k) []) 0 * fine_mass F old a k j m) (seq 0 (size F a k)) = if (i =? m)%nat then 1 else 0) ->
  rsum (fun c => rsum (fun k' => rsum (fun q => point_add (minv F (gtype F a) k') (first F a k') (first F c k') (ca c) q (first F a k + i)) (quad F c a k')) (seq 0 (leaves F))) (filter (below a) old)
  = coefficient F co a k i.
Proof.
  intros K I HA LM HI.
  transitivity (rsum (fun c => rsum (fun q => rsum (fun m => coefficient F co a k m *
     (rsum (fun j => nth j (nth i (minv F (gtype F a) k) []) 0 * (fst (fst q) * (nth j (snd q) 0 * nth m (snd q) 0))) (seq 0 (size F a k)))) (seq 0 (size F a k))) (quad F c a k)) (filter (below a) old)).
  - apply rsum_ext. intros c C. rewrite (rsum_single _ k); [|lia|].
    + apply rsum_ext. intros q Q. destruct (HA c k q C K Q) as (L1 & L2 & AG). destruct q as ((w, fphi), cphi). cbn [fst snd] in *. unfold point_add.
      replace (first F a k <=? first F a k + i)%nat with true by (symmetry; apply Nat.leb_le; lia).
      replace (first F a k + i <? first F a k + length cphi)%nat with true by (symmetry; apply Nat.ltb_lt; lia). cbn [andb].
      replace (first F a k + i - first F a k)%nat with i by lia. rewrite L1, LM.
      unfold coefficient in AG at 1. rewrite AG. rewrite (Rmult_comm (rsum _ _) (rsum _ _)), <- Rmult_assoc, (Rmult_comm w), Rmult_assoc.
      rewrite (Rmult_comm (rsum _ _)), <- rsum_scal. apply rsum_ext. intros m M. rewrite <- !rsum_scal.
      rewrite (Rmult_comm _ (coefficient F co a k m * nth m cphi 0)), <- !rsum_scal. apply rsum_ext. intros j J. ring.
    + intros k' K' N. apply rsum_zero. intros q Q. destruct (HA c k' q C ltac:(lia) Q) as (L1 & L2 & _). apply point_add_out. rewrite L2.
      destruct (Nat.lt_trichotomy k k') as [L|[L|L]]; [|congruence|].
      * pose proof (first_disjoint a k k' ltac:(lia) ltac:(lia) L). lia.
      * pose proof (first_disjoint a k' k ltac:(lia) ltac:(lia) L). lia.
  - transitivity (rsum (fun m => coefficient F co a k m * (if (i =? m)%nat then 1 else 0)) (seq 0 (size F a k))).
    + transitivity (rsum (fun m => rsum (fun c => rsum (fun q => coefficient F co a k m *
        (rsum (fun j => nth j (nth i (minv F (gtype F a) k) []) 0 * (fst (fst q) * (nth j (snd q) 0 * nth m (snd q) 0))) (seq 0 (size F a k)))) (quad F c a k)) (filter (below a) old)) (seq 0 (size F a k))).
      * rewrite rsum_swap. apply rsum_ext. intros c _. rewrite rsum_swap. reflexivity.
      * apply rsum_ext. intros m M. apply in_seq in M. rewrite <- (HI m) by lia. rewrite <- rsum_scal.
        transitivity (rsum (fun j => rsum (fun c => rsum (fun q => coefficient F co a k m * (nth j (nth i (minv F (gtype F a) k) []) 0 * (fst (fst q) * (nth j (snd q) 0 * nth m (snd q) 0)))) (quad F c a k)) (filter (below a) old)) (seq 0 (size F a k))).
        -- rewrite rsum_swap. apply rsum_ext. intros c _. rewrite rsum_swap. apply rsum_ext. intros q _. rewrite <- rsum_scal. reflexivity.
        -- apply rsum_ext. intros j _. unfold fine_mass. rewrite <- !rsum_scal. apply rsum_ext. intros c _. rewrite <- !rsum_scal. reflexivity.
    + rewrite (rsum_single _ i); [rewrite Nat.eqb_refl; ring|lia|]. intros m _ N. destruct (Nat.eqb_spec i m); [congruence|ring].
Qed.
End Fem.
