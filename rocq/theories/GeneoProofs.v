(** Partition of unity (C71). *)
From Coq Require Import Reals Lra.
From Verif Require Import Common CommonFacts ParModel ParSpec ParProofs ParProofs2 GeneoModel GeneoSpec.

Lemma zip_seq_length {A B} (f : nat -> A -> B) l n : length (zip f (seq n (length l)) l) = length l.
Proof. rewrite zip_length; rewrite seq_length; auto. Qed.
Lemma zip_seq_nth {A} (f : nat -> A -> A) d l n k : k < length l ->
  nth k (zip f (seq n (length l)) l) d = f (n + k) (nth k l d).
Proof.
  intros K. rewrite (zip_nth f _ 0 d); rewrite ?seq_length; auto. now rewrite seq_nth.
Qed.

Lemma nth_repeat_lt {A} (a d : A) n k : k < n -> nth k (repeat a n) d = a.
Proof. revert k. induction n; intros [|k] K; cbn; try lia; auto. apply IHn. lia. Qed.

Lemma set_zero_length cons v q e : length (set_zero cons v q e) = length (v q e).
Proof. apply zip_seq_length. Qed.
Lemma set_zero_nth cons v q e k : k < length (v q e) ->
  nth k (set_zero cons v q e) 0%R = if cons q e k then 0%R else nth k (v q e) 0%R.
Proof. intros K. unfold set_zero. now rewrite zip_seq_nth. Qed.

Lemma holders_contributors W q e l : q < nranks W -> In e (held W q) -> holders W e l -> contributors W everywhere q e l.
Proof.
  intros Q E (N & H). split; auto. intros s. rewrite H. unfold contributes, everywhere. tauto.
Qed.

Lemma rsum_const {A} (c : R) (l : list A) : rsum (fun _ => c) l = (INR (length l) * c)%R.
Proof.
  induction l as [|x l IH]; [cbn; lra|]. rewrite rsum_cons, IH. cbn [length]. rewrite S_INR. lra.
Qed.
Lemma rsum_scale {A} (c : R) (f : A -> R) l : rsum (fun x => c * f x)%R l = (c * rsum f l)%R.
Proof. induction l as [|x l IH]; [cbn; lra|]. rewrite !rsum_cons, IH. lra. Qed.
Lemma rsum_nonneg {A} (f : A -> R) l : (forall x, In x l -> (0 <= f x)%R) -> (0 <= rsum f l)%R.
Proof.
  induction l as [|x l IH]; intros H; [cbn; lra|]. rewrite rsum_cons.
  assert (0 <= f x)%R by (apply H; now left). assert (0 <= rsum f l)%R by (apply IH; intros; apply H; now right). lra.
Qed.
Lemma rsum_pos {A} (f : A -> R) l x : (forall x, In x l -> (0 <= f x)%R) -> In x l -> (0 < f x)%R -> (0 < rsum f l)%R.
Proof.
  induction l as [|y l IH]; intros H I P; [destruct I|]. rewrite rsum_cons.
  assert (0 <= f y)%R by (apply H; now left).
  assert (0 <= rsum f l)%R by (apply rsum_nonneg; intros; apply H; now right).
  destruct I as [->|I]; [lra|]. assert (0 < rsum f l)%R by (apply IH; auto; intros; apply H; now right). lra.
Qed.

Section standard.
  Variables (W : world) (cons : nat -> nat -> nat -> bool) (order : list (nat * nat * nat)).
  Hypothesis N : forall q, q < nranks W -> NoDup (held W q).
  Hypothesis P : Permutation order (all_all W).

  Lemma standard_spec : exists v, standard_partition W cons order = Ok v /\ sized W v /\
    forall e k l, k < ndofs W e -> holders W e l -> forall q, In q l ->
      nth k (v q e) 0%R = if cons q e k then 0%R
                          else (1 / INR (length (filter (fun r => negb (cons r e k)) l)))%R.
  Proof.
    assert (SZ : sized W (set_zero cons (filled W (fun _ => 1%R)))).
    { intros q e Q E. rewrite set_zero_length. apply repeat_length. }
    destruct (add_spec W everywhere everywhere order N P _ SZ) as (v & E & SV & F).
    unfold standard_partition. rewrite E. cbn [bind]. eexists. split; [reflexivity|]. split.
    { intros q e Q H. rewrite map_length, set_zero_length. now apply SV. }
    intros e k l K H q Hq. pose proof (proj1 (proj2 H q) Hq) as (Q & HE).
    destruct (F q e k Q HE K) as (F1 & _).
    specialize (F1 eq_refl l (holders_contributors W q e l Q HE H)).
    assert (L : k < length (v q e)) by (rewrite SV; auto).
    rewrite (nth_indep _ 0%R (invert_positive 0)) by (rewrite map_length, set_zero_length; auto).
    rewrite map_nth, set_zero_nth by auto. unfold invert_positive.
    destruct (cons q e k) eqn:C; [destruct (Rlt_dec 0 0); lra|].
    assert (S1 : nth k (v q e) 0%R = INR (length (filter (fun r => negb (cons r e k)) l))).
    { rewrite F1. rewrite (rsum_ext _ (fun s => if negb (cons s e k) then 1%R else 0%R)).
      - rewrite <- (rsum_filter (fun _ => 1%R)). rewrite rsum_const. lra.
      - intros s Hs. rewrite set_zero_nth by (unfold filled; rewrite repeat_length; auto).
        destruct (cons s e k); cbn; auto. apply nth_repeat_lt. auto. }
    rewrite S1. destruct (Rlt_dec _ _) as [_|NP]; auto. exfalso. apply NP. apply lt_0_INR.
    assert (I : In q (filter (fun r => negb (cons r e k)) l)) by (apply filter_In; rewrite C; auto).
    destruct (filter _ l); [destruct I|cbn; lia].
  Qed.
End standard.

(** ** Sarkis *)

(** The four distances of one direction: [c] of [p] boxes of [n] cells, vertex [i], overlap [ov]. *)
Definition right_distance (p n ov c i : nat) : R :=
  if c + 1 =? p then (2 * (1 / INR p))%R else (INR (c + 1) * (1 / INR p) + INR ov / INR (p * n) - INR i / INR (p * n))%R.
Definition left_distance (p n ov c i : nat) : R :=
  if c =? 0 then (2 * (1 / INR p))%R else (INR i / INR (p * n) - (INR c * (1 / INR p) - INR ov / INR (p * n)))%R.


Lemma right_eq p n ov c i : 0 < p -> 0 < n ->
  (INR (c + 1) * (1 / INR p) + INR ov / INR (p * n) - INR i / INR (p * n))%R =
  ((INR ((c + 1) * n + ov) - INR i) / INR (p * n))%R.
Proof.
  intros A B. rewrite (plus_INR ((c + 1) * n) ov), !mult_INR. field.
  split; apply not_0_INR; lia.
Qed.
Lemma left_eq p n ov c i : 0 < p -> 0 < n ->
  (INR i / INR (p * n) - (INR c * (1 / INR p) - INR ov / INR (p * n)))%R =
  ((INR (i + ov) - INR (c * n)) / INR (p * n))%R.
Proof.
  intros A B. rewrite plus_INR, !mult_INR. field.
  split; apply not_0_INR; lia.
Qed.

Lemma two_pos p : 0 < p -> (0 < 2 * (1 / INR p))%R.
Proof. intros A. apply lt_0_INR in A. assert (0 < 1 / INR p)%R by (apply Rdiv_lt_0_compat; lra). lra. Qed.
Lemma quotient_nonneg a b d : 0 < d -> b <= a -> (0 <= (INR a - INR b) / INR d)%R.
Proof.
  intros D H. apply lt_0_INR in D. apply le_INR in H. apply Rmult_le_pos; [lra|]. left. now apply Rinv_0_lt_compat.
Qed.
Lemma quotient_pos a b d : 0 < d -> b < a -> (0 < (INR a - INR b) / INR d)%R.
Proof. intros D H. apply lt_0_INR in D. apply lt_INR in H. apply Rdiv_lt_0_compat; lra. Qed.
Lemma quotient_zero a d : ((INR a - INR a) / INR d = 0)%R.
Proof. unfold Rdiv. rewrite Rminus_diag_eq by reflexivity. lra. Qed.

Section direction.
  Variables (p n ov c i : nat).
  Hypothesis HP : 0 < p.
  Hypothesis HN : 0 < n.
  Hypothesis HC : c < p.

  Lemma distances_nonneg : in_range c n ov (p * n) i -> (0 <= right_distance p n ov c i)%R /\ (0 <= left_distance p n ov c i)%R.
  Proof.
    intros (A & B & _). unfold right_distance, left_distance. split.
    - destruct (c + 1 =? p); [left; now apply two_pos|]. rewrite right_eq by auto. apply quotient_nonneg; [nia|auto].
    - destruct (c =? 0); [left; now apply two_pos|]. rewrite left_eq by auto. apply quotient_nonneg; [nia|auto].
  Qed.
  Lemma distances_pos : in_range c n ov (p * n) i -> ~ edge p n ov c i ->
    (0 < right_distance p n ov c i)%R /\ (0 < left_distance p n ov c i)%R.
  Proof.
    intros (A & B & _) NE. unfold right_distance, left_distance. split.
    - destruct (c + 1 =? p) eqn:C; [now apply two_pos|]. rewrite right_eq by auto.
      apply Nat.eqb_neq in C. apply quotient_pos; [nia|].
      destruct (Nat.eq_dec i ((c + 1) * n + ov)); [|lia]. exfalso. apply NE. left. lia.
    - destruct (c =? 0) eqn:C; [now apply two_pos|]. rewrite left_eq by auto.
      apply Nat.eqb_neq in C. apply quotient_pos; [nia|].
      destruct (Nat.eq_dec (i + ov) (c * n)); [|lia]. exfalso. apply NE. right. lia.
  Qed.
  Lemma distances_edge : edge p n ov c i -> right_distance p n ov c i = 0%R \/ left_distance p n ov c i = 0%R.
  Proof.
    intros [(C & E)|(C & E)]; unfold right_distance, left_distance.
    - left. destruct (Nat.eqb_spec (c + 1) p); [lia|]. rewrite right_eq, E by auto. apply quotient_zero.
    - right. destruct (Nat.eqb_spec c 0); [lia|]. rewrite left_eq, E by auto. apply quotient_zero.
  Qed.
End direction.

(** Every vertex is in some box, away from its outer edge if there is overlap. *)
Lemma some_box p n ov i : 0 < p -> 0 < n -> 0 < ov -> i <= p * n ->
  exists c, c < p /\ in_range c n ov (p * n) i /\ ~ edge p n ov c i.
Proof.
  intros HP HN HO HI. exists (Nat.min (i / n) (p - 1)).
  pose proof (Nat.div_mod i n ltac:(lia)) as D. pose proof (Nat.mod_upper_bound i n ltac:(lia)) as M.
  set (a := i / n) in *. set (b := i mod n) in *.
  assert (C : Nat.min a (p - 1) * n <= i <= (Nat.min a (p - 1) + 1) * n).
  { destruct (Nat.le_gt_cases a (p - 1)).
    - rewrite Nat.min_l by lia. nia.
    - rewrite Nat.min_r by lia. replace (p - 1 + 1) with p by lia. nia. }
  split; [lia|]. split.
  - unfold in_range. lia.
  - unfold edge. lia.
Qed.

Lemma div_mul_add a b p : b < p -> (a * p + b) / p = a.
Proof. intros H. rewrite Nat.add_comm. rewrite Nat.div_add by lia. rewrite Nat.div_small; auto. Qed.

Lemma sarkis_distance_eq L row col grid e nx ny :
  0 < nx -> 0 < ny -> 0 < partition_x L -> 0 < partition_y L ->
  cells_x L = partition_x L * nx -> cells_y L = partition_y L * ny -> col < partition_x L ->
  sarkis_distance L (row * partition_x L + col) (vertex_position L grid e) =
  Rmin (Rmin (Rmin (right_distance (partition_x L) nx (overlap L) col (fst (grid e)))
                   (left_distance (partition_x L) nx (overlap L) col (fst (grid e))))
             (right_distance (partition_y L) ny (overlap L) row (snd (grid e))))
       (left_distance (partition_y L) ny (overlap L) row (snd (grid e))).
Proof.
  intros HX HY PX PY CX CY HC. unfold sarkis_distance, vertex_position.
  rewrite div_mul_add by auto.
  replace (row * partition_x L + col - partition_x L * row) with col by nia.
  rewrite !op_min_Rmin, CX, CY. reflexivity.
Qed.

Lemma rmin4_pos a b c d : (0 < a -> 0 < b -> 0 < c -> 0 < d -> 0 < Rmin (Rmin (Rmin a b) c) d)%R.
Proof. intros. repeat apply Rmin_glb_lt; auto. Qed.
Lemma rmin4_nonneg a b c d : (0 <= a -> 0 <= b -> 0 <= c -> 0 <= d -> 0 <= Rmin (Rmin (Rmin a b) c) d)%R.
Proof. intros. repeat apply Rmin_glb; auto. Qed.
Lemma rmin4_le a b c d : (Rmin (Rmin (Rmin a b) c) d <= a /\ Rmin (Rmin (Rmin a b) c) d <= b /\
  Rmin (Rmin (Rmin a b) c) d <= c /\ Rmin (Rmin (Rmin a b) c) d <= d)%R.
Proof.
  pose proof (Rmin_l (Rmin (Rmin a b) c) d). pose proof (Rmin_r (Rmin (Rmin a b) c) d).
  pose proof (Rmin_l (Rmin a b) c). pose proof (Rmin_r (Rmin a b) c). pose proof (Rmin_l a b). pose proof (Rmin_r a b). lra.
Qed.


Section sarkis.
  Variables (W : world) (L : layout) (grid : nat -> nat * nat) (nx ny : nat).
  Hypothesis Y : yasp W L grid nx ny.

  Lemma rank_split q : q < nranks W -> exists row col, row < partition_y L /\ col < partition_x L /\
    q = row * partition_x L + col /\ q mod partition_x L = col /\ q / partition_x L = row.
  Proof.
    destruct Y as (_ & _ & PX & PY & _ & _ & NR & _ & _). intros Q.
    exists (q / partition_x L), (q mod partition_x L).
    pose proof (Nat.div_mod q (partition_x L) ltac:(lia)). pose proof (Nat.mod_upper_bound q (partition_x L) ltac:(lia)).
    repeat split; try lia. apply Nat.div_lt_upper_bound; lia.
  Qed.

  Lemma edge_dec p n ov c i : edge p n ov c i \/ ~ edge p n ov c i.
  Proof. unfold edge. lia. Qed.
  Lemma outer_dec q e : outer L grid nx ny q e \/ ~ outer L grid nx ny q e.
  Proof.
    unfold outer. destruct (edge_dec (partition_x L) nx (overlap L) (q mod partition_x L) (fst (grid e)));
    destruct (edge_dec (partition_y L) ny (overlap L) (q / partition_x L) (snd (grid e))); tauto.
  Qed.

  Lemma distance_cases q e : q < nranks W -> In e (held W q) ->
    (0 <= sarkis_distance L q (vertex_position L grid e))%R /\
    (outer L grid nx ny q e -> sarkis_distance L q (vertex_position L grid e) = 0%R) /\
    (~ outer L grid nx ny q e -> (0 < sarkis_distance L q (vertex_position L grid e))%R).
  Proof.
    intros Q H. destruct (rank_split q Q) as (row & col & R1 & C1 & EQ & M1 & D1).
    destruct Y as (HX & HY & PX & PY & CX & CY & NR & _ & HH).
    unfold outer. rewrite M1, D1. rewrite EQ in H. apply HH in H; auto. destruct H as (IX & IY).
    rewrite CX in IX. rewrite CY in IY.
    rewrite EQ, (sarkis_distance_eq L row col grid e nx ny) by auto.
    destruct (distances_nonneg _ _ _ _ _ PX HX C1 IX) as (N1 & N2).
    destruct (distances_nonneg _ _ _ _ _ PY HY R1 IY) as (N3 & N4).
    pose proof (rmin4_nonneg _ _ _ _ N1 N2 N3 N4) as NN. split; auto. split.
    - pose proof (rmin4_le (right_distance (partition_x L) nx (overlap L) col (fst (grid e)))
        (left_distance (partition_x L) nx (overlap L) col (fst (grid e)))
        (right_distance (partition_y L) ny (overlap L) row (snd (grid e)))
        (left_distance (partition_y L) ny (overlap L) row (snd (grid e)))) as LE.
      intros [E|E]; apply distances_edge in E; auto; destruct E as [E|E]; lra.
    - intros NE. apply rmin4_pos.
      + apply (distances_pos _ _ _ _ _ PX HX C1 IX). tauto.
      + apply (distances_pos _ _ _ _ _ PX HX C1 IX). tauto.
      + apply (distances_pos _ _ _ _ _ PY HY R1 IY). tauto.
      + apply (distances_pos _ _ _ _ _ PY HY R1 IY). tauto.
  Qed.

  (** With overlap every stored vertex is strictly inside some subdomain. *)
  Lemma inside_somewhere q e : 0 < overlap L -> q < nranks W -> In e (held W q) ->
    exists r, r < nranks W /\ In e (held W r) /\ ~ outer L grid nx ny r e.
  Proof.
    intros HO Q H. destruct (rank_split q Q) as (row & col & R1 & C1 & EQ & _ & _).
    destruct Y as (HX & HY & PX & PY & CX & CY & NR & _ & HH).
    rewrite EQ in H. apply HH in H; auto. destruct H as ((_ & _ & BX) & (_ & _ & BY)).
    rewrite CX in BX. rewrite CY in BY.
    destruct (some_box _ nx _ _ PX HX HO BX) as (c & C2 & IX & EX).
    destruct (some_box _ ny _ _ PY HY HO BY) as (r & R2 & IY & EY).
    assert (DM : (r * partition_x L + c) / partition_x L = r /\ (r * partition_x L + c) mod partition_x L = c).
    { split; [now apply div_mul_add|]. rewrite Nat.add_comm, Nat.mod_add by lia. now apply Nat.mod_small. }
    exists (r * partition_x L + c). split; [rewrite NR; nia|]. split.
    - apply HH; auto. rewrite CX, CY. auto.
    - unfold outer. destruct DM as (-> & ->). tauto.
  Qed.

  Variables (cons : nat -> nat -> nat -> bool) (order : list (nat * nat * nat)).
  Hypothesis N : forall q, q < nranks W -> NoDup (held W q).
  Hypothesis P : Permutation order (all_all W).

  Lemma sarkis_spec : exists v, sarkis_partition W L (vertex_position L grid) cons order = Ok v /\ sized W v /\
    forall e l, holders W e l -> forall q, In q l ->
      nth 0 (v q e) 0%R =
        if cons q e 0 then 0%R
        else weigh (sarkis_distance L q (vertex_position L grid e))
                   (rsum (fun r => sarkis_distance L r (vertex_position L grid e)) l).
  Proof.
    pose proof Y as (_ & _ & _ & _ & _ & _ & _ & ND & _).
    set (part := fun q e => repeat (sarkis_distance L q (vertex_position L grid e)) (ndofs W e)).
    assert (SZ : sized W part) by (intros q e Q E; apply repeat_length).
    destruct (add_spec W everywhere everywhere order N P _ SZ) as (sum & E & SV & F).
    unfold sarkis_partition. fold part. rewrite E. cbn [bind].
    exists (set_zero cons (fun q e => zip weigh (part q e) (sum q e))). split; [reflexivity|].
    assert (LEN : forall q e, q < nranks W -> In e (held W q) -> length (zip weigh (part q e) (sum q e)) = ndofs W e).
    { intros q e Q H. rewrite zip_length; [now apply SZ|]. rewrite SZ, SV; auto. }
    split.
    { intros q e Q H. rewrite set_zero_length. auto. }
    intros e l H q Hq. pose proof (proj1 (proj2 H q) Hq) as (Q & HE).
    rewrite set_zero_nth by (rewrite LEN, ND by auto; lia).
    destruct (cons q e 0); auto. rewrite (zip_nth weigh _ 0%R 0%R) by (rewrite SZ, ?SV, ?ND by auto; auto; lia).
    destruct (F q e 0 Q HE ltac:(rewrite ND; lia)) as (F1 & _).
    rewrite (F1 eq_refl l (holders_contributors W q e l Q HE H)). f_equal.
    - unfold part. rewrite ND. reflexivity.
    - apply rsum_ext. intros r _. unfold part. rewrite ND. reflexivity.
  Qed.

  Lemma sarkis_sum e l : 0 < overlap L -> l <> [] -> holders W e l ->
    (0 < rsum (fun r => sarkis_distance L r (vertex_position L grid e)) l)%R.
  Proof.
    intros HO NE H. destruct l as [|q l0] eqn:EL; [congruence|]. rewrite <- EL in *.
    assert (Hq : In q l) by (rewrite EL; now left). pose proof (proj1 (proj2 H q) Hq) as (Q & HE).
    destruct (inside_somewhere q e HO Q HE) as (r & R1 & HR & NO).
    apply (rsum_pos _ l r).
    - intros s Hs. apply (proj2 H) in Hs. now apply distance_cases.
    - apply (proj2 H). auto.
    - now apply distance_cases.
  Qed.
End sarkis.
