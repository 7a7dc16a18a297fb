(** Proofs about the Gauss-Lobatto points. *)
From Coq Require Import Lra Lia FinFun.
From Verif Require Import CommonFacts QkModel QkSpec QkProofs.
Local Open Scope R_scope.

(** where the entry n of the arrays comes from *)
Definition from (k n : nat) : nat := (if 2 * n + 1 <=? k then 2 * n + 1 else 2 * (k - n))%nat.
Lemma even_place k g : place k (2 * g) = (k - g)%nat.
Proof.
  unfold place. replace ((2 * g) mod 2)%nat with O by (rewrite Nat.mul_comm, Nat.mod_mul; lia). cbn [Nat.eqb].
  replace (2 * g / 2)%nat with g by (rewrite Nat.mul_comm, Nat.div_mul; lia). reflexivity.
Qed.
Lemma odd_place k g : place k (2 * g + 1) = g.
Proof.
  unfold place. rewrite (Nat.add_comm (2 * g) 1), (Nat.mul_comm 2 g), Nat.mod_add by lia. cbn [Nat.modulo Nat.divmod Nat.eqb].
  change ((1 mod 2 =? 1)%nat) with true. cbv iota. rewrite Nat.div_add by lia. reflexivity.
Qed.
Lemma place_from k n : (n <= k)%nat -> place k (from k n) = n.
Proof. intros H. unfold from. destruct (Nat.leb_spec (2 * n + 1) k); [apply odd_place|]. rewrite even_place. lia. Qed.
Lemma from_le k n : (n <= k)%nat -> (from k n <= k)%nat.
Proof. intros H. unfold from. destruct (Nat.leb_spec (2 * n + 1) k); lia. Qed.
Lemma from_place k c : (c <= k)%nat -> from k (place k c) = c.
Proof.
  intros H. destruct (Nat.Even_or_Odd c) as [(g & ->)|(g & ->)].
  - rewrite even_place. unfold from. destruct (Nat.leb_spec (2 * (k - g) + 1) k); lia.
  - rewrite odd_place. unfold from. destruct (Nat.leb_spec (2 * g + 1) k); lia.
Qed.
Lemma place_le k c : (c <= k)%nat -> (place k c <= k)%nat.
Proof. intros H. destruct (Nat.Even_or_Odd c) as [(g & ->)|(g & ->)]; rewrite ?even_place, ?odd_place; lia. Qed.

Definition stored (L : list (R * R)) : list (option R) * list (option R) := (map Some (map fst L), map Some (map snd L)).
Definition pt (L : list (R * R)) (n : nat) : R * R := nth n L (0, 0).

(** entry n after the points before [c] have been placed *)
Definition partly (k c : nat) (rule : list (R * R)) (sel : R * R -> R) : list (option R) :=
  map (fun n => if (from k n <? c)%nat then Some (sel (pt rule (from k n))) else None) (seq 0 (k + 1)).
Lemma partly_step k c rule sel : (c <= k)%nat -> store (place k c) (sel (pt rule c)) (partly k c rule sel) = Ok (partly k (S c) rule sel).
Proof.
  intros Hc. pose proof (place_le k c Hc) as Hp. unfold store. unfold partly at 1. rewrite map_length, seq_length.
  destruct (Nat.ltb_spec (place k c) (k + 1)); [|lia]. f_equal. apply (nth_ext _ _ None None).
  - rewrite upd_length. unfold partly. now rewrite !map_length.
  - intros n Hn. rewrite upd_length in Hn. unfold partly in Hn. rewrite map_length, seq_length in Hn.
    assert (E : forall c', nth n (partly k c' rule sel) None = if (from k n <? c')%nat then Some (sel (pt rule (from k n))) else None).
    { intros c'. unfold partly. rewrite (nth_indep _ None ((fun n => if (from k n <? c')%nat then Some (sel (pt rule (from k n))) else None) O)) by (rewrite map_length, seq_length; lia).
      rewrite (map_nth (fun n => if (from k n <? c')%nat then Some (sel (pt rule (from k n))) else None)), seq_nth by lia. reflexivity. }
    rewrite E. destruct (Nat.eq_dec n (place k c)) as [->|N].
    + rewrite upd_nth_same by (unfold partly; rewrite map_length, seq_length; lia). rewrite from_place by assumption.
      destruct (Nat.ltb_spec c (S c)); [reflexivity|lia].
    + rewrite upd_nth_other by auto. rewrite E. destruct (Nat.ltb_spec (from k n) c), (Nat.ltb_spec (from k n) (S c)); try reflexivity; try lia.
      exfalso. apply N. replace c with (from k n) by lia. symmetry. apply place_from. lia.
Qed.
Definition arranged (k : nat) (rule : list (R * R)) : list (R * R) := map (fun n => pt rule (from k n)) (seq 0 (k + 1)).
Lemma fill_ok k rule : length rule = (k + 1)%nat -> fill k rule = Ok (stored (arranged k rule)).
Proof.
  intros L. unfold fill.
  set (step := fun s (it : nat * (R * R)) => _).
  assert (A : forall n c, (c + n = k + 1)%nat -> foldM step (combine (seq c n) (skipn c rule)) (partly k c rule fst, partly k c rule snd) = Ok (partly k (k + 1) rule fst, partly k (k + 1) rule snd)).
  { induction n as [|n IH]; intros c E; [cbn; now replace c with (k + 1)%nat by lia|].
    assert (S0 : skipn c rule = pt rule c :: skipn (S c) rule).
    { unfold pt. clear - L E. assert (H : (c < length rule)%nat) by lia. clear L E. revert rule H. induction c as [|c IH]; intros [|a r] H; cbn in *; try lia; [reflexivity|]. apply IH. lia. }
    rewrite S0. cbn [seq combine foldM]. unfold step at 1. cbv beta iota. destruct (pt rule c) as (pos, w) eqn:Ep. cbn [fst snd].
    pose proof (partly_step k c rule fst ltac:(lia)) as E1. pose proof (partly_step k c rule snd ltac:(lia)) as E2. rewrite Ep in E1, E2. cbn [fst snd] in E1, E2.
    rewrite E1. cbn [bind]. rewrite E2. cbn [bind]. apply IH. lia. }
  specialize (A (k + 1)%nat O eq_refl). cbn [skipn] in A. rewrite L.
  assert (I : forall sel, partly k 0 rule sel = repeat None (k + 1)).
  { intros sel. unfold partly. generalize 0%nat at 2 as s. generalize (k + 1)%nat as n. induction n as [|n IH]; intros s; [reflexivity|]. cbn [seq map repeat]. rewrite IH. reflexivity. }
  rewrite !I in A. rewrite A. unfold stored, arranged. rewrite !map_map. f_equal. unfold partly.
  f_equal; apply map_ext_in; intros n Hn; apply in_seq in Hn; pose proof (from_le k n ltac:(lia)); destruct (Nat.ltb_spec (from k n) (k + 1)); try lia; reflexivity.
Qed.

(** exchanging *)
Definition swapped (i j : nat) (L : list (R * R)) : list (R * R) := upd j (pt L i) (upd i (pt L j) L).
Lemma upd_map {A B} (f : A -> B) i a l : upd i (f a) (map f l) = map f (upd i a l).
Proof. revert i. induction l as [|b l IH]; intros [|i]; cbn; try reflexivity. now rewrite IH. Qed.
Lemma load_stored (sel : R * R -> R) L i : (i < length L)%nat -> load (map Some (map sel L)) i = Ok (sel (pt L i)).
Proof. intros H. unfold load, pt. rewrite map_map, nth_error_map, (nth_error_nth' _ (0, 0) H). reflexivity. Qed.
Lemma store_stored (sel : R * R -> R) L i v : (i < length L)%nat -> store i (sel v) (map Some (map sel L)) = Ok (map Some (map sel (upd i v L))).
Proof.
  intros H. unfold store. rewrite !map_length. destruct (Nat.ltb_spec i (length L)); [|lia]. f_equal. rewrite !map_map.
  apply (upd_map (fun p => Some (sel p)) i v L).
Qed.
Lemma exchange_ok k L j : length L = (k + 1)%nat -> (j < (k + 1) / 2)%nat ->
  exchange k (stored L) j = Ok (stored (if Rlt_dec (/ 2) (fst (pt L j)) then swapped j (k - j) L else L)).
Proof.
  intros HL Hj. pose proof (Nat.mul_div_le (k + 1) 2 ltac:(lia)) as D. unfold exchange, stored. cbn [fst snd].
  rewrite load_stored by lia. cbn [bind]. destruct (Rlt_dec (/ 2) (fst (pt L j))) as [H|H]; [|reflexivity].
  rewrite load_stored by lia. cbn [bind]. rewrite (store_stored fst) by lia. cbn [bind]. rewrite (store_stored fst) by (rewrite upd_length; lia). cbn [bind].
  rewrite !load_stored by lia. cbn [bind]. rewrite (store_stored snd) by lia. cbn [bind]. rewrite (store_stored snd) by (rewrite upd_length; lia). reflexivity.
Qed.
Lemma swapped_length i j L : length (swapped i j L) = length L.
Proof. unfold swapped. now rewrite !upd_length. Qed.
Lemma swapped_pt i j L n : (i < length L)%nat -> (j < length L)%nat -> pt (swapped i j L) n = if (n =? j)%nat then pt L i else if (n =? i)%nat then pt L j else pt L n.
Proof.
  intros Hi Hj. unfold swapped, pt at 1. destruct (Nat.eqb_spec n j) as [->|Nj]; [apply upd_nth_same; rewrite upd_length; lia|].
  rewrite upd_nth_other by auto. destruct (Nat.eqb_spec n i) as [->|Ni]; [apply upd_nth_same; lia|]. now rewrite upd_nth_other by auto.
Qed.
Lemma swapped_perm i j L : (i < length L)%nat -> (j < length L)%nat -> Permutation L (swapped i j L).
Proof.
  intros Hi Hj. apply Permutation_nth_error. split; [now rewrite swapped_length|].
  exists (fun n => if (n =? j)%nat then i else if (n =? i)%nat then j else n). split.
  - intros a b. destruct (Nat.eqb_spec a j), (Nat.eqb_spec b j), (Nat.eqb_spec a i), (Nat.eqb_spec b i); lia.
  - intros n. destruct (Nat.ltb_spec n (length L)) as [Hn|Hn].
    + rewrite (nth_error_nth' _ (0, 0)) by now rewrite swapped_length. fold (pt (swapped i j L) n). rewrite swapped_pt by assumption.
      destruct (Nat.eqb_spec n j); [now rewrite (nth_error_nth' _ (0, 0) Hi)|]. destruct (Nat.eqb_spec n i); [now rewrite (nth_error_nth' _ (0, 0) Hj)|]. now rewrite (nth_error_nth' _ (0, 0) Hn).
    + rewrite (proj2 (nth_error_None _ n)) by now rewrite swapped_length.
      destruct (Nat.eqb_spec n j); [lia|]. destruct (Nat.eqb_spec n i); [lia|]. symmetry. now apply nth_error_None.
Qed.

Lemma load_all_ok (sel : R * R -> R) L : load_all (map Some (map sel L)) = Ok (map sel L).
Proof.
  unfold load_all. rewrite !map_length.
  assert (A : forall n s acc, (s + n = length L)%nat -> foldM (fun acc i => let* v := load (map Some (map sel L)) i in Ok (acc ++ [v])) (seq s n) acc = Ok (acc ++ map sel (skipn s L))).
  { induction n as [|n IH]; intros s acc E; [cbn [seq foldM]; now rewrite (skipn_all2 L) by lia; rewrite app_nil_r|].
    cbn [seq foldM]. rewrite load_stored by lia. cbn [bind]. rewrite IH by lia. f_equal. rewrite <- app_assoc. f_equal.
    unfold pt. assert (H : (s < length L)%nat) by lia. clear E IH. revert s H. induction L as [|a l IHl]; intros [|s] H; cbn in *; try lia; [reflexivity|]. apply IHl. lia. }
  apply (A (length L) O []). lia.
Qed.

(** the invariant of the second loop *)
Lemma arranged_perm k rule : length rule = (k + 1)%nat -> Permutation rule (arranged k rule).
Proof.
  intros L. assert (E : rule = map (pt rule) (seq 0 (k + 1))).
  { rewrite <- L. clear. apply (nth_ext _ _ (0, 0) (pt rule O)); [now rewrite map_length, seq_length|]. intros n Hn.
    rewrite (map_nth (pt rule)), seq_nth by assumption. reflexivity. }
  rewrite E at 1. unfold arranged. rewrite <- (map_map (from k) (pt rule)). apply Permutation_map.
  apply NoDup_Permutation_bis.
  - apply seq_NoDup.
  - rewrite map_length, seq_length. lia.
  - intros n Hn. apply in_seq in Hn. apply in_map_iff. exists (place k n). split; [apply from_place; lia|]. apply in_seq. pose proof (place_le k n ltac:(lia)). lia.
Qed.
Lemma exchanges k : forall js L, length L = (k + 1)%nat -> (forall j, In j js -> (j < (k + 1) / 2)%nat) ->
  exists L', foldM (exchange k) js (stored L) = Ok (stored L') /\ Permutation L L' /\
    (NoDup js -> (forall j, (j < (k + 1) / 2)%nat -> fst (pt L (k - j)) = 1 - fst (pt L j) /\ snd (pt L (k - j)) = snd (pt L j)) ->
       forall j, (j < (k + 1) / 2)%nat -> fst (pt L' (k - j)) = 1 - fst (pt L' j) /\ snd (pt L' (k - j)) = snd (pt L' j) /\
         (In j js -> fst (pt L' j) <= / 2) /\ (~ In j js -> pt L' j = pt L j)).
Proof.
  induction js as [|j js IH]; intros L HL Hj.
  - exists L. split; [reflexivity|]. split; [reflexivity|]. intros _ M i Hi. destruct (M i Hi). cbn. tauto.
  - cbn [foldM]. pose proof (Hj j ltac:(now left)) as Hj0. pose proof (Nat.mul_div_le (k + 1) 2 ltac:(lia)) as D.
    rewrite exchange_ok by assumption. cbn [bind].
    set (L1 := if Rlt_dec (/ 2) (fst (pt L j)) then swapped j (k - j) L else L).
    assert (H1 : length L1 = (k + 1)%nat) by (unfold L1; destruct (Rlt_dec _ _); rewrite ?swapped_length; assumption).
    destruct (IH L1 H1) as (L' & E & P & S); [intros; apply Hj; now right|].
    exists L'. split; [exact E|]. split.
    + apply (Permutation_trans (l' := L1)); [|exact P]. unfold L1. destruct (Rlt_dec _ _); [apply swapped_perm; lia|reflexivity].
    + intros ND M. inversion ND as [|? ? N ND']; subst.
      assert (M1 : forall i, (i < (k + 1) / 2)%nat -> fst (pt L1 (k - i)) = 1 - fst (pt L1 i) /\ snd (pt L1 (k - i)) = snd (pt L1 i)).
      { intros i Hi. unfold L1. destruct (Rlt_dec _ _) as [G|G]; [|now apply M]. destruct (M i Hi) as [A B]. rewrite !swapped_pt by lia.
        destruct (Nat.eqb_spec (k - i) (k - j)) as [X|X].
        - assert (i = j) by lia. subst i. destruct (Nat.eqb_spec j (k - j)); [lia|]. rewrite Nat.eqb_refl. rewrite A, B. split; [ring|reflexivity].
        - destruct (Nat.eqb_spec (k - i) j); [lia|]. destruct (Nat.eqb_spec i (k - j)); [lia|]. destruct (Nat.eqb_spec i j); [lia|]. now split. }
      intros i Hi. destruct (S ND' M1 i Hi) as (A & B & C & E'). split; [assumption|]. split; [assumption|]. split.
      * intros [->|Hin]; [|now apply C]. rewrite (E' N). unfold L1. destruct (Rlt_dec _ _) as [G|G]; [|lra]. rewrite swapped_pt by lia.
        destruct (Nat.eqb_spec i (k - i)); [lia|]. rewrite Nat.eqb_refl. destruct (M i Hi) as [A' _]. rewrite A'. lra.
      * intros Hnot. rewrite E' by (intros X; apply Hnot; now right). unfold L1. destruct (Rlt_dec _ _) as [G|G]; [|reflexivity]. rewrite swapped_pt by lia.
        destruct (Nat.eqb_spec i (k - j)); [lia|]. destruct (Nat.eqb_spec i j) as [->|]; [|reflexivity]. exfalso. apply Hnot. now left.
Qed.

Theorem lobatto_ok k rules rule : find (fun r => length r =? k + 1)%nat rules = Some rule ->
  exists L, lobatto k rules = Ok (map fst L, map snd L) /\ Permutation rule L /\
    ((forall g, (2 * g + 1 <= k)%nat -> fst (pt rule (2 * g + 1)) = 1 - fst (pt rule (2 * g)) /\ snd (pt rule (2 * g + 1)) = snd (pt rule (2 * g))) ->
     forall j, (j < (k + 1) / 2)%nat -> fst (pt L (k - j)) = 1 - fst (pt L j) /\ snd (pt L (k - j)) = snd (pt L j) /\ fst (pt L j) <= / 2).
Proof.
  intros F. pose proof (find_some _ _ F) as [_ E]. apply Nat.eqb_eq in E. unfold lobatto. rewrite F, fill_ok by assumption. cbn [bind].
  destruct (exchanges k (seq 0 (length rule / 2)) (arranged k rule)) as (L & EL & P & S).
  { unfold arranged. now rewrite map_length, seq_length. }
  { intros j Hj. apply in_seq in Hj. rewrite E in Hj. lia. }
  exists L. rewrite EL. cbn [bind]. unfold stored. cbn [fst snd]. rewrite !load_all_ok. cbn [bind]. split; [reflexivity|]. split.
  - apply (Permutation_trans (l' := arranged k rule)); [now apply arranged_perm|exact P].
  - intros M j Hj. pose proof (Nat.mul_div_le (k + 1) 2 ltac:(lia)) as D.
    destruct (S (seq_NoDup _ _)) with (j := j) as (A & B & C & _); [|assumption|].
    + intros i Hi. assert (Ep : forall n, (n <= k)%nat -> pt (arranged k rule) n = pt rule (from k n)).
      { intros n Hn. unfold pt at 1, arranged. rewrite (nth_indep _ (0, 0) ((fun n => pt rule (from k n)) O)) by (rewrite map_length, seq_length; lia).
        rewrite (map_nth (fun n => pt rule (from k n))), seq_nth by lia. reflexivity. }
      rewrite !Ep by lia. unfold from. destruct (Nat.leb_spec (2 * (k - i) + 1) k); [lia|]. destruct (Nat.leb_spec (2 * i + 1) k); [|lia].
      replace (k - (k - i))%nat with i by lia. destruct (M i ltac:(lia)) as [X Y]. rewrite X, Y. split; [ring|reflexivity].
    + split; [assumption|]. split; [assumption|]. apply C. apply in_seq. rewrite E. lia.
Qed.
