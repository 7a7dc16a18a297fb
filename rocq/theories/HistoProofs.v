(** The bisection of error_distribution. *)
From Coq Require Import Lra Lia.
From Verif Require Import CommonFacts HistoModel HistoSpec.
Local Open Scope R_scope.

Lemma tally_from x e : forall s n, fold_left (fun '(s, n) v => if leb v e then (s + v, S n) else (s, n)) x (s, n) =
  (s + total (up_to e x), (n + length (up_to e x))%nat).
Proof.
  induction x as [|v x IH]; intros s n; cbn.
  - unfold total; cbn. f_equal; [lra|lia].
  - unfold leb. destruct (Rle_dec v e); rewrite IH; [|reflexivity]. unfold total, up_to. cbn. destruct (Rle_dec v e); [|contradiction]. cbn. f_equal; [lra|lia].
Qed.
Lemma tally_spec x e : tally x e = (total (up_to e x), length (up_to e x)).
Proof. unfold tally. rewrite tally_from. cbn. f_equal. lra. Qed.
Lemma norm_total x : (forall v, In v x -> 0 <= v) -> one_norm x = total x.
Proof.
  induction x as [|v x IH]; intros H; [reflexivity|]. specialize (IH ltac:(intros; apply H; now right)). unfold one_norm, total in *. cbn. rewrite IH.
  rewrite Rabs_pos_eq by (apply H; now left). reflexivity.
Qed.
Lemma norm_largest x : (forall v, In v x -> 0 <= v) -> largest (infinity_norm x) x /\ 0 <= infinity_norm x.
Proof.
  induction x as [|v x IH]; intros H; cbn.
  - repeat split; [intros ? []|right; auto|lra].
  - destruct IH as ((L & M) & P); [intros; apply H; now right|]. assert (0 <= v) by (apply H; now left). rewrite Rabs_pos_eq by auto.
    fold (infinity_norm x). unfold Rmax. destruct (Rle_dec v (infinity_norm x)).
    + split; [split|auto]; [intros u [<-|I]; auto|]. left. destruct M as [M|(-> & E)]; [now right|]. left. unfold infinity_norm in *. cbn in *. lra.
    + split; [split|lra]; [|left; now left]. intros u [<-|I]; [lra|]. apply L in I. lra.
Qed.
Lemma total_mono x e e' : (forall v, In v x -> 0 <= v) -> e <= e' -> total (up_to e x) <= total (up_to e' x) /\ (length (up_to e x) <= length (up_to e' x))%nat.
Proof.
  intros H L. induction x as [|v x IH]; [cbn; split; [lra|lia]|]. destruct IH as (I1 & I2); [intros; apply H; now right|].
  assert (0 <= v) by (apply H; now left). unfold total, up_to in *. cbn. destruct (Rle_dec v e), (Rle_dec v e'); cbn; split; try lra; lia.
Qed.
Lemma total_all x e : (forall v, In v x -> v <= e) -> up_to e x = x.
Proof.
  induction x as [|v x IH]; intros H; [reflexivity|]. unfold up_to in *. cbn. destruct (Rle_dec v e) as [|N]; [rewrite IH by (intros; apply H; now right); reflexivity|].
  exfalso. apply N, H. now left.
Qed.
Lemma total_nonneg x : (forall v, In v x -> 0 <= v) -> 0 <= total x.
Proof. induction x as [|v x IH]; intros H; [cbn; lra|]. assert (0 <= v) by (apply H; now left). assert (0 <= total x) by (apply IH; intros; apply H; now right). unfold total in *. cbn. lra. Qed.
Lemma total_sub x e : (forall v, In v x -> 0 <= v) -> total (up_to e x) <= total x.
Proof.
  induction x as [|v x IH]; intros H; [cbn; lra|]. assert (0 <= v) by (apply H; now left). assert (total (up_to e x) <= total x) by (apply IH; intros; apply H; now right).
  unfold total, up_to in *. cbn. destruct (Rle_dec v e); cbn; lra.
Qed.
Lemma total_zero x : (forall v, In v x -> 0 <= v) -> total (up_to 0 x) = 0.
Proof.
  induction x as [|v x IH]; intros H; [reflexivity|]. assert (0 <= v) by (apply H; now left). specialize (IH ltac:(intros; apply H; now right)).
  unfold total, up_to in *. cbn. destruct (Rle_dec v 0); cbn; lra.
Qed.

Section Bins.
  Context (x : list R) (bins : nat) (Hx : forall v, In v x -> 0 <= v) (Hb : (0 < bins)%nat).
  Let M := infinity_norm x * (1 + / 10 ^ 8).
  Lemma M_nonneg : 0 <= M.
  Proof. unfold M. destruct (norm_largest x Hx) as (_ & P). apply Rmult_le_pos; lra. Qed.
  Lemma target_share k : target bins k = share bins k.
  Proof. unfold target, share. now rewrite Nat.add_1_r. Qed.
  Lemma share_nonneg k : 0 <= share bins k.
  Proof. unfold share. apply Rmult_le_pos; [apply pos_INR|]. left. apply Rinv_0_lt_compat, lt_0_INR. lia. Qed.
  Lemma share_mono k k' : (k <= k')%nat -> share bins k <= share bins k'.
  Proof. intros H. unfold share. apply Rmult_le_compat_r; [left; apply Rinv_0_lt_compat, lt_0_INR; lia|]. apply le_INR. lia. Qed.
  Definition small k e : Prop := total (up_to e x) <= share bins k * total x.
  Definition inv n (b : bounds) : Prop := forall k,
    left b k <= right b k /\ 0 <= left b k /\ right b k <= M /\ right b k - left b k = M / 2 ^ n /\ small k (left b k) /\ (~ small k (right b k) \/ right b k = M) /\
    (n <> 0%nat -> eta b k = left b k \/ eta b k = right b k).
  Lemma inv_step n b : inv n b -> inv (S n) (bisect_step x bins b).
  Proof.
    intros H k. destruct (H k) as (L & P & U & W & S1 & S2 & _). cbn. rewrite tally_spec, target_share, norm_total by auto. cbn [fst].
    unfold leb. assert (P2 : 0 < 2 ^ n) by (apply pow_lt; lra).
    assert (W' : M / (2 * 2 ^ n) = 1 / 2 * (M / 2 ^ n)) by (field; lra). rewrite W', <- W.
    destruct (Rle_dec _ _) as [Y|N]; repeat split; try lra; auto.
  Qed.
  Lemma inv_steps m : forall n b, inv n b -> inv (m + n) (bisect_steps m x bins b).
  Proof. induction m as [|m IH]; intros n b H; [exact H|]. cbn [bisect_steps plus]. rewrite <- Nat.add_succ_r. apply IH. now apply inv_step. Qed.
  Lemma inv_start : inv 0 (start x).
  Proof.
    intros k. assert (P := M_nonneg). unfold start. cbn [left right eta]. fold M. rewrite Rminus_0_r, pow_O. unfold Rdiv. rewrite Rinv_1, Rmult_1_r.
    repeat (split; [lra|]). split; [|split; [auto|congruence]]. unfold small. rewrite total_zero by auto. apply Rmult_le_pos; [apply share_nonneg|apply total_nonneg; auto].
  Qed.
  (** bins in order *)
  Definition ordered k k' (b : bounds) : Prop :=
    (left b k = left b k' /\ right b k = right b k') \/ right b k <= left b k'.
  Lemma ordered_step n b k k' : (k <= k')%nat -> inv n b -> ordered k k' b -> ordered k k' (bisect_step x bins b) /\ eta (bisect_step x bins b) k <= eta (bisect_step x bins b) k'.
  Proof.
    intros Hk HI HO. destruct (HI k) as (L & _). destruct (HI k') as (L' & _).
    assert (HT : share bins k * total x <= share bins k' * total x) by (apply Rmult_le_compat_r; [apply total_nonneg; auto|now apply share_mono]).
    unfold ordered. cbn. rewrite !tally_spec, !target_share, norm_total by auto. cbn [fst]. unfold leb.
    destruct HO as [(El & Er)|HO].
    - rewrite El, Er. destruct (Rle_dec _ _), (Rle_dec _ _); split; auto; lra.
    - split; [right|lra]. destruct (Rle_dec _ _), (Rle_dec _ _); lra.
  Qed.
  Lemma ordered_steps k k' : (k <= k')%nat -> forall m n b, inv n b -> ordered k k' b -> (m = 0%nat -> eta b k <= eta b k') ->
    eta (bisect_steps m x bins b) k <= eta (bisect_steps m x bins b) k'.
  Proof.
    intros Hk. induction m as [|m IH]; intros n b HI HO HE; [now apply HE|]. destruct (ordered_step n b k k' Hk HI HO) as (HO' & HE').
    apply (IH (S n)); auto. now apply inv_step.
  Qed.
  (** the last bin always moves its left end *)
  Lemma last_steps m : forall b, left b (pred bins) <= M -> right b (pred bins) = M -> 
    right (bisect_steps m x bins b) (pred bins) = M /\ left (bisect_steps m x bins b) (pred bins) = M - (M - left b (pred bins)) / 2 ^ m /\
    (m <> 0%nat -> eta (bisect_steps m x bins b) (pred bins) = left (bisect_steps m x bins b) (pred bins)).
  Proof.
    assert (T : forall e, total (up_to e x) <= target bins (pred bins) * one_norm x).
    { intros e. rewrite target_share, norm_total by auto. unfold share. replace (S (pred bins)) with bins by lia.
      unfold Rdiv. rewrite Rinv_r by (apply not_0_INR; lia). rewrite Rmult_1_l. now apply total_sub. }
    induction m as [|m IH]; intros b HL HR; [repeat split; auto; [cbn; field|congruence]|].
    cbn [bisect_steps]. set (b1 := bisect_step x bins b).
    assert (E1 : left b1 (pred bins) = 1/2 * (left b (pred bins) + M) /\ right b1 (pred bins) = M /\ eta b1 (pred bins) = left b1 (pred bins)).
    { unfold b1. cbn. rewrite tally_spec, HR. cbn [fst]. unfold leb. destruct (Rle_dec _ _) as [|N]; [auto|]. exfalso. apply N, T. }
    destruct E1 as (El & Er & Ee). destruct (IH b1) as (R1 & R2 & R3); [lra|auto|]. split; [auto|]. split.
    - rewrite R2, El. assert (0 < 2 ^ m) by (apply pow_lt; lra). cbn. field. lra.
    - intros _. destruct m as [|m]; [exact Ee|auto].
  Qed.
End Bins.
