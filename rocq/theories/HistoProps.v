(** C180: the error distribution. *)
From Coq Require Import Lra Lia.
From Verif Require Import CommonFacts HistoModel HistoSpec HistoProofs.
Local Open Scope R_scope.
Local Opaque bisect_steps pow.

Section C180.
  Context (x : list R) (bins : nat) (n : nat) (m t : R) (lines : list line).
  Hypothesis Hx : forall v, In v x -> 0 <= v.
  Hypothesis He : error_distribution x bins = (n, m, t, lines).
  Lemma line_at k ln : nth_error lines k = Some ln -> (k < bins)%nat /\
    let e := eta (bisect_steps 30 x bins (start x)) k in
    ln = mkline (length (up_to e x)) e (quotient (total (up_to e x)) (one_norm x)).
  Proof.
    unfold error_distribution in He. injection He as _ _ _ <-. intros H. rewrite nth_error_map in H.
    destruct (nth_error (seq 0 bins) k) as [i|] eqn:E; [|discriminate]. assert (k < bins)%nat.
    { rewrite <- (seq_length bins 0). apply nth_error_Some. congruence. }
    split; auto. apply nth_error_nth with (d := 0%nat) in E. rewrite seq_nth in E by auto. cbn in E. subst i.
    cbn [option_map] in H. rewrite tally_spec in H. now injection H as <-.
  Qed.
  (** The figures of the header, and one line for each bin. *)
  Theorem c180_header : n = length x /\ largest m x /\ t = total x /\ length lines = bins.
  Proof.
    unfold error_distribution in He. injection He as <- <- <- <-. split; [reflexivity|]. split; [now apply norm_largest|]. split; [now apply norm_total|].
    now rewrite map_length, seq_length.
  Qed.
  (** A line gives the number and the share of the errors that are at most its threshold. *)
  Theorem c180_line k ln : nth_error lines k = Some ln ->
    l_count ln = length (up_to (l_eta ln) x) /\
    (total x <> 0 -> l_share ln = Some (total (up_to (l_eta ln) x) / total x)).
  Proof.
    intros H. destruct (line_at k ln H) as (_ & ->). cbn. split; [reflexivity|]. intros N. unfold quotient. rewrite norm_total by auto.
    destruct (Req_EM_T (total x) 0); [contradiction|reflexivity].
  Qed.
  (** The threshold of bin k is the point where the share of the error exceeds (k+1)/bins, up to a relative error: it is an
      end of an interval of length m(1+1e-8)/2^30 below which the share is not more, and above which it is more, unless that
      is above all errors. *)
  Theorem c180_threshold k ln : nth_error lines k = Some ln -> exists l r, (l_eta ln = l \/ l_eta ln = r) /\
    r - l = m * (1 + / 10 ^ 8) / 2 ^ 30 /\ 0 <= l /\
    (forall e, e <= l -> total (up_to e x) <= share bins k * total x) /\
    (forall e, r <= e -> total (up_to e x) > share bins k * total x \/ r = m * (1 + / 10 ^ 8)).
  Proof.
    intros H. destruct (line_at k ln H) as (Hk & ->). cbn [l_eta].
    assert (Hm : infinity_norm x = m) by (unfold error_distribution in He; now injection He).
    destruct (inv_steps x bins Hx 30 0 (start x) (inv_start x bins Hx ltac:(lia)) k) as (L & P & U & W & S1 & S2 & E).
    rewrite Nat.add_0_r, Hm in *. exists (left (bisect_steps 30 x bins (start x)) k), (right (bisect_steps 30 x bins (start x)) k).
    split; [apply E; discriminate|]. split; [exact W|]. split; [exact P|]. split.
    - intros e Le. unfold small in S1. destruct (total_mono x e _ Hx Le) as (T & _). lra.
    - intros e Le. destruct S2 as [S2|S2]; [left|right; exact S2]. unfold small in S2. destruct (total_mono x _ e Hx Le) as (T & _). lra.
  Qed.
  (** Thresholds, counts and sums do not decrease from bin to bin. *)
  Theorem c180_ordered k k' ln ln' : (k <= k')%nat -> nth_error lines k = Some ln -> nth_error lines k' = Some ln' ->
    l_eta ln <= l_eta ln' /\ (l_count ln <= l_count ln')%nat /\ total (up_to (l_eta ln) x) <= total (up_to (l_eta ln') x).
  Proof.
    intros Hk H H'. destruct (line_at k ln H) as (B & ->), (line_at k' ln' H') as (B' & ->). cbn [l_eta l_count].
    assert (E : eta (bisect_steps 30 x bins (start x)) k <= eta (bisect_steps 30 x bins (start x)) k').
    { apply (ordered_steps x bins Hx ltac:(lia) k k' Hk 30 0); [apply inv_start; auto; lia|left; split; reflexivity|discriminate]. }
    destruct (total_mono x _ _ Hx E). auto.
  Qed.
  (** The last line counts all elements and the whole error. *)
  Theorem c180_last ln : nth_error lines (pred bins) = Some ln ->
    l_count ln = length x /\ (total x <> 0 -> l_share ln = Some 1).
  Proof.
    intros H. destruct (line_at _ ln H) as (B & E0). assert (C := c180_line _ ln H). rewrite E0 in *. cbn [l_eta l_count l_share] in *.
    destruct (norm_largest x Hx) as ((L & _) & P).
    destruct (last_steps x bins Hx ltac:(lia) 30 (start x)) as (_ & EL & EE); [cbn; apply Rmult_le_pos; lra|reflexivity|].
    rewrite EE, EL in C by discriminate. rewrite EE, EL by discriminate. cbn [start left] in *.
    assert (A : forall v, In v x -> v <= infinity_norm x * (1 + / 10 ^ 8) - (infinity_norm x * (1 + / 10 ^ 8) - 0) / 2 ^ 30).
    { intros v I. apply L in I. assert (infinity_norm x * 1 <= infinity_norm x * ((1 + / 10 ^ 8) * (1 - / 2 ^ 30))) by (apply Rmult_le_compat_l; [auto|lra]). lra. }
    rewrite (total_all x _ A) in *. split; [reflexivity|]. intros N. destruct C as (_ & C). rewrite C by auto. f_equal. field. auto.
  Qed.
End C180.
Print Assumptions c180_header.
Print Assumptions c180_line.
Print Assumptions c180_threshold.
Print Assumptions c180_ordered.
Print Assumptions c180_last.
Example c180_meets : (forall v, In v [1; 3; 0; 2] -> 0 <= v) /\ total [1; 3; 0; 2] <> 0 /\
  exists n m t lines ln, error_distribution [1; 3; 0; 2] 4 = (n, m, t, lines) /\ nth_error lines 2 = Some ln.
Proof.
  split; [intros v H; cbn in H; destruct H as [<-|[<-|[<-|[<-|[]]]]]; lra|]. split; [unfold total; cbn; lra|].
  unfold error_distribution. do 5 eexists. split; reflexivity.
Qed.
(** Finding: if all errors are zero no share is a number. *)
Theorem c180_zero_refuted k bins : exists n m t lines, error_distribution (repeat 0 k) bins = (n, m, t, lines) /\
  forall ln, In ln lines -> l_share ln = None.
Proof.
  unfold error_distribution. do 4 eexists. split; [reflexivity|]. intros ln H. apply in_map_iff in H as (i & <- & _). cbn [l_share].
  unfold quotient. assert (E : one_norm (repeat 0 k) = 0).
  { unfold one_norm. induction k as [|k IH]; [reflexivity|]. cbn. rewrite IH, Rabs_R0. lra. }
  rewrite E. destruct (Req_EM_T 0 0); [reflexivity|contradiction].
Qed.
Print Assumptions c180_zero_refuted.
