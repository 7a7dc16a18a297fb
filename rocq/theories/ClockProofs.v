(** Proofs about times. *)
From Verif Require Import Common CommonFacts ClockModel ClockSpec.
Local Open Scope Z_scope.

Lemma step_ok x o : normalised x -> normalised (op_arg o) ->
  normalised (step x o) /\ nanos (step x o) = nanos x + op_value o.
Proof.
  unfold normalised, nanos. destruct x as [s n], o as [[s' n']|[s' n']]; cbn [step op_arg op_value nanos tv_sec tv_nsec]; intros H H'.
  - unfold add; cbn [tv_sec tv_nsec]. destruct (Z.leb_spec 1000000000 (n + n')); cbn [tv_sec tv_nsec];
    unfold nanos; cbn [tv_sec tv_nsec]; lia.
  - unfold sub; cbn [tv_sec tv_nsec]. destruct (Z.ltb_spec (n - n') 0); cbn [tv_sec tv_nsec];
    unfold nanos; cbn [tv_sec tv_nsec]; lia.
Qed.

Definition sumZ (l : list Z) : Z := fold_right Z.add 0 l.

Lemma run_ok ops x : normalised x -> (forall o, In o ops -> normalised (op_arg o)) ->
  normalised (fold_left step ops x) /\ nanos (fold_left step ops x) = nanos x + fold_right Z.add 0 (map op_value ops).
Proof.
  revert x; induction ops as [|o ops IH]; intros x N A; cbn [fold_left map fold_right]; [split; auto; lia|].
  destruct (step_ok x o N (A o (or_introl eq_refl))) as [N1 V1].
  destruct (IH (step x o) N1) as [N2 V2]; [intros; apply A; right; auto|].
  split; auto. lia.
Qed.

Lemma normalised_unique x y : normalised x -> normalised y -> nanos x = nanos y -> x = y.
Proof. unfold normalised, nanos. destruct x, y; cbn. intros. f_equal; lia. Qed.

Lemma add_sub_id x y : normalised x -> normalised y -> sub (add x y) y = x.
Proof.
  intros X Y. destruct (step_ok x (OAdd y) X Y) as [N1 V1]. cbn [step op_value] in *.
  destruct (step_ok (add x y) (OSub y) N1 Y) as [N2 V2]. cbn [step op_value] in *.
  apply normalised_unique; auto. lia.
Qed.

(** ** Numerals *)

Lemma value_snoc a d : value (a ++ [d]) = 10 * value a + Z.of_N d.
Proof. unfold value. now rewrite fold_left_app. Qed.

Lemma value_app a b : value (a ++ b) = value a * 10 ^ Z.of_nat (length b) + value b.
Proof.
  induction b as [|d b IH] using rev_ind.
  - rewrite app_nil_r. cbn. lia.
  - rewrite app_assoc, !value_snoc, IH, app_length. cbn [length].
    rewrite Nat2Z.inj_add, Z.pow_add_r by lia. change (10 ^ Z.of_nat 1) with 10. ring.
Qed.

Lemma value_bound ds : Forall (fun d => (d < 10)%N) ds -> 0 <= value ds < 10 ^ Z.of_nat (length ds).
Proof.
  induction ds as [|d ds IH] using rev_ind; intros H.
  - cbn. lia.
  - apply Forall_app in H as [H1 H2]. inversion H2; subst. specialize (IH H1).
    rewrite value_snoc, app_length. cbn [length]. rewrite Nat2Z.inj_add, Z.pow_add_r by lia.
    change (10 ^ Z.of_nat 1) with 10. nia.
Qed.

Lemma digits_ok f n : Z.of_N n < 10 ^ (Z.of_nat f + 1) ->
  Forall (fun d => (d < 10)%N) (digits f n) /\ value (digits f n) = Z.of_N n /\ digits f n <> [].
Proof.
  revert n; induction f as [|f IH]; intros n H; cbn [digits].
  - change (10 ^ (Z.of_nat 0 + 1)) with 10 in H. split; [repeat constructor; lia|]. split; [cbn; lia|discriminate].
  - destruct (N.ltb_spec n 10).
    + split; [repeat constructor; lia|]. split; [cbn; lia|discriminate].
    + destruct (IH (n / 10)%N) as (A & B & C).
      { rewrite N2Z.inj_div. apply Z.div_lt_upper_bound; [lia|].
        replace (Z.of_nat (S f) + 1) with (Z.of_nat f + 1 + 1) in H by lia.
        rewrite Z.pow_add_r in H by lia. lia. }
      split; [apply Forall_app; split; auto; repeat constructor; apply N.mod_upper_bound; lia|].
      split; [|intros E; apply app_eq_nil in E as [_ E]; discriminate].
      rewrite value_snoc, B, N2Z.inj_div, N2Z.inj_mod. cbn [Z.of_N].
      pose proof (Z.div_mod (Z.of_N n) 10). lia.
Qed.

Lemma digits_length_le f k n : Z.of_N n < 10 ^ Z.of_nat (S k) -> Z.of_N n < 10 ^ (Z.of_nat f + 1) ->
  (length (digits f n) <= S k)%nat.
Proof.
  revert k n; induction f as [|f IH]; intros k n H Hf; cbn [digits].
  - cbn. lia.
  - destruct (N.ltb_spec n 10); [cbn; lia|]. rewrite app_length. cbn [length].
    destruct k as [|k].
    + change (10 ^ Z.of_nat 1) with 10 in H. lia.
    + assert (length (digits f (n / 10)) <= S k)%nat; [|lia].
      apply IH; rewrite N2Z.inj_div; apply Z.div_lt_upper_bound; try lia.
      * rewrite (Nat2Z.inj_succ (S k)), Z.pow_succ_r in H by lia. lia.
      * replace (Z.of_nat (S f) + 1) with (Z.of_nat f + 1 + 1) in Hf by lia.
        rewrite Z.pow_add_r in Hf by lia. lia.
Qed.

Lemma fuel_enough n : Z.of_N n < 10 ^ (Z.of_nat (N.to_nat (N.size n)) + 1).
Proof.
  pose proof (N.size_gt n) as H. apply N2Z.inj_lt in H. rewrite N2Z.inj_pow in H. cbn [Z.of_N] in H.
  rewrite N_nat_Z. set (s := Z.of_N (N.size n)) in *.
  assert (0 <= s) by (unfold s; lia).
  assert (2 ^ s <= 10 ^ s) by (apply Z.pow_le_mono_l; lia).
  assert (10 ^ s <= 10 ^ (s + 1)) by (apply Z.pow_le_mono_r; lia). lia.
Qed.

Definition numeral (n : N) : list N := digits (N.to_nat (N.size n)) n.
Lemma numeral_ok n : is_digits (numeral n) /\ value (numeral n) = Z.of_N n.
Proof. destruct (digits_ok _ n (fuel_enough n)) as (A & B & C). split; [split|]; auto. Qed.

Lemma value_zeros k : value (repeat 0%N k) = 0.
Proof.
  induction k as [|k IH]; auto.
Qed.

Definition frac9 (n : N) : list N := repeat 0%N (9 - length (numeral n)) ++ numeral n.

Lemma frac9_ok n : Z.of_N n < 10 ^ 9 ->
  length (frac9 n) = 9%nat /\ Forall (fun d => (d < 10)%N) (frac9 n) /\ value (frac9 n) = Z.of_N n.
Proof.
  intros H. destruct (numeral_ok n) as [[A1 A2] B].
  assert (L : (length (numeral n) <= 9)%nat) by (apply (digits_length_le _ 8); [exact H|apply fuel_enough]).
  unfold frac9. split; [rewrite app_length, repeat_length; lia|]. split.
  - apply Forall_app; split; auto. apply Forall_forall. intros d Hd. apply repeat_spec in Hd. subst; lia.
  - rewrite value_app, value_zeros, B. lia.
Qed.

Lemma print_long_eq z : print_long z = (if z <? 0 then [Minus] else []) ++ map Dig (numeral (Z.to_N (Z.abs z))).
Proof.
  unfold print_long, print_nat, numeral. destruct (Z.ltb_spec z 0); cbn [app]; repeat f_equal; lia.
Qed.

Lemma padded_eq n : padded 9 (map Dig (numeral n)) = map Dig (frac9 n).
Proof.
  unfold padded, frac9. rewrite map_length, map_app. f_equal.
  induction (9 - length (numeral n))%nat as [|k IH]; cbn; auto. now rewrite IH.
Qed.

Lemma print_shape prec t : normalised t ->
  let k := Nat.min 9 prec in
  let f := frac9 (Z.to_N (tv_nsec t)) in
  print prec t = (if tv_sec t <? 0 then [Minus] else []) ++ map Dig (numeral (Z.to_N (Z.abs (tv_sec t)))) ++
                 match k with O => [] | _ => Dot :: map Dig (firstn k f) end.
Proof.
  intros N k f. unfold normalised in N. unfold print.
  rewrite !print_long_eq. destruct (Z.ltb_spec (tv_nsec t) 0) as [|_]; [lia|]. cbn [app].
  rewrite padded_eq. replace (Z.abs (tv_nsec t)) with (tv_nsec t) by lia. fold f.
  assert (Lf : length f = 9%nat) by (apply frac9_ok; lia).
  set (a := (if tv_sec t <? 0 then [Minus] else []) ++ map Dig (numeral (Z.to_N (Z.abs (tv_sec t))))).
  assert (T : forall r, a ++ r = (if tv_sec t <? 0 then [Minus] else []) ++ map Dig (numeral (Z.to_N (Z.abs (tv_sec t)))) ++ r).
  { intros r. unfold a. now rewrite app_assoc. }
  rewrite <- T. rewrite app_length. cbn [length]. rewrite map_length, Lf.
  destruct (Nat.ltb_spec prec 9).
  - replace (length a + 10 - (9 - prec))%nat with (length a + S prec)%nat by lia.
    rewrite firstn_app_2. cbn [firstn]. rewrite firstn_map.
    assert (K : k = prec) by (unfold k; lia). rewrite K.
    destruct prec as [|p].
    + cbn [Nat.eqb firstn map]. rewrite app_length. cbn [length].
      replace (length a + 1 - 1)%nat with (length a + 0)%nat by lia. now rewrite firstn_app_2.
    + reflexivity.
  - assert (K : k = 9%nat) by (unfold k; lia). rewrite K. destruct (Nat.eqb_spec prec 0); [lia|].
    f_equal. f_equal. f_equal. rewrite firstn_all2 by lia. reflexivity.
Qed.

Lemma value_firstn k f : Forall (fun d => (d < 10)%N) f -> (k <= length f)%nat ->
  value (firstn k f) = value f / 10 ^ Z.of_nat (length f - k).
Proof.
  intros F K. rewrite <- (firstn_skipn k f) at 2. rewrite value_app.
  assert (S : Forall (fun d => (d < 10)%N) (skipn k f)).
  { rewrite <- (firstn_skipn k f) in F. now apply Forall_app in F. }
  pose proof (value_bound _ S) as B. rewrite skipn_length in *.
  rewrite Z.div_add_l by (apply Z.pow_nonzero; lia). rewrite Z.div_small; lia.
Qed.

(** The value the printed text denotes, for every normalised time. *)
Lemma print_reads prec t : normalised t ->
  let k := Nat.min 9 prec in
  reads (print prec t)
        ((if tv_sec t <? 0 then -1 else 1) * ((Z.abs (tv_sec t) * 10 ^ 9 + tv_nsec t) / 10 ^ Z.of_nat (9 - k))) k.
Proof.
  intros N k. rewrite print_shape by auto. fold k. unfold normalised in N.
  set (i := numeral (Z.to_N (Z.abs (tv_sec t)))). set (f := frac9 (Z.to_N (tv_nsec t))).
  destruct (numeral_ok (Z.to_N (Z.abs (tv_sec t)))) as [Di Vi]. fold i in Di, Vi. rewrite Z2N.id in Vi by lia.
  destruct (frac9_ok (Z.to_N (tv_nsec t))) as (Lf & Df & Vf); [lia|]. fold f in Lf, Df, Vf. rewrite Z2N.id in Vf by lia.
  assert (K : (k <= 9)%nat) by (unfold k; lia).
  assert (E : (Z.abs (tv_sec t) * 10 ^ 9 + tv_nsec t) / 10 ^ Z.of_nat (9 - k) =
              value i * 10 ^ Z.of_nat k + value (firstn k f)).
  { rewrite value_firstn by (auto; lia). rewrite Lf, Vi, Vf.
    replace (10 ^ 9) with (10 ^ Z.of_nat k * 10 ^ Z.of_nat (9 - k)) by (rewrite <- Z.pow_add_r by lia; f_equal; lia).
    rewrite Z.mul_assoc. now rewrite Z.div_add_l by (apply Z.pow_nonzero; lia). }
  rewrite E. clearbody k. destruct k as [|k].
  - rewrite app_nil_r. cbn [firstn Z.of_nat]. change (value []) with 0.
    replace (value i * 10 ^ 0 + 0) with (value i) by lia. now apply reads_int.
  - assert (Lk : length (firstn (S k) f) = S k) by (rewrite firstn_length; lia).
    assert (Dk : is_digits (firstn (S k) f)).
    { split.
      - intros Z. rewrite Z in Lk. discriminate.
      - rewrite <- (firstn_skipn (S k) f) in Df. now apply Forall_app in Df. }
    pose proof (reads_frac (tv_sec t <? 0) i (firstn (S k) f) Di Dk) as R. rewrite Lk in R. exact R.
Qed.

Lemma print_nonneg prec t : normalised t -> 0 <= tv_sec t ->
  let k := Nat.min 9 prec in reads (print prec t) (nanos t / 10 ^ Z.of_nat (9 - k)) k.
Proof.
  intros N P k. pose proof (print_reads prec t N) as H. cbn zeta in H. fold k in H.
  destruct (Z.ltb_spec (tv_sec t) 0); [lia|]. rewrite Z.abs_eq, Z.mul_1_l in H by lia. exact H.
Qed.

Lemma print_negative t : normalised t -> tv_sec t < 0 ->
  reads (print 9 t) (tv_sec t * 10 ^ 9 - tv_nsec t) 9.
Proof.
  intros N P. pose proof (print_reads 9 t N) as H. cbn zeta in H.
  destruct (Z.ltb_spec (tv_sec t) 0); [|lia]. cbn [Nat.min Nat.sub Z.of_nat] in H.
  rewrite Z.pow_0_r, Z.div_1_r in H.
  replace (tv_sec t * 10 ^ 9 - tv_nsec t) with (-1 * (Z.abs (tv_sec t) * 10 ^ 9 + tv_nsec t)) by lia. exact H.
Qed.
