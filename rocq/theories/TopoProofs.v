(** Basic geometry types. *)
From Coq Require Import Lia.
From Verif Require Import TopoModel TopoSpec.
Local Open Scope N_scope.

Lemma tail_zero x : N.shiftr x 1 = 0 <-> x <= 1.
Proof.
  rewrite <- N.div2_spec, N.div2_div. split; intros H.
  - apply N.div_small_iff in H; lia.
  - apply N.div_small. lia.
Qed.
Lemma number_cons s e : number (s :: e) = match s with Cone => N.double (number e) | Prism => N.succ_double (number e) end.
Proof. rewrite N.double_spec, N.succ_double_spec. destruct s; cbn [number]; lia. Qed.
Lemma ones_succ n : N.shiftl 1 (N.of_nat (S n)) - 1 = N.succ_double (N.shiftl 1 (N.of_nat n) - 1).
Proof.
  rewrite !N.shiftl_1_l, Nat2N.inj_succ, N.pow_succ_r', N.succ_double_spec.
  assert (0 < 2 ^ N.of_nat n) by (apply N.neq_0_lt_0, N.pow_nonzero; discriminate). lia.
Qed.
Lemma number_zero e : number e = 0 <-> e = all_cones (length e).
Proof.
  induction e as [|s e IH]; [cbn; tauto|]. rewrite number_cons. cbn [length all_cones repeat]. fold (all_cones (length e)). destruct s.
  - rewrite N.double_spec. split; intros H; [|injection H as H].
    + f_equal. apply IH. lia.
    + apply IH in H. lia.
  - rewrite N.succ_double_spec. split; intros H; [lia|discriminate].
Qed.
Lemma xor_double a b : N.lxor (N.double a) (N.succ_double b) = N.succ_double (N.lxor a b).
Proof. destruct a as [|p], b as [|q]; cbn; try reflexivity; now destruct (Pos.lxor p q). Qed.
Lemma xor_succ a b : N.lxor (N.succ_double a) (N.succ_double b) = N.double (N.lxor a b).
Proof. destruct a as [|p], b as [|q]; cbn; try reflexivity; now destruct (Pos.lxor p q). Qed.
Lemma number_ones e : N.lxor (number e) (N.shiftl 1 (N.of_nat (length e)) - 1) = 0 <-> e = all_prisms (length e).
Proof.
  induction e as [|s e IH]; [cbn; tauto|]. cbn [length]. rewrite number_cons, ones_succ. cbn [all_prisms repeat]. fold (all_prisms (length e)). destruct s.
  - rewrite xor_double, N.succ_double_spec. split; intros H; [lia|discriminate].
  - rewrite xor_succ, N.double_spec. split; intros H; [|injection H as H].
    + f_equal. apply IH. lia.
    + apply IH in H. lia.
Qed.
Lemma simplex_is e : is_simplex (number e) = true <-> same_element e (all_cones (length e)).
Proof.
  unfold is_simplex, same_element, all_cones. rewrite repeat_length, N.eqb_eq. destruct e as [|s e]; [cbn; tauto|].
  cbn [length repeat tl]. fold (all_cones (length e)). rewrite <- number_zero, number_cons.
  destruct s; destruct (number e) as [|p]; cbn; split; try tauto; try discriminate; intros [_ H]; discriminate.
Qed.
Lemma cube_is e : is_cube (length e) (number e) = true <-> same_element e (all_prisms (length e)).
Proof.
  unfold is_cube, same_element, all_prisms. rewrite repeat_length, N.eqb_eq, tail_zero. destruct e as [|s e]; [cbn; split; [tauto|lia]|].
  cbn [length repeat tl]. fold (all_prisms (length e)). rewrite <- number_ones, number_cons, ones_succ.
  destruct s; rewrite ?xor_double, ?xor_succ, ?N.succ_double_spec, ?N.double_spec; split; intros H; try (split; [reflexivity|]); try destruct H as [_ H]; lia.
Qed.
Lemma number_repeat_cone n : number (all_cones n) = 0.
Proof. apply number_zero. unfold all_cones. now rewrite repeat_length. Qed.
Lemma number_repeat_prism n : number (all_prisms n) = N.shiftl 1 (N.of_nat n) - 1.
Proof.
  induction n; [reflexivity|]. cbn [all_prisms repeat]. rewrite number_cons. fold (all_prisms n). now rewrite ones_succ, IHn.
Qed.
