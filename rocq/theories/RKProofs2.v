(** Order conditions of the shipped schemes. *)
From Verif Require Import RKModel RKSpec RKProofs.
Local Open Scope R_scope.

Ltac order_goal := unfold butcher, al_of_B, d; cbn; try lra.
Ltac orders :=
  unfold has_order, row_sums, order1, order2, order3, order4;
  repeat match goal with |- _ /\ _ => split end; try lia; try (intros; exfalso; lia); intros;
  match goal with
  | r : nat |- near _ _ _ => stage r; (apply near_eq; [lra|]); order_goal
  | |- _ /\ _ => repeat match goal with |- _ /\ _ => split end; (apply near_eq; [lra|]); order_goal
  | |- near _ _ _ => (apply near_eq; [lra|]); order_goal
  | |- _ => order_goal
  end.

Lemma theta_order1 th : has_order 1 (al_theta th) (d (one_step_theta th)) 0 1.
Proof. unfold al_theta. orders. Qed.
Lemma theta_order2 : has_order 1 (al_theta (1/2)) (d (one_step_theta (1/2))) 0 2.
Proof. unfold al_theta. orders. Qed.
Lemma heun_order2 : has_order 2 al_heun (d heun) 0 2.
Proof. unfold al_heun. orders. Qed.
Lemma shu3_order3 : has_order 3 al_shu3 (d shu3) 0 3.
Proof. unfold al_shu3. orders. Qed.
Lemma rk4_order4 : has_order 4 al_rk4 (d rk4) 0 4.
Proof. unfold al_rk4. orders. Qed.
Lemma alexander2_order2 : has_order 2 (al_of_B alexander2) (d alexander2) 0 2.
Proof. pose proof sqrt2_sq. orders; nra. Qed.
Lemma fractional_step_order2 : has_order 3 (al_frac (1 - 0.5 * sqrt 2)) (d fractional_step) 0 2.
Proof.
  pose proof sqrt2_sq as H. assert (H3 : sqrt 2 * sqrt 2 * sqrt 2 = 2 * sqrt 2) by (rewrite H; ring).
  unfold al_frac. orders; nra.
Qed.

Lemma theta_not_order2 th al : th <> 1/2 -> equivalent_to (one_step_theta th) al ->
  ~ has_order 1 al (d (one_step_theta th)) 0 2.
Proof.
  intros N E (_ & O1 & O2 & _). specialize (O2 ltac:(lia)).
  (* probe the method with u' = g(time): two right hand sides determine the weights *)
  assert (W : forall j0 : nat, (j0 <= 1)%nat -> al 1%nat j0 = al_theta th 1%nat j0).
  { intros j0 Hj.
    set (g := fun (tau : R) (_ : unit -> R) (_ : unit) => if Req_EM_T tau (INR j0) then 1 else 0).
    set (u := fun (r : nat) (_ : unit) => match r with O => 0 | _ => al_theta th 1%nat j0 end).
    assert (SV : stage_values (one_step_theta th) g 0 1 u).
    { apply (structured_equivalent _ _ (theta_structured th) (theta_reduces th)).
      intros r Hr k. cbn in Hr. assert (r = 1%nat) as -> by lia. unfold u, g. cbn [stages one_step_theta rsum].
      unfold d; cbn [D one_step_theta nth]. destruct j0 as [|[|]]; [| |lia]; cbn [INR];
        repeat match goal with |- context [Req_EM_T ?x ?y] => destruct (Req_EM_T x y); try lra end. }
    apply E in SV. specialize (SV 1%nat ltac:(cbn; lia) tt). unfold u, g in SV. cbn [stages one_step_theta rsum] in SV.
    unfold d in SV; cbn [D one_step_theta nth] in SV.
    destruct j0 as [|[|]]; [| |lia]; cbn [INR] in SV;
        repeat match type of SV with context [Req_EM_T ?x ?y] => destruct (Req_EM_T x y); try lra end. }
  unfold order2, near in O2. cbn [rsum] in O2. rewrite !W in O2 by lia. unfold d, al_theta, butcher in O2. cbn in O2.
  apply N. assert (H : (0 + (1 - th) * 0 + th * 1 - 1 / 2) = 0).
  { destruct (Req_dec (0 + (1 - th) * 0 + th * 1 - 1 / 2) 0) as [|H]; auto.
    pose proof (Rabs_pos_lt _ H). lra. }
  lra.
Qed.

(** ** Alexander 3: the Newton loop *)

Definition p3 (x : R) : R := x * (x * x - 3 * (x - 0.5)) - 1/6.

Lemma p3_continuous : continuity p3.
Proof. unfold p3. reg. Qed.

Lemma root_exists : { r | 0.4358665215 <= r <= 0.4358665216 /\ - p3 r = 0 }.
Proof.
  apply (IVT (fun x => - p3 x)).
  - apply continuity_opp, p3_continuous.
  - lra.
  - unfold p3; lra.
  - unfold p3; lra.
Qed.

Lemma newton_error r x : p3 r = 0 -> 0.43 <= x <= 0.44 -> 0.43 <= r <= 0.44 ->
  Rabs (newton_step x - r) <= 4 * (x - r) ^ 2.
Proof.
  intros P X Rr. unfold newton_step. fold (p3 x).
  set (q := 3 * x * (x - 2) + 1.5). assert (Q : q <= - 0.52) by (unfold q; nra).
  assert (E : x - p3 x / q - r = (x - r) ^ 2 * ((3 * x - 3 - (x - r)) / q)).
  { replace (p3 x) with (p3 x - p3 r) by lra.
    replace (p3 x - p3 r) with (q * (x - r) - (3 * x - 3) * (x - r) ^ 2 + (x - r) ^ 3) by (unfold p3, q; lra).
    field. lra. }
  rewrite E, Rabs_mult. rewrite (Rabs_right ((x - r) ^ 2)) by (apply Rle_ge, pow2_ge_0).
  rewrite Rmult_comm. apply Rmult_le_compat_r; [apply pow2_ge_0|].
  unfold Rdiv. rewrite Rabs_mult, Rabs_inv.
  rewrite (Rabs_left (3 * x - 3 - (x - r))) by lra. rewrite (Rabs_left q) by lra.
  apply Rmult_le_reg_r with (- q); [lra|]. rewrite Rmult_assoc, Rinv_l by lra. lra.
Qed.

Lemma Rabs_le_inv x y : Rabs x <= y -> - y <= x <= y.
Proof. intros H. pose proof (Rle_abs x). pose proof (Rle_abs (- x)). rewrite Rabs_Ropp in *. lra. Qed.

Lemma ten10 : / 10 ^ 10 = 1 / 10000000000.
Proof. field. Qed.
Lemma ten9 : / 10 ^ 9 = 1 / 1000000000.
Proof. field. Qed.

Lemma newton_converges r k : p3 r = 0 -> 0.4358665215 <= r <= 0.4358665216 ->
  4 * Rabs (Nat.iter k newton_step 0.4358665215 - r) <= (4 * / 10 ^ 10) ^ (2 ^ k).
Proof.
  intros P Rr. induction k as [|k IH].
  - change (Nat.iter 0 newton_step 0.4358665215) with 0.4358665215. change (2 ^ 0)%nat with 1%nat. rewrite pow_1, ten10. rewrite Rabs_left1 by lra. lra.
  - change (Nat.iter (S k) newton_step 0.4358665215) with (newton_step (Nat.iter k newton_step 0.4358665215)).
    set (x := Nat.iter k newton_step 0.4358665215) in *.
    assert (B : (4 * / 10 ^ 10) ^ (2 ^ k) <= 4 * / 10 ^ 10).
    { assert (H : (1 <= 2 ^ k)%nat) by (clear; induction k; cbn; lia).
      replace (2 ^ k)%nat with (S (2 ^ k - 1)) by lia. rewrite <- tech_pow_Rmult.
      rewrite <- (Rmult_1_r (4 * / 10 ^ 10)) at 3. apply Rmult_le_compat_l; [rewrite ?ten10; lra|].
      rewrite <- (pow1 (2 ^ k - 1)). apply pow_incr. rewrite ?ten10, ?ten9. lra. }
    assert (X : 0.43 <= x <= 0.44).
    { assert (Rabs (x - r) <= 0.001) by (rewrite ten10 in *; lra). apply Rabs_le_inv in H. lra. }
    pose proof (newton_error r x P X ltac:(lra)) as E.
    replace (2 ^ S k)%nat with (2 ^ k + 2 ^ k)%nat by (rewrite Nat.pow_succ_r'; lia). rewrite pow_add.
    assert (S1 : (x - r) ^ 2 = Rabs (x - r) * Rabs (x - r)).
    { rewrite <- Rabs_mult. rewrite Rabs_right; [ring|]. apply Rle_ge. pose proof (pow2_ge_0 (x - r)). lra. }
    rewrite S1 in E. pose proof (Rabs_pos (x - r)).
    set (Y := (4 * / 10 ^ 10) ^ (2 ^ k)) in *. nra.
Qed.


Lemma alexander3_alpha_close r : p3 r = 0 -> 0.4358665215 <= r <= 0.4358665216 ->
  4 * Rabs (alexander3_alpha - r) <= tiny.
Proof.
  intros P Rr. eapply Rle_trans; [apply (newton_converges r 10 P Rr)|].
  unfold tiny. apply pow_incr. rewrite ?ten10, ?ten9. lra.
Qed.

Lemma tiny_small : 0 <= tiny <= 0.001.
Proof.
  unfold tiny. split; [apply pow_le; rewrite ten9; lra|].
  assert (E : (2 ^ 10)%nat = S (2 ^ 10 - 1)) by reflexivity. rewrite E, <- tech_pow_Rmult.
  assert (H : 0 <= (/ 10 ^ 9) ^ (2 ^ 10 - 1) <= 1).
  { split; [apply pow_le; rewrite ten9; lra|]. rewrite <- (pow1 (2 ^ 10 - 1)). apply pow_incr. rewrite ?ten10, ?ten9. lra. }
  set (y := (/ 10 ^ 9) ^ (2 ^ 10 - 1)) in *. rewrite ten9. lra.
Qed.

Lemma alexander3_alpha_residual : 0.43 <= alexander3_alpha <= 0.44 /\ 4 * Rabs (p3 alexander3_alpha) <= tiny.
Proof.
  destruct root_exists as (r & Rr & P). assert (P' : p3 r = 0) by lra.
  pose proof (alexander3_alpha_close r P' Rr) as C. pose proof tiny_small.
  set (x := alexander3_alpha) in *. clearbody x.
  assert (X : 0.43 <= x <= 0.44).
  { assert (Rabs (x - r) <= 0.001) by lra. apply Rabs_le_inv in H0. lra. }
  split; auto.
  replace (p3 x) with ((x - r) * (x * x + x * r + r * r - 3 * (x + r) + 1.5)).
  2: { replace (p3 x) with (p3 x - p3 r) by lra. unfold p3. lra. }
  rewrite Rabs_mult. assert (Q : Rabs (x * x + x * r + r * r - 3 * (x + r) + 1.5) <= 1).
  { apply Rabs_le. nra. }
  pose proof (Rabs_pos (x - r)). nra.
Qed.

Lemma alexander3_order3 eps x : 0.43 <= x <= 0.44 -> 4 * Rabs (p3 x) <= eps ->
  has_order 3 (al_of_B (alexander3_of x)) (d (alexander3_of x)) eps 3.
Proof.
  intros X P. assert (E0 : 0 <= eps) by (pose proof (Rabs_pos (p3 x)); lra).
  assert (M : forall y z q, y - z = q * p3 x -> Rabs q <= 4 -> near eps y z).
  { intros y z q E Q. unfold near. rewrite E, Rabs_mult. pose proof (Rabs_pos (p3 x)). nra. }
  unfold has_order, row_sums, order1, order2, order3.
  repeat match goal with |- _ /\ _ => split end; try lia; try (intros; exfalso; lia).
  - order_goal.
  - order_goal.
  - intros r Hr. stage r; (apply near_eq; [lra|]); order_goal.
  - apply near_eq; [lra|]. order_goal.
  - intros _. apply (M _ _ (-3/4)); [unfold p3; order_goal|apply Rabs_le; lra].
  - intros _. split.
    + apply (M _ _ ((-18 * x + 2) / 16)); [unfold p3; order_goal|apply Rabs_le; lra].
    + apply (M _ _ (1 - 9/4 * x)); [unfold p3; order_goal|apply Rabs_le; lra].
Qed.

Lemma alexander3_shipped : has_order 3 (al_of_B alexander3) (d alexander3) tiny 3.
Proof. apply alexander3_order3; apply alexander3_alpha_residual. Qed.

Lemma alexander3_exact r : p3 r = 0 -> 0.43 <= r <= 0.44 ->
  has_order 3 (al_of_B (alexander3_of r)) (d (alexander3_of r)) 0 3.
Proof. intros P X. apply alexander3_order3; auto. rewrite P, Rabs_R0. lra. Qed.

(** ** Linear test equation *)

Ltac stages_of Hu n :=
  match n with
  | O => idtac
  | S ?m => let H := fresh "E" in
            pose proof (Hu n ltac:(cbn; lia) tt) as H; unfold a, b, d in H; cbn in H; stages_of Hu m
  end.

Lemma theta_linear1 th : linear_order 1 (one_step_theta th).
Proof.
  exists [1; 1 - th], [1; - th], [th]. split; [cbn; lra|]. split.
  - intros z. unfold exp_taylor. cbn. field.
  - intros l t h u Hu. stages_of Hu 1%nat. cbn. nra.
Qed.
Lemma theta_linear2 : linear_order 2 (one_step_theta (1/2)).
Proof.
  exists [1; 1/2], [1; -(1/2)], [1/4]. split; [cbn; lra|]. split.
  - intros z. unfold exp_taylor. cbn. field.
  - intros l t h u Hu. stages_of Hu 1%nat. cbn. nra.
Qed.
Lemma heun_linear : linear_order 2 heun.
Proof.
  exists [1; 1; 1/2], [1], []. split; [cbn; lra|]. split.
  - intros z. unfold exp_taylor. cbn. field.
  - intros l t h u Hu. stages_of Hu 2%nat. cbn. 
    assert (U1 : u 1%nat tt = u 0%nat tt + h * l * u 0%nat tt) by nra.
    assert (U2 : u 2%nat tt = 1/2 * u 0%nat tt + 1/2 * u 1%nat tt + 1/2 * (h * l) * u 1%nat tt) by nra.
    rewrite U2, U1. field.
Qed.
