(** Proofs about finite element maps: sizes. *)
From Verif Require Import Common CommonFacts FemModel FemSpec.

Lemma length_flat_map_const {A B} (f : A -> list B) (h : A -> nat) l : (forall a, In a l -> length (f a) = h a) -> length (flat_map f l) = sum_nat (map h l).
Proof. induction l as [|a l IH]; cbn [flat_map map]; intros H; [reflexivity|]. rewrite app_length, H by (left; reflexivity). cbn. rewrite IH; [reflexivity|]. intros x Hx. apply H. right. exact Hx. Qed.

Lemma monomials_succ d k : length (monomials (S d) k) = sum_nat (map (fun i => length (monomials d (k - i))) (seq 0 (S k))).
Proof. cbn [monomials]. apply length_flat_map_const. intros i _. apply map_length. Qed.

Lemma monomials_step d k : length (monomials (S d) (S k)) = length (monomials d (S k)) + length (monomials (S d) k).
Proof.
  rewrite !monomials_succ. replace (seq 0 (S (S k))) with (0 :: map S (seq 0 (S k))) by (rewrite seq_shift; reflexivity).
  cbn [map]. rewrite map_map. cbn [sum_nat fold_right]. f_equal.
Qed.
Lemma monomials_0 d : length (monomials d 0) = 1.
Proof. induction d as [|d IH]; [reflexivity|]. rewrite monomials_succ. cbn. rewrite IH. reflexivity. Qed.

Lemma count_1 k : length (monomials 1 k) = k + 1.
Proof. induction k as [|k IH]; [reflexivity|]. rewrite monomials_step, IH. cbn [monomials length]. lia. Qed.
Lemma count_2 k : 2 * length (monomials 2 k) = (k + 1) * (k + 2).
Proof. induction k as [|k IH]; [reflexivity|]. rewrite monomials_step, count_1. nia. Qed.
Lemma count_3 k : 6 * length (monomials 3 k) = (k + 1) * (k + 2) * (k + 3).
Proof. induction k as [|k IH]; [reflexivity|]. rewrite monomials_step. pose proof (count_2 (S k)). nia. Qed.
Lemma sum_const c m s : sum_nat (map (fun _ : nat => c) (seq s m)) = m * c.
Proof. revert s. induction m as [|m IH]; intros s; [reflexivity|]. cbn [seq map sum_nat fold_right]. fold (sum_nat (map (fun _ : nat => c) (seq (S s) m))). rewrite IH. reflexivity. Qed.
Lemma count_tensor d k : length (tensor d k) = (k + 1) ^ d.
Proof.
  induction d as [|d IH]; [reflexivity|]. cbn [tensor]. rewrite (length_flat_map_const _ (fun _ => (k + 1) ^ d)); [|intros; rewrite map_length; exact IH].
  rewrite sum_const. replace (S k) with (k + 1) by lia. reflexivity.
Qed.

Local Open Scope N_scope.
Lemma usub_ok a b : b <= a -> a < w32 -> usub a b = a - b.
Proof. intros. unfold usub, w32 in *. replace (a + 2 ^ 32 - b) with ((a - b) + 1 * 2 ^ 32) by lia. rewrite N.mod_add by lia. apply N.mod_small. lia. Qed.
Lemma uadd_ok a b : a + b < w32 -> uadd a b = a + b.
Proof. intros. apply N.mod_small; assumption. Qed.
Lemma umul_ok a b : a * b < w32 -> umul a b = a * b.
Proof. intros. apply N.mod_small; assumption. Qed.
Local Close Scope N_scope.

(** *** Simplices *)
Lemma of_nat_if (b : bool) (x y : nat) : (if b then N.of_nat x else N.of_nat y) = N.of_nat (if b then x else y).
Proof. destruct b; reflexivity. Qed.

Section Sizes.
  Local Open Scope N_scope.
  Variable K : N.
  Lemma pk1_0 : fm_size (pk1 K) (type_of Simplex 0) = if 0 <? K then 1 else 0. Proof. reflexivity. Qed.
  Lemma pk1_1 : fm_size (pk1 K) (type_of Simplex 1) = if 0 <? K then usub K 1 else 1. Proof. reflexivity. Qed.
  Lemma pk2_0 : fm_size (pk2 K) (type_of Simplex 0) = if 0 <? K then 1 else 0. Proof. reflexivity. Qed.
  Lemma pk2_1 : fm_size (pk2 K) (type_of Simplex 1) = if 1 <? K then usub K 1 else 0. Proof. reflexivity. Qed.
  Lemma pk2_2 : fm_size (pk2 K) (type_of Simplex 2) = if 2 <? K then umul (usub K 2) (usub K 1) / 2 else if K =? 0 then 1 else 0. Proof. reflexivity. Qed.
  Lemma pk3_0 : fm_size (pk3 K) (type_of Simplex 0) = if 0 <? K then 1 else 0. Proof. reflexivity. Qed.
  Lemma pk3_1 : fm_size (pk3 K) (type_of Simplex 1) = if 1 <? K then usub K 1 else 0. Proof. reflexivity. Qed.
  Lemma pk3_2 : fm_size (pk3 K) (type_of Simplex 2) = if 2 <? K then umul (usub K 2) (usub K 1) / 2 else 0. Proof. reflexivity. Qed.
  Lemma pk3_3 : fm_size (pk3 K) (type_of Simplex 3) = if K =? 0 then 1 else umul (umul (usub K 3) (usub K 2)) (usub K 1) / 6. Proof. reflexivity. Qed.
End Sizes.

(** The dofs of Pk in the interior of faces are the nodes of smaller simplices. *)
Lemma inner_triangle K : (2 < K)%N -> (K * K < w32)%N -> (umul (usub K 2) (usub K 1) / 2 = N.of_nat (length (monomials 2 (N.to_nat K - 3))))%N.
Proof.
  intros H B. unfold w32 in B. rewrite !usub_ok by (unfold w32; nia). rewrite umul_ok by (unfold w32; nia).
  pose proof (count_2 (N.to_nat K - 3)) as E. replace ((K - 2) * (K - 1))%N with (N.of_nat (length (monomials 2 (N.to_nat K - 3))) * 2)%N; [apply N.div_mul; lia|].
  replace (N.to_nat K - 3 + 1) with (N.to_nat K - 2) in E by lia. replace (N.to_nat K - 3 + 2) with (N.to_nat K - 1) in E by lia.
  replace (K - 2)%N with (N.of_nat (N.to_nat K - 2)) by lia. replace (K - 1)%N with (N.of_nat (N.to_nat K - 1)) by lia. lia.
Qed.
Lemma inner_tetrahedron K : (3 < K)%N -> (K * K * K < w32)%N ->
  (umul (umul (usub K 3) (usub K 2)) (usub K 1) / 6 = N.of_nat (length (monomials 3 (N.to_nat K - 4))))%N.
Proof.
  intros H B. unfold w32 in B. assert (K * K < 2 ^ 32)%N by nia. rewrite !usub_ok by (unfold w32; nia). rewrite (umul_ok (K - 3)) by (unfold w32; nia). rewrite umul_ok by (unfold w32; nia).
  pose proof (count_3 (N.to_nat K - 4)) as E. replace ((K - 3) * (K - 2) * (K - 1))%N with (N.of_nat (length (monomials 3 (N.to_nat K - 4))) * 6)%N; [apply N.div_mul; lia|].
  replace (N.to_nat K - 4 + 1) with (N.to_nat K - 3) in E by lia. replace (N.to_nat K - 4 + 2) with (N.to_nat K - 2) in E by lia. replace (N.to_nat K - 4 + 3) with (N.to_nat K - 1) in E by lia.
  replace (K - 3)%N with (N.of_nat (N.to_nat K - 3)) by lia. replace (K - 2)%N with (N.of_nat (N.to_nat K - 2)) by lia. replace (K - 1)%N with (N.of_nat (N.to_nat K - 1)) by lia. lia.
Qed.

Lemma describes_pk1 k : (N.of_nat k + 1 < 2 ^ 32)%N -> describes Simplex 1 (pk1 (N.of_nat k)) (length (monomials 1 k)).
Proof.
  intros Hk. rewrite count_1. split.
  - reflexivity.
  - unfold collected. cbn [seq map fold_right]. rewrite pk1_0, pk1_1. change (subs Simplex 1 0) with 2. change (subs Simplex 1 1) with 1.
    destruct (N.ltb_spec 0 (N.of_nat k)); [rewrite usub_ok by (unfold w32; lia); lia|lia].
  - intros c Hc. assert (c = 0 \/ c = 1) as [-> | ->] by lia; cbn [Nat.sub]; [rewrite pk1_1|rewrite pk1_0].
    + change (fm_has (pk1 (N.of_nat k)) (N.of_nat 0)) with (negb (N.of_nat k =? 1)%N).
      destruct (N.eqb_spec (N.of_nat k) 1) as [E|E]; destruct (N.ltb_spec 0 (N.of_nat k)); cbn [negb]; try rewrite usub_ok by (unfold w32; lia); split; intros; try discriminate; try reflexivity; lia.
    + change (fm_has (pk1 (N.of_nat k)) (N.of_nat 1)) with (0 <? N.of_nat k)%N.
      destruct (N.ltb_spec 0 (N.of_nat k)); split; intros; try discriminate; try reflexivity; lia.
  - change (fm_max (pk1 (N.of_nat k))) with (uadd (N.of_nat k) 1). rewrite uadd_ok by (unfold w32; lia). lia.
Qed.

Lemma describes_pk2 k : (N.of_nat ((k + 1) * (k + 2)) < 2 ^ 32)%N -> describes Simplex 2 (pk2 (N.of_nat k)) (length (monomials 2 k)).
Proof.
  intros Hk. pose proof (count_2 k) as C. set (K := N.of_nat k) in *.
  assert (Hp : (N.of_nat ((k + 1) * (k + 2)) = (K + 1) * (K + 2))%N) by (unfold K; lia). rewrite Hp in Hk.
  assert (Hk2 : (K * K < w32)%N) by (unfold w32; nia). assert (Hk1 : (K + 2 < w32)%N) by (unfold w32; nia).
  assert (H3 : (2 < K)%N -> 0 < length (monomials 2 (k - 3))) by (intros _; pose proof (count_2 (k - 3)); nia).
  assert (E2 : (2 < K)%N -> fm_size (pk2 K) (type_of Simplex 2) = N.of_nat (length (monomials 2 (k - 3)))).
  { intros H. rewrite pk2_2. apply N.ltb_lt in H as Hb. rewrite Hb, inner_triangle by assumption. repeat f_equal. unfold K. lia. }
  split.
  - reflexivity.
  - unfold collected. cbn [seq map fold_right]. change (subs Simplex 2 0) with 3. change (subs Simplex 2 1) with 3. change (subs Simplex 2 2) with 1.
    destruct (N.lt_ge_cases 2 K) as [L|L].
    + rewrite (E2 L), pk2_0, pk2_1. destruct (N.ltb_spec 0 K); [|lia]. destruct (N.ltb_spec 1 K); [|lia]. rewrite usub_ok by (unfold w32 in *; lia).
      pose proof (count_2 (k - 3)) as C3. assert (exists j, k = j + 3) as [j ->] by (exists (k - 3); unfold K in L; lia).
      replace (j + 3 - 3) with j in * by lia. unfold K. nia.
    + rewrite pk2_0, pk2_1, pk2_2. assert (k = 0 \/ k = 1 \/ k = 2) as [->|[->| ->]] by (unfold K in L; lia); reflexivity.
  - intros c Hc. assert (c = 0 \/ c = 1 \/ c = 2) as [-> | [-> | ->]] by lia; cbn [Nat.sub].
    + change (fm_has (pk2 K) (N.of_nat 0)) with ((2 <? K) || (K =? 0))%N. destruct (N.ltb_spec 2 K) as [L|L].
      * rewrite E2 by assumption. specialize (H3 L). cbn. split; [lia|reflexivity].
      * rewrite pk2_2. apply N.ltb_ge in L as L'. rewrite L'. destruct (N.eqb_spec K 0); cbn; split; intros; try discriminate; try reflexivity; lia.
    + rewrite pk2_1. change (fm_has (pk2 K) (N.of_nat 1)) with (1 <? K)%N.
      destruct (N.ltb_spec 1 K); [rewrite usub_ok by (unfold w32 in *; lia)|]; split; intros; try discriminate; try reflexivity; lia.
    + rewrite pk2_0. change (fm_has (pk2 K) (N.of_nat 2)) with (0 <? K)%N. destruct (N.ltb_spec 0 K); split; intros; try discriminate; try reflexivity; lia.
  - change (fm_max (pk2 K)) with (umul (uadd K 1) (uadd K 2) / 2)%N. rewrite !uadd_ok by (unfold w32 in *; lia). rewrite umul_ok by exact Hk.
    replace ((K + 1) * (K + 2))%N with (N.of_nat (length (monomials 2 k)) * 2)%N by lia. rewrite N.div_mul; lia.
Qed.

Lemma describes_pk3 k : (N.of_nat ((k + 1) * (k + 2) * (k + 3)) < 2 ^ 32)%N -> describes Simplex 3 (pk3 (N.of_nat k)) (length (monomials 3 k)).
Proof.
  intros Hk. pose proof (count_3 k) as C. set (K := N.of_nat k) in *.
  assert (Hp : (N.of_nat ((k + 1) * (k + 2) * (k + 3)) = (K + 1) * (K + 2) * (K + 3))%N) by (unfold K; lia). rewrite Hp in Hk.
  assert (Hk3 : (K * K * K < w32)%N) by (unfold w32; nia). assert (Hk2 : ((K + 1) * (K + 2) < w32)%N) by (unfold w32; nia). assert (Hkk : (K * K < w32)%N) by (unfold w32 in *; nia).
  assert (Hk1 : (K + 3 < w32)%N) by (unfold w32 in *; nia).
  assert (P2 : 0 < length (monomials 2 (k - 3))) by (pose proof (count_2 (k - 3)); nia).
  assert (P3 : 0 < length (monomials 3 (k - 4))) by (pose proof (count_3 (k - 4)); nia).
  assert (E2 : (2 < K)%N -> fm_size (pk3 K) (type_of Simplex 2) = N.of_nat (length (monomials 2 (k - 3)))).
  { intros H. rewrite pk3_2. apply N.ltb_lt in H as Hb. rewrite Hb, inner_triangle by assumption. repeat f_equal. unfold K. lia. }
  assert (E3 : (3 < K)%N -> fm_size (pk3 K) (type_of Simplex 3) = N.of_nat (length (monomials 3 (k - 4)))).
  { intros H. rewrite pk3_3. destruct (N.eqb_spec K 0); [lia|]. rewrite inner_tetrahedron by assumption. repeat f_equal. unfold K. lia. }
  assert (S3 : (K <= 3)%N -> k = 0 \/ k = 1 \/ k = 2 \/ k = 3) by (unfold K; lia).
  split.
  - reflexivity.
  - unfold collected. cbn [seq map fold_right]. change (subs Simplex 3 0) with 4. change (subs Simplex 3 1) with 6. change (subs Simplex 3 2) with 4. change (subs Simplex 3 3) with 1.
    destruct (N.lt_ge_cases 3 K) as [L|L].
    + rewrite (E3 L), E2, pk3_0, pk3_1 by lia. destruct (N.ltb_spec 0 K); [|lia]. destruct (N.ltb_spec 1 K); [|lia]. rewrite usub_ok by (unfold w32 in *; lia).
      pose proof (count_2 (k - 3)) as C2. pose proof (count_3 (k - 4)) as C3. assert (exists j, k = j + 4) as [j ->] by (exists (k - 4); unfold K in L; lia).
      replace (j + 4 - 4) with j in * by lia. replace (j + 4 - 3) with (j + 1) in * by lia. unfold K. nia.
    + rewrite pk3_0, pk3_1, pk3_2, pk3_3. destruct (S3 L) as [->|[->|[->| ->]]]; reflexivity.
  - intros c Hc. assert (c = 0 \/ c = 1 \/ c = 2 \/ c = 3) as [-> | [-> | [-> | ->]]] by lia; cbn [Nat.sub].
    + change (fm_has (pk3 K) (N.of_nat 0)) with ((K =? 0) || (3 <? K))%N. destruct (N.ltb_spec 3 K) as [L|L].
      * rewrite E3 by assumption. rewrite orb_true_r. split; [lia|reflexivity].
      * rewrite pk3_3. destruct (S3 L) as [->|[->|[->| ->]]]; vm_compute; split; intros; try discriminate; reflexivity.
    + change (fm_has (pk3 K) (N.of_nat 1)) with (2 <? K)%N. destruct (N.ltb_spec 2 K) as [L|L].
      * rewrite E2 by assumption. split; [lia|reflexivity].
      * rewrite pk3_2. apply N.ltb_ge in L as L'. rewrite L'. split; intros; try discriminate; lia.
    + rewrite pk3_1. change (fm_has (pk3 K) (N.of_nat 2)) with (1 <? K)%N.
      destruct (N.ltb_spec 1 K); [rewrite usub_ok by (unfold w32 in *; lia)|]; split; intros; try discriminate; try reflexivity; lia.
    + rewrite pk3_0. change (fm_has (pk3 K) (N.of_nat 3)) with (0 <? K)%N. destruct (N.ltb_spec 0 K); split; intros; try discriminate; try reflexivity; lia.
  - change (fm_max (pk3 K)) with (umul (umul (uadd K 1) (uadd K 2)) (uadd K 3) / 6)%N. rewrite !uadd_ok by (unfold w32 in *; lia). rewrite (umul_ok (K + 1)) by exact Hk2. rewrite umul_ok by exact Hk.
    replace ((K + 1) * (K + 2) * (K + 3))%N with (N.of_nat (length (monomials 3 k)) * 6)%N by lia. rewrite N.div_mul; lia.
Qed.

Lemma describes_pk1d k : describes Simplex 1 (pk1d (N.of_nat k)) (length (monomials 1 k)).
Proof.
  rewrite count_1.
  assert (E0 : fm_size (pk1d (N.of_nat k)) (type_of Simplex 0) = if (0 <? N.of_nat k)%N then 1%N else 0%N) by reflexivity.
  assert (E1 : fm_size (pk1d (N.of_nat k)) (type_of Simplex 1) = if (0 <? N.of_nat k)%N then (N.of_nat k - 1)%N else 1%N) by reflexivity.
  split.
  - reflexivity.
  - unfold collected. cbn [seq map fold_right]. rewrite E0, E1. change (subs Simplex 1 0) with 2. change (subs Simplex 1 1) with 1. destruct (N.ltb_spec 0 (N.of_nat k)); lia.
  - intros c Hc. assert (c = 0 \/ c = 1) as [-> | ->] by lia; cbn [Nat.sub]; [rewrite E1|rewrite E0].
    + change (fm_has (pk1d (N.of_nat k)) (N.of_nat 0)) with (negb (N.of_nat k =? 1)%N).
      destruct (N.eqb_spec (N.of_nat k) 1) as [E|E]; destruct (N.ltb_spec 0 (N.of_nat k)); cbn [negb]; split; intros; try discriminate; try reflexivity; lia.
    + change (fm_has (pk1d (N.of_nat k)) (N.of_nat 1)) with (0 <? N.of_nat k)%N.
      destruct (N.ltb_spec 0 (N.of_nat k)); split; intros; try discriminate; try reflexivity; lia.
  - change (fm_max (pk1d (N.of_nat k))) with (N.of_nat k + 1)%N. lia.
Qed.

(** *** Cubes *)
Lemma iter_pow d k : N.iter (N.of_nat d) (fun r => (r * (k + 1))%N) 1%N = ((k + 1) ^ N.of_nat d)%N.
Proof.
  induction d as [|d IH]; [reflexivity|]. rewrite Nat2N.inj_succ, N.iter_succ, IH, N.pow_succ_r'. lia.
Qed.
Lemma cube_type e e' : gt_eqb (type_of Cube e) (type_of Cube e') = (e =? e').
Proof.
  unfold gt_eqb, type_of, cube. cbn [g_none g_dim g_id]. cbn [Bool.eqb orb andb]. destruct (Nat.eqb_spec e e') as [->|H].
  - rewrite !N.eqb_refl. reflexivity.
  - destruct (N.eqb_spec (N.of_nat e) (N.of_nat e')); [lia|reflexivity].
Qed.
Lemma binom_gt n k : n < k -> binom n k = 0.
Proof. revert k. induction n as [|n IH]; intros [|k] H; cbn; try lia. rewrite !IH by lia. reflexivity. Qed.
Lemma binom_0 n : binom n 0 = 1. Proof. destruct n; reflexivity. Qed.
(** The sum over the faces of a cube: 2^d + ... = 3^d. *)
Definition nfaces (d m : nat) : nat := sum_nat (map (fun e => subs Cube d e) (seq 0 m)).
Lemma nfaces_S d m : nfaces d (S m) = nfaces d m + subs Cube d m.
Proof. unfold nfaces. rewrite seq_S, map_app, sum_nat_app. cbn. lia. Qed.
Lemma subs_step d e : e <= d -> subs Cube (S d) (S e) = subs Cube d e + 2 * subs Cube d (S e).
Proof.
  intros H. unfold subs. cbn [binom Nat.sub]. destruct (Nat.eq_dec e d) as [->|Hn].
  - rewrite (binom_gt d (S d)) by lia. lia.
  - replace (d - e) with (S (d - S e)) by lia. cbn [Nat.pow]. nia.
Qed.
Lemma nfaces_step d m : m <= S d -> nfaces (S d) (S m) = nfaces d m + 2 * nfaces d (S m).
Proof.
  induction m as [|m IH]; intros H.
  - rewrite !nfaces_S. unfold nfaces, subs. cbn [seq map sum_nat fold_right]. rewrite !binom_0, !Nat.sub_0_r. cbn [Nat.pow]. lia.
  - rewrite nfaces_S, IH by lia. rewrite (nfaces_S d (S m)), (nfaces_S d m), subs_step by lia. lia.
Qed.
Lemma nfaces_all d : nfaces d (S d) = 3 ^ d.
Proof.
  induction d as [|d IH]; [reflexivity|]. rewrite nfaces_step by lia. rewrite (nfaces_S d (S d)), IH. unfold subs at 1. rewrite binom_gt by lia. cbn [Nat.pow]. lia.
Qed.

Lemma fold_N_nat {A} (f : A -> nat) l : fold_right N.add 0%N (map (fun a => N.of_nat (f a)) l) = N.of_nat (sum_nat (map f l)).
Proof. induction l as [|a l IH]; cbn; [reflexivity|]. rewrite IH. unfold sum_nat. lia. Qed.

Lemma describes_q1 d : describes Cube d (qk (N.of_nat d) 1) (length (tensor d 1)).
Proof.
  assert (E : forall e, fm_size (qk (N.of_nat d) 1) (type_of Cube e) = if e =? 0 then 1%N else 0%N).
  { intros e. change (fm_size (qk (N.of_nat d) 1) (type_of Cube e)) with (if gt_eqb (type_of Cube e) (type_of Cube 0) then 1%N else 0%N). rewrite cube_type. reflexivity. }
  rewrite count_tensor. cbn [Nat.add]. split.
  - reflexivity.
  - unfold collected. erewrite map_ext; [|intros e; rewrite E; reflexivity]. cbn [seq map fold_right].
    assert (Z : forall m s, 0 < s -> fold_right N.add 0%N (map (fun e => (N.of_nat (subs Cube d e) * (if Nat.eqb e 0 then 1 else 0))%N) (seq s m)) = 0%N).
    { induction m as [|m IH]; intros s Hs; [reflexivity|]. cbn [seq map fold_right]. rewrite IH by lia. destruct (Nat.eqb_spec s 0); lia. }
    rewrite Z by lia. unfold subs. rewrite binom_0, Nat.sub_0_r. cbn [Nat.eqb]. lia.
  - intros c Hc. rewrite E. change (fm_has (qk (N.of_nat d) 1) (N.of_nat c)) with (N.of_nat c =? N.of_nat d)%N.
    destruct (N.eqb_spec (N.of_nat c) (N.of_nat d)); destruct (Nat.eqb_spec (d - c) 0); split; intros; try discriminate; try reflexivity; lia.
  - change (fm_max (qk (N.of_nat d) 1)) with (N.iter (N.of_nat d) (fun r => (r * (1 + 1))%N) 1%N). rewrite iter_pow. rewrite Nat2N.inj_pow. reflexivity.
Qed.
Lemma describes_q2 d : describes Cube d (qk (N.of_nat d) 2) (length (tensor d 2)).
Proof.
  assert (E : forall gt, fm_size (qk (N.of_nat d) 2) gt = 1%N) by reflexivity.
  rewrite count_tensor. cbn [Nat.add]. split.
  - reflexivity.
  - unfold collected. erewrite map_ext; [|intros e; rewrite E, N.mul_1_r; reflexivity]. rewrite fold_N_nat. transitivity (N.of_nat (nfaces d (S d))); [reflexivity|rewrite nfaces_all; reflexivity].
  - intros c Hc. rewrite E. split; intros; [reflexivity|]. reflexivity.
  - change (fm_max (qk (N.of_nat d) 2)) with (N.iter (N.of_nat d) (fun r => (r * (2 + 1))%N) 1%N). rewrite iter_pow. rewrite Nat2N.inj_pow. reflexivity.
Qed.

(** *** Elements with dofs in the cells only *)
Lemma simplex_type e e' : gt_eqb (type_of Simplex e) (type_of Simplex e') = (e =? e').
Proof.
  unfold gt_eqb, type_of, simplex. cbn [g_none g_dim g_id Bool.eqb orb andb]. rewrite N.eqb_refl, andb_true_r.
  destruct (Nat.eqb_spec e e') as [->|H]; [apply N.eqb_refl|]. apply N.eqb_neq. lia.
Qed.
Lemma subs_cell sh d : subs sh d d = 1.
Proof.
  assert (B : forall n, binom n n = 1) by (induction n as [|n IH]; [reflexivity|]; cbn [binom]; rewrite IH, binom_gt by lia; reflexivity).
  destruct sh; unfold subs; [apply B|rewrite Nat.sub_diag, B; reflexivity].
Qed.
Lemma describes_in_cells sh d n : 0 < n -> describes sh d (in_cells (N.of_nat d) (type_of sh d) (N.of_nat n)) n.
Proof.
  intros Hn.
  assert (E : forall e, fm_size (in_cells (N.of_nat d) (type_of sh d) (N.of_nat n)) (type_of sh e) = if e =? d then N.of_nat n else 0%N).
  { intros e. change (fm_size (in_cells (N.of_nat d) (type_of sh d) (N.of_nat n)) (type_of sh e)) with (if gt_eqb (type_of sh e) (type_of sh d) then N.of_nat n else 0%N).
    destruct sh; [rewrite simplex_type|rewrite cube_type]; reflexivity. }
  split.
  - reflexivity.
  - unfold collected. erewrite map_ext; [|intros e; rewrite E; reflexivity]. rewrite seq_S, map_app. rewrite fold_right_app. cbn [map fold_right Nat.add]. rewrite Nat.eqb_refl, subs_cell.
    assert (Z : forall m s a, s + m <= d -> fold_right N.add a (map (fun e => (N.of_nat (subs sh d e) * (if Nat.eqb e d then N.of_nat n else 0))%N) (seq s m)) = a).
    { induction m as [|m IH]; intros s a Hs; [reflexivity|]. cbn [seq map fold_right]. rewrite IH by lia. destruct (Nat.eqb_spec s d); lia. }
    rewrite Z by lia. lia.
  - intros c Hc. rewrite E. change (fm_has (in_cells (N.of_nat d) (type_of sh d) (N.of_nat n)) (N.of_nat c)) with (N.of_nat c =? 0)%N.
    destruct (N.eqb_spec (N.of_nat c) 0); destruct (Nat.eqb_spec (d - c) d); split; intros; try discriminate; try reflexivity; lia.
  - cbn [in_cells fm_max]. lia.
Qed.

Lemma describes_power sh d m n p : 0 < p -> describes sh d m n -> describes sh d (power (N.of_nat p) m) (p * n).
Proof.
  intros Hp [D S H M]. split.
  - exact D.
  - unfold collected in *. assert (Q : forall l, fold_right N.add 0%N (map (fun e => (N.of_nat (subs sh d e) * fm_size (power (N.of_nat p) m) (type_of sh e))%N) l) =
      (N.of_nat p * fold_right N.add 0%N (map (fun e => (N.of_nat (subs sh d e) * fm_size m (type_of sh e))%N) l))%N).
    { induction l as [|e l IH]; cbn [map fold_right]; [lia|]. rewrite IH. cbn [power fm_size]. lia. }
    rewrite Q, S. lia.
  - intros c Hc. cbn [power fm_has fm_size]. rewrite (H c Hc). nia.
  - cbn [power fm_max]. nia.
Qed.

(** *** Block sizes *)
Definition uniform (size : gtype -> N) (l : list gtype) (r : option N) : Prop :=
  match r with
  | Some s => (s = 0%N /\ forall g, In g l -> size g = 0%N) \/ ((0 < s)%N /\ (exists g, In g l /\ size g = s) /\ forall g, In g l -> size g = 0%N \/ size g = s)
  | None => exists g g', In g l /\ In g' l /\ (0 < size g)%N /\ (0 < size g')%N /\ size g <> size g'
  end.
Lemma uniform_more size l l' g g' : In g l -> In g' l -> (0 < size g)%N -> (0 < size g')%N -> size g <> size g' -> uniform size (l ++ l') None.
Proof. intros. exists g, g'. repeat split; try (apply in_or_app; left); assumption. Qed.
Lemma block_visit_spec size l : uniform size l (fold_left (block_visit size) l (Some 0%N)).
Proof.
  induction l as [|g l IH] using rev_ind; [left; split; [reflexivity|intros g []]|].
  rewrite fold_left_app. cbn [fold_left]. destruct (fold_left (block_visit size) l (Some 0%N)) as [s|]; cbn [block_visit].
  - destruct (N.ltb_spec 0 (size g)) as [P|P].
    + destruct IH as [[-> Z]|(Ps & (g0 & G1 & G2) & U)].
      * cbn. right. split; [exact P|]. split; [exists g; split; [apply in_or_app; right; left; reflexivity|reflexivity]|].
        intros x Hx. apply in_app_or in Hx as [Hx|[<-|[]]]; [left; apply Z, Hx|right; reflexivity].
      * apply N.ltb_lt in Ps as Pb. rewrite Pb. cbn [andb]. destruct (N.eqb_spec s (size g)) as [E|E]; cbn [negb].
        -- right. split; [exact P|]. split; [exists g; split; [apply in_or_app; right; left; reflexivity|reflexivity]|].
           intros x Hx. apply in_app_or in Hx as [Hx|[<-|[]]]; [|right; reflexivity]. destruct (U x Hx); [left|right; congruence]; assumption.
        -- exists g0, g. rewrite G2. split; [apply in_or_app; left; exact G1|]. split; [apply in_or_app; right; left; reflexivity|]. split; [exact Ps|]. split; [exact P|exact E].
    + assert (E : size g = 0%N) by lia. destruct IH as [[-> Z]|(Ps & (g0 & G1 & G2) & U)].
      * left. split; [reflexivity|]. intros x Hx. apply in_app_or in Hx as [Hx|[<-|[]]]; [apply Z, Hx|exact E].
      * right. split; [exact Ps|]. split; [exists g0; split; [apply in_or_app; left; exact G1|exact G2]|].
        intros x Hx. apply in_app_or in Hx as [Hx|[<-|[]]]; [apply U, Hx|left; exact E].
  - destruct IH as (a & b & A & B & A1 & B1 & Ne). exact (uniform_more size l [g] a b A B A1 B1 Ne).
Qed.
Lemma block_types_all dim id d : (id < 2 ^ N.of_nat d)%N -> d <= dim -> In (mkgt false id (N.of_nat d)) (block_types dim).
Proof.
  intros Hi Hd. unfold block_types. apply in_flat_map. exists d. split; [apply in_seq; lia|]. right. apply in_map_iff. exists (N.to_nat id). split; [f_equal; lia|].
  apply in_seq. split; [lia|]. assert (2 ^ d <= 2 ^ dim) by (apply Nat.pow_le_mono_r; lia).
  assert (N.to_nat id < 2 ^ d); [|lia]. rewrite <- (Nat2N.id (2 ^ d)), Nat2N.inj_pow. change (N.of_nat 2) with 2%N. lia.
Qed.
