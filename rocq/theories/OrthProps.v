(** Properties C103 - C106: the L2-orthonormal polynomial bases. *)
From Coq Require Import Reals Lra Factorial.
From Verif Require Import Common CommonFacts ParSpec ParProofs2 DdProofs OrthModel OrthSpec OrthProofs OrthProofs2 OrthProofs3 OrthProofs4.
Local Arguments rsum : simpl never.
Local Ltac mlia := unfold multiindex in *; lia.

(** ** C103: the monomials of the basis *)

(** C103: a constructed basis enumerates each monomial of the space exactly once. *)
Theorem c103_indices b k d l : d <> 0 -> basis_indices b k d = Ok l ->
  NoDup l /\ (forall a, In a l <-> in_space b d k a) /\ length l = traits_size b k d.
Proof.
  intros D H. apply basis_indices_inv in H; auto. destruct H as [-> K].
  split; [apply indices_nodup|]. split; [intros; now apply indices_in | now apply indices_length].
Qed.
Print Assumptions c103_indices.

(** C103: the enumeration succeeds for every degree (total degree at most 24), and throws beyond. *)
Theorem c103_total b k d : d <> 0 -> (b = Pk -> k <= 24) -> exists l, basis_indices b k d = Ok l.
Proof. intros D K. rewrite basis_indices_ok by auto. eauto. Qed.
Print Assumptions c103_total.
Theorem c103_throws k d : d <> 0 -> 24 < k -> basis_indices Pk k d = Throw.
Proof. apply basis_indices_throws. Qed.
Print Assumptions c103_throws.

(** C103: monomials of lower total degree come first, so the basis of degree k begins with the basis of degree k' <= k. *)
Theorem c103_hierarchical k k' d l l' : d <> 0 -> k' <= k -> basis_indices Pk k d = Ok l -> basis_indices Pk k' d = Ok l' ->
  firstn (pk_size k' d) l = l' /\
  (forall i j, i <= j < length l -> degree (nth i l []) <= degree (nth j l [])).
Proof.
  intros D K H H'. apply basis_indices_inv in H, H'; auto. destruct H as [-> _], H' as [-> _]. cbn [indices]. split.
  - destruct (all_upto_app d k' k K) as (t & ->). rewrite <- all_upto_length by auto.
    rewrite firstn_app, Nat.sub_diag, firstn_all. cbn. apply app_nil_r.
  - intros i j I. rewrite all_upto_length in I by auto. now apply all_upto_sorted.
Qed.
Print Assumptions c103_hierarchical.

(** C103: the number of monomials of exactly degree k. *)
Theorem c103_exact_size k d l : d <> 0 -> basis_indices Pk k d = Ok l ->
  pk_size_exact k d = length (filter (fun a => degree a =? k) l).
Proof.
  intros D H. apply basis_indices_inv in H; auto. destruct H as [-> _]. cbn [indices]. unfold pk_size_exact, degree.
  destruct k as [|k].
  - cbn [Nat.eqb]. destruct d; [lia|]. unfold all_upto. cbn [seq flat_map Nat.add]. rewrite layer_0. cbn [app filter].
    rewrite sum_nat_repeat. reflexivity.
  - cbn [Nat.eqb]. replace (S k - 1) with k by lia. rewrite <- !all_upto_length by auto. rewrite all_upto_S, app_length, filter_app, app_length.
    assert (A : filter (fun a => sum_nat a =? S k) (all_upto d k) = []).
    { assert (G : forall a, In a (all_upto d k) -> sum_nat a <= k) by (intros a I; apply all_upto_in in I; tauto).
      revert G. generalize (all_upto d k). induction l as [|a l IH]; intros G; [reflexivity|]. cbn [filter].
      destruct (Nat.eqb_spec (sum_nat a) (S k)) as [E|_]; [specialize (G a (or_introl eq_refl)); lia|]. apply IH. intros; apply G; now right. }
    assert (B : filter (fun a => sum_nat a =? S k) (layer d (S k)) = layer d (S k)).
    { assert (G : forall a, In a (layer d (S k)) -> sum_nat a = S k) by (intros a I; now apply layer_sound in I).
      revert G. generalize (layer d (S k)). induction l as [|a l IH]; intros G; [reflexivity|]. cbn [filter].
      rewrite (G a (or_introl eq_refl)), Nat.eqb_refl. f_equal. apply IH. intros; apply G; now right. }
    unfold multiindex in *. rewrite A, B. cbn [length]. lia.
Qed.
Print Assumptions c103_exact_size.

Example c103_case : basis_indices Pk 2 2 = Ok [[0; 0]; [1; 0]; [0; 1]; [2; 0]; [1; 1]; [0; 2]] /\
  basis_indices Qk 1 2 = Ok [[0; 0]; [1; 0]; [0; 1]; [1; 1]] /\ pk_size 3 3 = 20 /\ pk_size_exact 3 3 = 10.
Proof. repeat split; reflexivity. Qed.

(** ** C104: integrals of monomials *)

(** C104: whenever the integrator returns a value, it is the integral of the monomial over the reference element. *)
Theorem c104_integral s d a v : length a = d -> integrate s d a = Ok v -> element_int s d (monomial a) v.
Proof. intros L H. apply element_gint. now apply integrate_gint. Qed.
Print Assumptions c104_integral.

(** C104: the integral is unique, so the specification determines the value. *)
Theorem c104_unique s d f v w : element_int s d f v -> element_int s d f w -> v = w.
Proof. rewrite !element_gint. apply gint_unique; [apply nxt_shrinking | lra]. Qed.
Print Assumptions c104_unique.

(** C104: a value is returned for every monomial on cubes and intervals, and up to the degree that the binomial
    coefficients admit on triangles and tetrahedra. *)
Theorem c104_defined s d a :
  match s with
  | Cube => True
  | Simplex => d = 1 \/ (d = 2 /\ nth 1 a 0 <= 28) \/ (d = 3 /\ nth 1 a 0 + nth 2 a 0 <= 27)
  end -> exists v, integrate s d a = Ok v.
Proof.
  destruct s; intros H; [destruct d; cbn; eauto|]. destruct H as [->|[[-> H]|[-> H]]]; cbn [integrate]; eauto.
  - destruct (alternating_sum_fits (nth 1 a 0 + 1) (nth 0 a 0)) as (v & ->); [lia|]. cbn. eauto.
  - destruct (alternating_sum_fits (nth 2 a 0 + 1) (nth 1 a 0)) as (v & ->); [lia|].
    destruct (alternating_sum_fits (nth 1 a 0 + nth 2 a 0 + 2) (nth 0 a 0)) as (w & ->); [lia|]. cbn. eauto.
Qed.
Print Assumptions c104_defined.

(** C104: there is no integrator for simplices of dimension above three. *)
Theorem c104_missing d a : 3 < d -> integrate Simplex d a = Throw.
Proof. intros H. destruct d as [|[|[|[|d]]]]; try lia. reflexivity. Qed.
Print Assumptions c104_missing.

(** C104: the binomial coefficients are exact whenever no product overflows. *)
Theorem c104_binomial n k v : k <= n -> binomial (Z.of_nat n) (Z.of_nat k) = Ok v ->
  (v * Z.of_nat (fact k) * Z.of_nat (fact (n - k)) = Z.of_nat (fact n))%Z.
Proof. intros L H. apply binomial_choose in H; auto. subst v. rewrite <- !Nat2Z.inj_mul, choose_fact by auto. reflexivity. Qed.
Print Assumptions c104_binomial.

(** C104, refuted as "for every degree": the product overflows in the binomial coefficient (30 over 14), although the
    coefficient itself is far below the bound; a tetrahedral monomial of degree 28 reaches it. *)
Lemma overflow_30 n : exists r, foldM (fun s k => let* b := binomial 30 (Z.of_nat k) in
                    Ok (s + IZR ((if k mod 2 =? 1 then -1 else 1) * b) / INR (n + k + 1))%R) (seq 0 14) 0%R = Ok r.
Proof. apply foldM_total. intros k s I. apply in_seq in I. 
  assert (G : forallb (fun k => match binomial 30 (Z.of_nat k) with Ok _ => true | _ => false end) (seq 0 14) = true) by (vm_compute; reflexivity).
  rewrite forallb_forall in G. specialize (G k ltac:(apply in_seq; lia)). destruct (binomial 30 (Z.of_nat k)); try discriminate. cbn. eauto.
Qed.
Lemma alternating_30 n : alternating_sum 30 n = UB.
Proof.
  unfold alternating_sum. change (seq 0 (30 + 1)) with (seq 0 14 ++ 14 :: seq 15 16). rewrite foldM_app.
  change (Z.of_nat 30) with 30%Z. destruct (overflow_30 n) as (r & ->). reflexivity.
Qed.
Theorem c104_overflow_refuted : exists a, length a = 3 /\ degree a = 28 /\ integrate Simplex 3 a = UB.
Proof.
  exists [0; 28; 0]. split; [reflexivity|]. split; [reflexivity|]. cbn [integrate nth]. 
  destruct (alternating_sum_fits (0 + 1) 28) as (v & ->); [lia|]. cbn [bind Nat.add]. now rewrite alternating_30.
Qed.
Print Assumptions c104_overflow_refuted.

Example c104_case : exists v, integrate Simplex 2 [1; 2] = Ok v /\ element_int Simplex 2 (monomial [1; 2]) v /\ (v = 1 / 60)%R.
Proof.
  destruct (c104_defined Simplex 2 [1; 2]) as (v & H); [right; left; cbn; lia|]. exists v.
  assert (I := c104_integral Simplex 2 [1; 2] v eq_refl H). repeat split; auto.
  apply (c104_unique Simplex 2 (monomial [1; 2])); auto. apply element_gint.
  pose proof (simplex_monomial [1; 2] 1) as G. rewrite pow1, Rmult_1_l in G. cbn [length sum_nat fold_right fprod Nat.add fact] in G.
  replace (1 / 60)%R with (INR 1 * (INR 2 * 1) / INR 120)%R; [exact G|].
  replace (INR 120) with 120%R by (rewrite INR_IZR_INZ; reflexivity). cbn [INR]. field.
Qed.

(** ** C105: the basis is orthonormal and spans the space *)

(** C105: the functions returned by evaluateFunction are orthonormal in L2 of the reference element. *)
Theorem c105_orthonormal b s k d o i j : d <> 0 -> construct b s k d = Ok o -> i < traits_size b k d -> j < traits_size b k d ->
  element_int s d (fun x => nth i (evaluate_function d o x) 0 * nth j (evaluate_function d o x) 0)%R (if i =? j then 1 else 0)%R.
Proof.
  intros D C I J. apply element_gint. rewrite <- (o_size b s k d o D C) in I, J. exact (o_orthonormal b s k d o D C i j I J).
Qed.
Print Assumptions c105_orthonormal.

(** C105: every function of the space is a combination of the basis functions, and every basis function is in the space. *)
Theorem c105_span b s k d o al v : d <> 0 -> construct b s k d = Ok o -> basis_indices b k d = Ok al ->
  exists w, forall x, length x = d ->
    rsum (fun j => v j * monomial (nth j al []) x)%R (seq 0 (length al)) =
    rsum (fun i => w i * nth i (evaluate_function d o x) 0)%R (seq 0 (traits_size b k d)).
Proof.
  intros D C A. apply basis_indices_inv in A; auto. destruct A as [-> _]. rewrite <- (o_alpha b s k d o D C).
  rewrite <- (o_size b s k d o D C). apply (o_span b s k d o D C). auto.
Qed.
Print Assumptions c105_span.
Theorem c105_inside b s k d o al i : d <> 0 -> construct b s k d = Ok o -> basis_indices b k d = Ok al -> i < traits_size b k d ->
  exists v, forall x, length x = d ->
    nth i (evaluate_function d o x) 0%R = rsum (fun j => v j * monomial (nth j al []) x)%R (seq 0 (length al)).
Proof.
  intros D C A I. apply basis_indices_inv in A; auto. destruct A as [-> _]. rewrite <- (o_alpha b s k d o D C).
  rewrite <- (o_size b s k d o D C) in I. exists (coeffs o i). intros x X. now apply (value_polynomial b s k d o D C).
Qed.
Print Assumptions c105_inside.

(** C105: the values and derivatives up to a smaller order are the first entries of the full evaluation; a larger order throws. *)
Theorem c105_upto b s k d o l x : d <> 0 -> construct b s k d = Ok o -> length x = d -> l <= k ->
  evaluate_function_upto b k d l o x = Ok (firstn (traits_size b l d) (evaluate_function d o x)) /\
  evaluate_jacobian_upto b k d l o x = Ok (firstn (traits_size b l d) (evaluate_jacobian d o x)) /\
  traits_size b l d <= length (evaluate_function d o x).
Proof.
  intros D C X L. unfold evaluate_function_upto, evaluate_jacobian_upto. destruct (Nat.ltb_spec k l); [lia|].
  assert (LE : traits_size b l d <= length (alpha o)).
  { rewrite (o_size b s k d o D C). destruct b; cbn [traits_size]; [now apply pk_size_mono|]. rewrite !qk_size_pow. apply Nat.pow_le_mono_l. lia. }
  assert (F : forall (A : Type) (f g : nat -> A) m q, m <= q -> (forall i, i < m -> f i = g i) -> map f (seq 0 m) = firstn m (map g (seq 0 q))).
  { intros A f g m q M E. replace q with (m + (q - m)) by lia. rewrite seq_app, map_app, firstn_app.
    rewrite (firstn_all2 (map g (seq 0 m))) by (rewrite map_length, seq_length; lia).
    rewrite map_length, seq_length, Nat.sub_diag. cbn [firstn]. rewrite app_nil_r. apply map_ext_in. intros i I. apply in_seq in I. apply E. lia. }
  split; [|split].
  - f_equal. apply F; auto. intros i I. rewrite (evaluate_one_sum b s k d o D C), (evaluate_all_sum b s k d o D C) by (auto; lia). reflexivity.
  - f_equal. apply F; auto. intros i I. apply map_ext. intros r.
    rewrite (evaluate_one_sum b s k d o D C), (evaluate_all_sum b s k d o D C) by (auto; lia). reflexivity.
  - unfold evaluate_function. now rewrite map_length, seq_length.
Qed.
Print Assumptions c105_upto.
Theorem c105_upto_throws b k d o l x : k < l -> evaluate_function_upto b k d l o x = Throw /\ evaluate_jacobian_upto b k d l o x = Throw.
Proof. intros L. unfold evaluate_function_upto, evaluate_jacobian_upto. destruct (Nat.ltb_spec k l); [auto | lia]. Qed.
Print Assumptions c105_upto_throws.

(** C105: for total degree, the functions up to order l span exactly the polynomials of degree l. *)
Theorem c105_order s k l d o al v : d <> 0 -> construct Pk s k d = Ok o -> l <= k -> basis_indices Pk l d = Ok al ->
  (exists w, forall x phi, length x = d -> evaluate_function_upto Pk k d l o x = Ok phi ->
    rsum (fun j => v j * monomial (nth j al []) x)%R (seq 0 (length al)) = rsum (fun i => w i * nth i phi 0)%R (seq 0 (length phi))) /\
  (forall i, i < length al -> exists u, forall x phi, length x = d -> evaluate_function_upto Pk k d l o x = Ok phi ->
    nth i phi 0%R = rsum (fun j => u j * monomial (nth j al []) x)%R (seq 0 (length al))).
Proof.
  intros D C L A. apply basis_indices_inv in A; auto. destruct A as [-> _]. cbn [indices].
  assert (LA : length (all_upto d l) = pk_size l d) by now apply all_upto_length.
  assert (LE : pk_size l d <= length (alpha o)) by (rewrite (o_size Pk s k d o D C); now apply pk_size_mono).
  assert (NA : forall j, j < pk_size l d -> nth j (alpha o) [] = nth j (all_upto d l) []).
  { intros j J. rewrite (o_alpha Pk s k d o D C). cbn [indices]. destruct (all_upto_app d l k L) as (t & ->). apply app_nth1. now rewrite LA. }
  assert (EP : forall x phi, length x = d -> evaluate_function_upto Pk k d l o x = Ok phi ->
    length phi = pk_size l d /\ forall i, i < pk_size l d -> nth i phi 0%R = nth i (evaluate_function d o x) 0%R).
  { intros x phi X E. destruct (c105_upto Pk s k d o l x D C X L) as (U & _ & LL). rewrite U in E. injection E as <-. cbn [traits_size] in *.
    split; [rewrite firstn_length; lia|]. intros i I.
    rewrite <- (firstn_skipn (pk_size l d) (evaluate_function d o x)) at 2. rewrite app_nth1 by (rewrite firstn_length; lia). reflexivity. }
  split.
  - destruct (o_span Pk s k d o D C (pk_size l d) v LE) as (w & W). exists w. intros x phi X E. destruct (EP x phi X E) as [LP NP].
    unfold multiindex in *. rewrite LA, LP. etransitivity; [|etransitivity; [exact (W x X)|]].
    + apply rsum_ext. intros j J. apply in_seq in J. rewrite NA by lia. reflexivity.
    + apply rsum_ext. intros j J. apply in_seq in J. rewrite NP by lia. reflexivity.
  - unfold multiindex in *. intros i I. rewrite LA in I. exists (coeffs o i). intros x phi X E. destruct (EP x phi X E) as [LP NP]. rewrite NP by auto.
    unfold evaluate_function. rewrite nth_map_seq by (unfold multiindex in *; lia). rewrite (evaluate_all_sum Pk s k d o D C) by (auto; unfold multiindex in *; lia). rewrite LA.
    rewrite (rsum_ext _ (fun j => coeffs o i j * monomial (nth j (all_upto d l) []) x)%R) by (intros j J; apply in_seq in J; rewrite NA by lia; reflexivity).
    apply rsum_prefix; auto. intros j J. destruct (o_triangular Pk s k d o D C) as [T _]. rewrite T by (unfold multiindex in *; lia). ring.
Qed.
Print Assumptions c105_order.

(** C105: the construction succeeds for every supported element and degree. *)
Theorem c105_constructs b s k d : supported b s k d -> exists o, construct b s k d = Ok o.
Proof.
  intros (D & K & S). unfold construct. rewrite basis_indices_ok by auto. cbn [bind].
  assert (T : exists t, gram_table s d (indices b k d) = Ok t).
  { apply foldM_total. intros i t I. apply in_seq in I.
    assert (R : exists row, gram_row s d (indices b k d) i = Ok row).
    { apply foldM_total. intros l row L. apply in_seq in L.
      assert (Ii : in_space b d k (nth i (indices b k d) [])) by (apply indices_in; auto; apply nth_In; mlia).
      assert (Il : in_space b d k (nth l (indices b k d) [])) by (apply indices_in; auto; apply nth_In; mlia).
      destruct (c104_defined s d (add_index d (nth i (indices b k d) []) (nth l (indices b k d) []))) as (v & IV); [|unfold multiindex in *; rewrite IV; cbn; eauto].
      destruct s; auto. revert S Ii Il. generalize (nth i (indices b k d) []), (nth l (indices b k d) []). clear. intros a a'.
      assert (B : forall a q, in_space b d q a -> forall m, nth m a 0 <= q).
      { intros a0 q H m. destruct (Nat.lt_ge_cases m (length a0)) as [M|M]; [|rewrite nth_overflow by lia; lia].
        apply (nth_In a0 0) in M. destruct b; destruct H as [_ H]; [|auto]. revert M H. unfold degree, sum_nat. generalize (nth m a0 0). clear.
        induction a0 as [|y a0 IH]; intros e []; cbn; intros; [lia|]. assert (e <= q) by (apply IH; auto; lia). lia. }
      intros [S|[[S Kb]|[S Kb]]] H H'; subst d; [now left | right; left | right; right]; (split; [reflexivity|]).
      - unfold add_index. cbn [seq map nth]. pose proof (B _ _ H 1). pose proof (B _ _ H' 1). lia.
      - unfold add_index. cbn [seq map nth]. destruct b.
        + destruct H as [L H], H' as [L' H']. destruct a as [|x [|y [|z [|]]]]; try discriminate.
          destruct a' as [|x' [|y' [|z' [|]]]]; try discriminate. cbn in *. lia.
        + pose proof (B _ _ H 1). pose proof (B _ _ H' 1). pose proof (B _ _ H 2). pose proof (B _ _ H' 2). lia. }
    destruct R as (row & ->). cbn. eauto. }
  destruct T as (t & ->). cbn [bind].
  match goal with |- exists o, bind ?e _ = Ok o => assert (E : exists gc, e = Ok gc) end.
  { apply foldM_total. intros r gc R. apply in_seq in R.
    match goal with |- exists t, bind ?e _ = Ok t => assert (E : exists rows, e = Ok rows) end.
    { apply foldM_total. intros i rows I. apply in_seq in I.
      match goal with |- context [grad_row _ _ ?c _ _] => 
        destruct (grad_row_ok b k d (indices b k d) D eq_refl c r i ltac:(lia) ltac:(lia)) as (row & -> & _) end. cbn. eauto. }
    destruct E as (rows & ->). cbn. eauto. }
  destruct E as (gc & ->). cbn. eauto.
Qed.
Print Assumptions c105_constructs.

(** C105, refuted as "for every degree": the basis of degree 14 on the tetrahedron has undefined behaviour. *)
Lemma foldM_ub {A S} (f : S -> A -> res S) l x : (forall s, f s x = UB) -> In x l -> (forall s y, f s y <> Throw) -> forall s, foldM f l s = UB.
Proof.
  intros U I N. induction l as [|y l IH]; intros s; [destruct I|]. cbn. destruct I as [->|I]; [now rewrite U|].
  specialize (N s y). destruct (f s y); cbn; auto; congruence.
Qed.
Lemma alternating_no_throw m n : alternating_sum m n <> Throw.
Proof.
  assert (L : forall a b, long_product a b <> Throw).
  { intros a b. unfold long_product. generalize (seq 0 (Z.to_nat (b - a + 1))). generalize 1%Z.
    intros p l. revert p. induction l as [|i l IH]; intros p; cbn; [discriminate|].
    unfold to_long. destruct (_ && _)%bool; cbn; [apply IH | discriminate]. }
  assert (B : forall a b, binomial a b <> Throw).
  { intros a b. unfold binomial. destruct (_ <=? _)%Z.
    - pose proof (L (b + 1)%Z a). destruct (long_product (b + 1) a); cbn; try congruence.
      pose proof (L 2%Z (a - b)%Z). destruct (long_product 2 (a - b)); cbn; congruence.
    - pose proof (L (a - b + 1)%Z a). destruct (long_product (a - b + 1) a); cbn; try congruence.
      pose proof (L 2%Z b). destruct (long_product 2 b); cbn; congruence. }
  unfold alternating_sum. generalize (seq 0 (m + 1)), 0%R. intros l. induction l as [|k l IH]; intros r; cbn; [discriminate|].
  pose proof (B (Z.of_nat m) (Z.of_nat k)). destruct (binomial (Z.of_nat m) (Z.of_nat k)); cbn; try congruence. apply IH.
Qed.
Theorem c105_overflow_refuted : construct Pk Simplex 14 3 = UB.
Proof.
  unfold construct. rewrite basis_indices_ok by lia. cbn [bind indices].
  assert (I : In [0; 14; 0] (all_upto 3 14)) by (apply all_upto_in; cbn; lia).
  revert I. generalize (all_upto 3 14). intros al I.
  apply (In_nth _ _ []) in I. destruct I as (i & I & E).
  assert (NT : forall a, integrate Simplex 3 a <> Throw).
  { intros a. cbn [integrate]. pose proof (alternating_no_throw (nth 2 a 0 + 1) (nth 1 a 0)).
    destruct (alternating_sum (nth 2 a 0 + 1) (nth 1 a 0)); cbn; try congruence.
    pose proof (alternating_no_throw (nth 1 a 0 + nth 2 a 0 + 2) (nth 0 a 0)).
    destruct (alternating_sum (nth 1 a 0 + nth 2 a 0 + 2) (nth 0 a 0)); cbn; congruence. }
  assert (U : integrate Simplex 3 (add_index 3 [0; 14; 0] [0; 14; 0]) = UB).
  { change (add_index 3 [0; 14; 0] [0; 14; 0]) with [0; 28; 0]. cbn [integrate nth].
    destruct (alternating_sum_fits (0 + 1) 28) as (v & ->); [lia|]. cbn [bind Nat.add]. now rewrite alternating_30. }
  assert (RT : forall i l s, foldM (fun row l => let* v := integrate Simplex 3 (add_index 3 (nth i al []) (nth l al [])) in Ok (row ++ [v])) l s <> Throw).
  { intros i' l. induction l as [|m l IH]; intros s; cbn [foldM]; [discriminate|].
    pose proof (NT (add_index 3 (nth i' al []) (nth m al []))). destruct (integrate Simplex 3 (add_index 3 (nth i' al []) (nth m al []))); cbn [bind]; try congruence; try apply IH. }
  assert (G : gram_table Simplex 3 al = UB).
  { unfold gram_table. apply foldM_ub with (x := i).
    - intros s. assert (R : gram_row Simplex 3 al i = UB); [|now rewrite R].
      unfold gram_row. apply foldM_ub with (x := i).
      + intros r. unfold multiindex in *. rewrite E, U. reflexivity.
      + apply in_seq. mlia.
      + intros r y. unfold multiindex in *. pose proof (NT (add_index 3 (nth i al []) (nth y al []))).
        destruct (integrate Simplex 3 (add_index 3 (nth i al []) (nth y al []))); cbn; congruence.
    - apply in_seq. mlia.
    - intros s y. unfold gram_row. pose proof (RT y (seq 0 (y + 1)) []). destruct (foldM _ (seq 0 (y + 1)) []); cbn; congruence. }
  now rewrite G.
Qed.
Print Assumptions c105_overflow_refuted.

Lemma rsum_nil {A} (f : A -> R) : rsum f [] = 0%R. Proof. reflexivity. Qed.
Lemma nth_firstn_lt {A} (l : list A) x : forall i m, i < m -> nth i (firstn m l) x = nth i l x.
Proof. induction l as [|y l IH]; intros i [|m] I; try lia; destruct i; cbn; auto. apply IH. lia. Qed.
(** C105, refuted for the tensor-product bases: the functions "up to order l" do not span the space of order l when l < k.
    In two dimensions with k = 2, the four functions up to order 1 do not generate xy. *)
Theorem c105_order_qk_refuted : exists o, construct Qk Cube 2 2 = Ok o /\ in_space Qk 2 1 [1; 1] /\
  ~ exists w, forall x phi, length x = 2 -> evaluate_function_upto Qk 2 2 1 o x = Ok phi ->
      monomial [1; 1] x = rsum (fun i => w i * nth i phi 0)%R (seq 0 (length phi)).
Proof.
  destruct (c105_constructs Qk Cube 2 2) as (o & C); [repeat split; auto; discriminate|]. exists o. split; auto. split.
  - split; [reflexivity|]. cbn. intros e [<-|[<-|[]]]; lia.
  - intros (w & W). assert (D : 2 <> 0) by lia.
    assert (N : length (alpha o) = 9) by (rewrite (o_size Qk Cube 2 2 o D C); reflexivity).
    assert (A : alpha o = [[0; 0]; [1; 0]; [2; 0]; [0; 1]; [1; 1]; [2; 1]; [0; 2]; [1; 2]; [2; 2]]) by (rewrite (o_alpha Qk Cube 2 2 o D C); reflexivity).
    assert (V : forall y z, (y * z = rsum (fun i => w i * rsum (fun j => coeffs o i j * monomial (nth j (alpha o) []) [y; z]) (seq 0 (i + 1))) (seq 0 4))%R).
    { intros y z. destruct (c105_upto Qk Cube 2 2 o 1 [y; z] D C eq_refl ltac:(lia)) as (U & _ & LL).
      specialize (W [y; z] _ eq_refl U). cbn [monomial] in W. rewrite firstn_length in W.
      change (traits_size Qk 1 2) with 4 in *. rewrite Nat.min_l in W by exact LL.
      replace (y * z)%R with (y ^ 1 * (z ^ 1 * 1))%R by ring. rewrite W. apply rsum_ext. intros i I. apply in_seq in I. f_equal.
      rewrite <- (evaluate_all_sum Qk Cube 2 2 o D C (coeffs o) [y; z] i) by (unfold multiindex in *; rewrite ?N; auto; lia).
      rewrite nth_firstn_lt by lia. unfold evaluate_function. rewrite nth_map_seq by lia. reflexivity. }
    rewrite A in V. pose proof (V 1 1)%R as V11. pose proof (V 1 0)%R as V10. pose proof (V 0 1)%R as V01. pose proof (V 0 0)%R as V00.
    clear V W C A N. 
    do 2 (cbn [seq Nat.add] in V11, V10, V01, V00; rewrite ?rsum_cons, ?rsum_nil in V11, V10, V01, V00).
    cbn [nth monomial pow] in V11, V10, V01, V00. lra.
Qed.
Print Assumptions c105_order_qk_refuted.

Example c105_case : (exists o, construct Pk Simplex 3 2 = Ok o) /\ (exists o, construct Pk Simplex 2 3 = Ok o) /\ (exists o, construct Qk Cube 2 3 = Ok o).
Proof. repeat split; apply c105_constructs; repeat split; cbn; intros; try discriminate; lia. Qed.

(** ** C106: derivatives and interpolation *)

(** C106: evaluateJacobian returns the partial derivatives of the functions returned by evaluateFunction. *)
Theorem c106_jacobian b s k d o r i x : d <> 0 -> construct b s k d = Ok o -> r < d -> i < traits_size b k d -> length x = d ->
  derivable_pt_lim (fun t => nth i (evaluate_function d o (upd r t x)) 0%R) (nth r x 0%R) (nth r (nth i (evaluate_jacobian d o x) []) 0%R).
Proof. intros D C R I X. rewrite <- (o_size b s k d o D C) in I. now apply (o_jacobian b s k d o D C). Qed.
Print Assumptions c106_jacobian.

(** C106: interpolation with a rule that is exact for the products of basis functions (degree 2k) reproduces every function
    of the space. *)
Theorem c106_interpolation b s k d o rule w f i : d <> 0 -> construct b s k d = Ok o ->
  (forall q, In q rule -> length (fst q) = d) ->
  (forall a v, in_space b d (2 * k) a -> element_int s d (monomial a) v -> rsum (fun q => monomial a (fst q) * snd q)%R rule = v) ->
  (forall x, length x = d -> f x = rsum (fun j => w j * nth j (evaluate_function d o x) 0)%R (seq 0 (traits_size b k d))) ->
  i < traits_size b k d -> nth i (interpolate d o rule f) 0%R = w i.
Proof.
  intros D C L E F I. rewrite <- (o_size b s k d o D C) in F, I. apply (o_interpolation b s k d o D C rule w f); auto.
  intros a v A G. apply E; auto. now apply element_gint.
Qed.
Print Assumptions c106_interpolation.

(** C106: partial supports order zero only; the keys of the degrees of freedom are distinct and belong to the element. *)
Theorem c106_partial_orders d o order x :
  (sum_nat order = 0 -> partial d o order x = Ok (evaluate_function d o x)) /\ (sum_nat order <> 0 -> partial d o order x = Throw).
Proof. unfold partial. destruct (Nat.eqb_spec (sum_nat order) 0); split; intros; auto; contradiction. Qed.
Print Assumptions c106_partial_orders.
Theorem c106_keys b k d : NoDup (local_keys b k d) /\ length (local_keys b k d) = traits_size b k d /\
  forall key, In key (local_keys b k d) -> fst key = (0, 0).
Proof.
  unfold local_keys. split; [|split].
  - apply NoDup_map_inj; [intros x y _ _ E; now injection E | apply seq_NoDup].
  - now rewrite map_length, seq_length.
  - intros key I. apply in_map_iff in I. destruct I as (i & <- & _). reflexivity.
Qed.
Print Assumptions c106_keys.

(** Simpson's rule is exact for the products of linear functions on the interval. *)
Example c106_case : exists o, construct Pk Cube 1 1 = Ok o /\
  forall a v, in_space Pk 1 (2 * 1) a -> element_int Cube 1 (monomial a) v ->
    rsum (fun q => monomial a (fst q) * snd q)%R [([0], 1 / 6); ([1 / 2], 4 / 6); ([1], 1 / 6)]%R = v.
Proof.
  destruct (c105_constructs Pk Cube 1 1) as (o & C); [repeat split; auto; lia|]. exists o. split; auto.
  intros a v [L S] H. destruct a as [|e [|]]; try discriminate. cbn in S.
  pose proof (cube_monomial [e]) as G. apply cube_gint in G. pose proof (c104_unique Cube 1 _ _ _ H G) as ->. cbn [cprod length].
  rewrite !rsum_cons. change (rsum _ []) with 0%R. cbn [fst snd monomial]. assert (E : e = 0 \/ e = 1 \/ e = 2) by lia.
  destruct E as [->|[->| ->]]; cbn [INR pow]; field; lra.
Qed.
