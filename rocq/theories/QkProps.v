(** Properties of the tensor product elements (C67 to C69). *)
From Coq Require Import Lra Lia FunctionalExtensionality.
From Verif Require Import CommonFacts QkModel QkSpec QkProofs QkProofs2 QkProofs3.
Local Open Scope R_scope.

Definition unit_vector (n i : nat) : list R := map (fun l => if (i =? l)%nat then 1 else 0) (seq 0 n).
Lemma function_nth p k d x i : (i < qk_size k d)%nat -> nth i (evaluate_function p k d x) 0 = tensor p k d i x.
Proof.
  intros H. unfold evaluate_function. rewrite (nth_indep _ 0 (tensor p k d O x)) by (rewrite map_length, seq_length; lia).
  now rewrite (map_nth (fun i => tensor p k d i x)), seq_nth by lia.
Qed.
Lemma jacobian_nth p dp k d x i j : (i < qk_size k d)%nat -> (j < d)%nat -> nth j (nth i (evaluate_jacobian p dp k d x) []) 0 = dtensor p dp k d i j x.
Proof.
  intros Hi Hj. unfold evaluate_jacobian. rewrite (nth_indep _ [] (map (fun j => dtensor p dp k d O j x) (seq 0 d))) by (rewrite map_length, seq_length; lia).
  rewrite (map_nth (fun i => map (fun j => dtensor p dp k d i j x) (seq 0 d))), seq_nth by lia.
  rewrite (nth_indep _ 0 (dtensor p dp k d (0 + i) O x)) by (rewrite map_length, seq_length; lia). now rewrite (map_nth (fun j => dtensor p dp k d (0 + i) j x)), seq_nth by lia.
Qed.
Lemma gradient_nth p dp k d x i j : (forall m y, (m <= k)%nat -> derivable_pt_lim (p m) y (dp m y)) -> (i < qk_size k d)%nat -> (j < d)%nat ->
  derivable_pt_lim (fun h => nth i (evaluate_function p k d (moved x j h)) 0) (x j) (nth j (nth i (evaluate_jacobian p dp k d x) []) 0).
Proof.
  intros H Hi Hj. rewrite jacobian_nth by assumption. apply (dlim_ext (fun h => tensor p k d i (moved x j h))); [intros; now rewrite function_nth|]. now apply gradient.
Qed.
Lemma unit_at xi k d i : separate xi k -> (0 < d)%nat -> (i < qk_size k d)%nat ->
  interpolate_at xi k d (fun x => nth i (evaluate_function (lagrange_at xi k) k d x) 0) = unit_vector (qk_size k d) i.
Proof.
  intros Hs Hd Hi. unfold unit_vector. destruct k as [|k].
  - rewrite size_0 in *. assert (i = O) by lia. subst i. cbn [interpolate_at seq map Nat.eqb]. f_equal. rewrite function_nth by (rewrite size_0; lia). rewrite tensor_prod. apply rprod_one. intros j _.
    rewrite lagrange_prod. apply rprod_one. intros l Hl. unfold factor. pose proof (multiindex_le 0 d 0 j). destruct (Nat.eqb_spec l (nth j (multiindex 0 d 0) O)); [reflexivity|lia].
  - unfold interpolate_at. apply map_ext_in. intros l Hl. apply in_seq in Hl. rewrite function_nth by assumption. apply tensor_nodal; auto; lia.
Qed.

(** * C67: the Lagrange element with equidistant points *)

(** There are (k+1)^d shape functions, gradients, interpolation coefficients and local keys; the keys are
    all attached to the cell and numbered consecutively. *)
Theorem c67_size : forall k d x f, (0 < d)%nat ->
  length (evaluate_function (lagrange k) k d x) = ((k + 1) ^ d)%nat /\
  length (evaluate_jacobian (lagrange k) (dlagrange k) k d x) = ((k + 1) ^ d)%nat /\
  length (interpolate k d f) = ((k + 1) ^ d)%nat /\
  local_keys k d = map (fun i => (0, 0, i)%nat) (seq 0 ((k + 1) ^ d)).
Proof.
  intros k d x f Hd. unfold evaluate_function, evaluate_jacobian, local_keys. rewrite !map_length, !seq_length, <- size_pow by assumption. repeat split.
  destruct k; [now rewrite size_0|]. unfold interpolate. now rewrite map_length, seq_length.
Qed.
Print Assumptions c67_size.

(** Interpolating the i-th shape function gives the i-th unit vector. *)
Theorem c67_nodal : forall k d i, (0 < d)%nat -> (i < (k + 1) ^ d)%nat ->
  interpolate k d (fun x => nth i (evaluate_function (lagrange k) k d x) 0) = unit_vector ((k + 1) ^ d) i.
Proof.
  intros k d i Hd Hi. rewrite <- size_pow in * by assumption. rewrite interpolate_equi. rewrite <- (unit_at (equi k)) by (auto using equi_separate).
  f_equal. apply functional_extensionality. intros x. now rewrite (function_ext (lagrange k) (lagrange_at (equi k) k)) by (intros; now apply lagrange_equi).
Qed.
Print Assumptions c67_nodal.

(** Interpolation reproduces every polynomial of degree k in each variable. *)
Theorem c67_reproduces : forall k d f x, (0 < d)%nat -> in_Qk k d f ->
  combination (interpolate k d f) (evaluate_function (lagrange k) k d x) = f x.
Proof.
  intros k d f x Hd Hf. rewrite interpolate_equi, (function_ext (lagrange k) (lagrange_at (equi k) k)) by (intros; now apply lagrange_equi).
  apply reproduces_at; auto using equi_separate.
Qed.
Print Assumptions c67_reproduces.

(** The shape functions are such polynomials themselves. *)
Theorem c67_space : forall k d i, (0 < d)%nat -> (i < (k + 1) ^ d)%nat -> in_Qk k d (fun x => nth i (evaluate_function (lagrange k) k d x) 0).
Proof.
  intros k d i Hd Hi. rewrite <- size_pow in Hi by assumption. destruct (tensor_in (lagrange_at (equi k) k) k d i) as (l & Hl & El); [intros; now apply lagrange_poly|].
  exists l. split; [assumption|]. intros x. rewrite function_nth by assumption. rewrite <- El. apply tensor_ext. intros; now apply lagrange_equi.
Qed.
Print Assumptions c67_space.

(** The Jacobians are the partial derivatives of the shape functions. *)
Theorem c67_gradient : forall k d x i j, (0 < d)%nat -> (i < (k + 1) ^ d)%nat -> (j < d)%nat ->
  derivable_pt_lim (fun h => nth i (evaluate_function (lagrange k) k d (moved x j h)) 0) (x j)
    (nth j (nth i (evaluate_jacobian (lagrange k) (dlagrange k) k d x) []) 0).
Proof.
  intros k d x i j Hd Hi Hj. rewrite <- size_pow in Hi by assumption. apply gradient_nth; auto. intros m y Hm.
  rewrite dlagrange_equi by assumption. apply (dlim_ext (lagrange_at (equi k) k m)); [intros; symmetry; now apply lagrange_equi|]. apply dlagrange_derivative.
Qed.
Print Assumptions c67_gradient.

(** Partial derivatives: order zero are the values, any other order is refused. *)
Theorem c67_partial : forall k d order x,
  partial (lagrange k) k d order x = if forallb (Nat.eqb 0) order then Ok (evaluate_function (lagrange k) k d x) else Throw.
Proof.
  intros k d order x. unfold partial. replace (fold_left Nat.add order 0 =? 0)%nat with (forallb (Nat.eqb 0) order); [reflexivity|].
  assert (A : forall l s, ((fold_left Nat.add l s =? 0) = (s =? 0) && forallb (Nat.eqb 0) l)%nat).
  { induction l as [|a l IH]; intros s; cbn [fold_left forallb]; [now rewrite andb_true_r|]. rewrite IH. destruct s, a; cbn; reflexivity. }
  now rewrite A.
Qed.
Print Assumptions c67_partial.

(** EquidistantLagrangePolynomials::x is documented to return the i-th Lagrange point, but it divides by k+1
    where the points of p are i/k: for k = 1 the second polynomial is 1/2 at the point returned for it. *)
Theorem c67_point_refuted : exists k i, (0 < k)%nat /\ (i <= k)%nat /\ lagrange k i (equidistant_point k i) <> 1.
Proof.
  exists 1%nat, 1%nat. split; [lia|]. split; [lia|]. unfold lagrange, equidistant_point. cbn. lra.
Qed.
Print Assumptions c67_point_refuted.

Example c67_meets : in_Qk 1 2 (fun x => 3 * (x O * x 1%nat) + 2 * x O) /\ (3 < (1 + 1) ^ 2)%nat.
Proof.
  split; [|cbn; lia]. exists [(3, [1; 1]%nat); (2, [1; 0]%nat)]. split.
  - intros w a [E|[E|[]]]; injection E as <- <-; (split; [reflexivity|]); repeat constructor.
  - intros x. unfold rsum. cbn. ring.
Qed.

(** * C68: the Lagrange element with Gauss-Lobatto points *)

(** The points and weights of the element are those of the first rule with k+1 points, every one exactly once
    and with its weight; without such a rule the constructor throws. *)
Theorem c68_points : forall k rules,
  match find (fun r => length r =? k + 1)%nat rules with
  | Some rule => exists xi w, lobatto k rules = Ok (xi, w) /\ length xi = length w /\ Permutation (combine xi w) rule
  | None => lobatto k rules = Throw
  end.
Proof.
  intros k rules. destruct (find _ rules) as [rule|] eqn:E; [|unfold lobatto; now rewrite E].
  destruct (lobatto_ok k rules rule E) as (L & EL & PL & _). exists (map fst L), (map snd L). split; [assumption|]. split; [now rewrite !map_length|].
  replace (combine (map fst L) (map snd L)) with L; [now apply Permutation_sym|]. clear. induction L as [|(a, b) L IH]; cbn; [reflexivity|]. now rewrite <- IH.
Qed.
Print Assumptions c68_points.

(** If the rule lists its points in pairs mirrored at 1/2 (with the middle one, if any, last), the points of
    the element are symmetric, and the first half of them lies in the left half of the interval. *)
Theorem c68_symmetric : forall k rules rule xi w, find (fun r => length r =? k + 1)%nat rules = Some rule -> lobatto k rules = Ok (xi, w) ->
  (forall g, (2 * g + 1 <= k)%nat -> fst (nth (2 * g + 1) rule (0, 0)) = 1 - fst (nth (2 * g) rule (0, 0)) /\ snd (nth (2 * g + 1) rule (0, 0)) = snd (nth (2 * g) rule (0, 0))) ->
  forall j, (j < (k + 1) / 2)%nat -> nth (k - j) xi 0 = 1 - nth j xi 0 /\ nth (k - j) w 0 = nth j w 0 /\ nth j xi 0 <= / 2.
Proof.
  intros k rules rule xi w E EL M j Hj. destruct (lobatto_ok k rules rule E) as (L & EL' & PL & S). rewrite EL in EL'. injection EL' as -> ->.
  specialize (S M j Hj). unfold pt in S. rewrite <- !(map_nth fst), <- !(map_nth snd) in S. exact S.
Qed.
Print Assumptions c68_symmetric.

Definition node_of (xi : list R) : nat -> R := fun i => nth i xi 0.
Lemma points_separate k rules rule xi w : find (fun r => length r =? k + 1)%nat rules = Some rule -> lobatto k rules = Ok (xi, w) -> NoDup (map fst rule) -> separate (node_of xi) k.
Proof.
  intros E EL ND. pose proof (find_some _ _ E) as [_ Len]. apply Nat.eqb_eq in Len. destruct (lobatto_ok k rules rule E) as (L & EL' & PL & _). rewrite EL in EL'. injection EL' as -> ->.
  assert (ND' : NoDup (map fst L)) by (apply (Permutation_NoDup (l := map fst rule)); [now apply Permutation_map|assumption]).
  intros i j Hi Hj Eq. pose proof (Permutation_length PL). rewrite NoDup_nth in ND'. apply (ND' i j); [rewrite map_length; lia..|exact Eq].
Qed.
(** With different points, interpolation and the shape functions are dual to each other, every polynomial of degree
    k in each variable is reproduced, the shape functions are such polynomials, and the Jacobians are
    their derivatives. *)
Theorem c68_element : forall k d rules rule xi w, (0 < d)%nat ->
  find (fun r => length r =? k + 1)%nat rules = Some rule -> NoDup (map fst rule) -> lobatto k rules = Ok (xi, w) ->
  let p := lagrange_at (fun i => nth i xi 0) k in let dp := dlagrange_at (fun i => nth i xi 0) k in
  (forall i, (i < (k + 1) ^ d)%nat -> interpolate_at (fun i => nth i xi 0) k d (fun x => nth i (evaluate_function p k d x) 0) = unit_vector ((k + 1) ^ d) i) /\
  (forall f x, in_Qk k d f -> combination (interpolate_at (fun i => nth i xi 0) k d f) (evaluate_function p k d x) = f x) /\
  (forall i, (i < (k + 1) ^ d)%nat -> in_Qk k d (fun x => nth i (evaluate_function p k d x) 0)) /\
  (forall x i j, (i < (k + 1) ^ d)%nat -> (j < d)%nat ->
     derivable_pt_lim (fun h => nth i (evaluate_function p k d (moved x j h)) 0) (x j) (nth j (nth i (evaluate_jacobian p dp k d x) []) 0)).
Proof.
  intros k d rules rule xi w Hd E ND EL p dp. pose proof (points_separate k rules rule xi w E EL ND) as Hs. unfold node_of in Hs. rewrite <- size_pow by assumption.
  split; [|split; [|split]].
  - intros i Hi. now apply unit_at.
  - intros f x Hf. now apply reproduces_at.
  - intros i Hi. destruct (tensor_in p k d i) as (l & Hl & El); [intros; now apply lagrange_poly|]. exists l. split; [assumption|]. intros x. now rewrite function_nth.
  - intros x i j Hi Hj. apply gradient_nth; auto. intros m y _. apply dlagrange_derivative.
Qed.
Print Assumptions c68_element.

Definition three_points : list (list (R * R)) := [[(0, / 2); (1, / 2)]; [(1, / 6); (0, / 6); (/ 2, 2 / 3)]].
Example c68_meets : find (fun r => length r =? 2 + 1)%nat three_points = Some [(1, / 6); (0, / 6); (/ 2, 2 / 3)] /\
  NoDup (map fst [(1, / 6); (0, / 6); (/ 2, 2 / 3)]) /\
  lobatto 2 three_points = Ok ([0; / 2; 1], [/ 6; 2 / 3; / 6]).
Proof.
  split; [reflexivity|]. split.
  - cbn. repeat constructor; cbn; intros H; repeat (destruct H as [H|H]); lra.
  - cbv [lobatto three_points find length Nat.eqb Nat.add fill combine seq foldM bind store place load upd nth_error repeat Nat.ltb Nat.leb fst snd exchange Nat.sub Nat.modulo Nat.div Nat.divmod load_all app].
    destruct (Rlt_dec (/ 2) 0) as [C|C]; [lra|]. reflexivity.
Qed.

(** * C69: the Legendre element *)

(** The shape functions are orthogonal on the unit cube, with mean squares that are never zero. *)
Theorem c69_orthogonal : forall k d i j, (0 < d)%nat -> (i < (k + 1) ^ d)%nat -> (j < (k + 1) ^ d)%nat ->
  exists v, cube_integral d (fun x => nth i (evaluate_function (legendre k) k d x) 0 * nth j (evaluate_function (legendre k) k d x) 0) v /\
    (i <> j -> v = 0) /\ (i = j -> v = fold_right (fun a r => / (2 * INR a + 1) * r) 1 (multiindex k d i) /\ 0 < v).
Proof.
  intros k d i j Hd Hi Hj. exists (if (i =? j)%nat then mass k d i else 0). split.
  - apply (cube_ext d (fun x => tensor P k d i x * tensor P k d j x)); [|now apply tensor_orthogonal].
    intros x. rewrite <- size_pow in Hi, Hj by assumption. rewrite !function_nth by assumption. now rewrite !tensor_P.
  - split; [intros N; now destruct (Nat.eqb_spec i j)|]. intros ->. rewrite Nat.eqb_refl. split; [|apply mass_pos].
    unfold mass. rewrite <- (multiindex_length k d j) at 1. generalize (multiindex k d j) as l. induction l as [|a l IH]; [reflexivity|]. cbn [length fold_right]. rewrite rprod_shift. cbn [nth]. now rewrite IH.
Qed.
Print Assumptions c69_orthogonal.

(** The Jacobians are the partial derivatives of the shape functions. *)
Theorem c69_gradient : forall k d x i j, (0 < d)%nat -> (i < (k + 1) ^ d)%nat -> (j < d)%nat ->
  derivable_pt_lim (fun h => nth i (evaluate_function (legendre k) k d (moved x j h)) 0) (x j)
    (nth j (nth i (evaluate_jacobian (legendre k) (dlegendre k) k d x) []) 0).
Proof.
  intros k d x i j Hd Hi Hj. rewrite <- size_pow in Hi by assumption. apply gradient_nth; auto. intros m y Hm.
  rewrite dlegendre_D by assumption. apply (dlim_ext (P m)); [intros; symmetry; now apply legendre_P|]. apply P_derivative.
Qed.
Print Assumptions c69_gradient.

(** The shape functions are polynomials of degree k in each variable, and with a quadrature rule that is exact for degree 2k
    interpolation reproduces every such polynomial. *)
Theorem c69_projection : forall k d rule, (0 < d)%nat -> exact_rule (2 * k) d rule ->
  (forall i, (i < (k + 1) ^ d)%nat -> in_Qk k d (fun x => nth i (evaluate_function (legendre k) k d x) 0)) /\
  (forall f x, in_Qk k d f -> combination (project k d rule f) (evaluate_function (legendre k) k d x) = f x).
Proof.
  intros k d rule Hd He. split; [|intros; now apply projection]. intros i Hi. rewrite <- size_pow in Hi by assumption.
  destruct (tensor_in (legendre k) k d i) as (l & Hl & El).
  - intros m Hm. apply (poly_ext _ (P m)); [intros; symmetry; now apply legendre_P|now apply P_poly_k].
  - exists l. split; [assumption|]. intros x. now rewrite function_nth.
Qed.
Print Assumptions c69_projection.

(** For any function, what interpolation leaves out is orthogonal to every shape function, as far as
    the quadrature rule can tell: the interpolation is the best approximation. *)
Theorem c69_best : forall k d rule f j, (0 < d)%nat -> exact_rule (2 * k) d rule -> (j < (k + 1) ^ d)%nat ->
  quadrature rule (fun x => (f x - combination (project k d rule f) (evaluate_function (legendre k) k d x)) * nth j (evaluate_function (legendre k) k d x) 0) = 0.
Proof.
  intros k d rule f j Hd He Hj. rewrite <- size_pow in Hj by assumption. rewrite (quadrature_ext rule _ (fun x => (f x - combination (project k d rule f) (evaluate_function (legendre k) k d x)) * tensor (legendre k) k d j x)).
  - now apply residual_orthogonal.
  - intros x. now rewrite function_nth.
Qed.
Print Assumptions c69_best.

(** The short forms for k = 1 agree with the general ones. *)
Theorem c69_degree_one : forall i x, (i <= 1)%nat -> legendre_1 i x = legendre 1 i x /\ dlegendre_1 i x = dlegendre 1 i x.
Proof. intros i x H. assert (i = O \/ i = 1%nat) as [-> | ->] by lia; unfold legendre_1, dlegendre_1, legendre, dlegendre; cbn; split; ring. Qed.
Print Assumptions c69_degree_one.

(** Simpson's rule *)
Definition simpson : list ((nat -> R) * R) := [((fun _ => 0), / 6); ((fun _ => / 2), 4 / 6); ((fun _ => 1), / 6)].
Lemma integral_pow n : integral (fun x => x ^ n) (/ INR (S n)).
Proof.
  assert (HN : INR (S n) <> 0) by (apply not_0_INR; lia).
  exists (fun x => / INR (S n) * x ^ S n). split; [|rewrite pow1, pow_i by lia; ring].
  intros x. replace (x ^ n) with (/ INR (S n) * (INR (S n) * x ^ n)) by (field; assumption). apply derivable_pt_lim_scal. apply (derivable_pt_lim_pow x (S n)).
Qed.
Example c69_meets : exact_rule (2 * 1) 1 simpson.
Proof.
  intros f v (l & Hl & Hf) (g & Hg & Hv). cbn in Hv. subst v.
  assert (A : integral (fun t => rsum (map (fun wa => fst wa * monomial (snd wa) (pcons t (fun _ => 0))) l)) (quadrature simpson (fun x => rsum (map (fun wa => fst wa * monomial (snd wa) x) l)))).
  { clear Hf Hg f g. induction l as [|(w, a) l IH].
    - replace (quadrature simpson (fun x => rsum (map (fun wa : R * list nat => fst wa * monomial (snd wa) x) []))) with (0 * / INR 1) by (unfold quadrature, rsum; cbn; ring).
      apply (integral_ext (fun t => 0 * t ^ 0)); [intros; unfold rsum; cbn; ring|]. apply integral_scal, integral_pow.
    - specialize (IH (fun w' a' H => Hl w' a' (or_intror H))). destruct (Hl w a (or_introl eq_refl)) as [La F]. destruct a as [|n [|]]; cbn in La; try lia. inversion F as [|? ? Hn _]; subst.
      replace (quadrature simpson (fun x => rsum (map (fun wa : R * list nat => fst wa * monomial (snd wa) x) ((w, [n]) :: l))))
        with (w * / INR (S n) + quadrature simpson (fun x => rsum (map (fun wa : R * list nat => fst wa * monomial (snd wa) x) l))).
      + apply (integral_ext (fun t => w * t ^ n + rsum (map (fun wa => fst wa * monomial (snd wa) (pcons t (fun _ => 0))) l))).
        * intros t. unfold rsum. cbn [map fold_right fst snd monomial pcons]. ring.
        * apply integral_add; [apply integral_scal, integral_pow|exact IH].
      + unfold quadrature, simpson, rsum. cbn [map fold_right fst snd monomial]. destruct n as [|[|[|]]]; [cbn; field..|lia]. }
  rewrite (quadrature_ext simpson f _ Hf). apply (integral_unique _ _ _ A). apply (integral_ext (fun t => f (pcons t (fun _ => 0)))); [intros; apply Hf|apply Hg].
Qed.
