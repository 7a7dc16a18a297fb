(** Eigenvectors and upwind matrices. *)
From Verif Require Import Common CommonFacts CdModel CdSpec CdProofs WaveModel WaveSpec.
From Coq Require Import Reals Lra Lia Nsatz.
Open Scope R_scope.

Lemma umv_sum m A u f i : umv m A u f i = f i + apply m A u i.
Proof. unfold umv. now rewrite dot_sum. Qed.
Lemma mmul_sum m A B i j : mmul m A B i j = rsum m (fun k => A i k * B k j).
Proof. unfold mmul. now rewrite dot_sum. Qed.
Lemma apply_outer m a b v c i : apply m (fun i j => c * a i * b j) v i = c * a i * rsum m (fun j => b j * v j).
Proof. unfold apply. rewrite <- rsum_scal. apply rsum_ext. intros. ring. Qed.

(** the part of the state that moves: density and normal momentum *)
Definition acoustics_proj (d : nat) (n u : vec) : vec :=
  fun i => match i with 0 => u 0%nat | S k => inner d (momentum u) n * n k end.

Lemma sum3 (f : nat -> R) : rsum 3 f = f 0%nat + f 1%nat + f 2%nat. Proof. cbn. ring. Qed.

Lemma squares_0 x y z : x * x + y * y + z * z = 0 -> x = 0 /\ y = 0 /\ z = 0.
Proof. intros H. assert (x * x = 0 /\ y * y = 0 /\ z * z = 0) as (A & B & C) by (split; [|split]; nra). repeat split; now apply Rsqr_0_uniq. Qed.

(** ** The tangential vector *)
Lemma tangent_orthogonal n : inner 3 (tangent n) n = 0.
Proof. unfold inner, tangent. rewrite sum3. destruct Rlt_dec; cbn; ring. Qed.
Lemma tangent_nonzero n : unit_normal 3 n -> inner 3 (tangent n) (tangent n) <> 0.
Proof.
  unfold unit_normal, inner. rewrite !sum3. intros U. unfold tangent. destruct Rlt_dec as [L|L].
  - intros E. cbv zeta beta iota in E.
    set (a := n 0%nat) in *. set (b := n 1%nat) in *. set (c := n 2%nat) in *.
    destruct (squares_0 _ _ _ E) as (H1 & H2 & _).
    assert (A : 3 * (a * a) = 1) by nra.
    revert L. rewrite dot_sum. unfold inner. rewrite sum3. cbv beta iota. apply Rle_not_lt.
    replace (/ 10 ^ 5) with (sqrt (/ 10 ^ 10)).
    2: { replace (/ 10 ^ 10) with ((/ 10 ^ 5) * (/ 10 ^ 5)) by field. apply sqrt_square. apply Rlt_le, Rinv_0_lt_compat, pow_lt; lra. }
    apply sqrt_le_1_alt. fold a b c. replace b with (- a) by lra. replace c with a by lra.
    replace ((- a - a) * (- a - a) + (a - a) * (a - a) + (a - - a) * (a - - a)) with (8 / 3 * (3 * (a * a))) by field. rewrite A.
    apply Rle_trans with 1; [|lra]. rewrite <- Rinv_1. apply Rinv_le_contravar; [lra|]. 
    apply pow_R1_Rle. lra.
  - intros E. cbv zeta beta iota in E. apply L. rewrite dot_sum. unfold inner. rewrite sum3. cbv beta iota. rewrite E, sqrt_0.
    apply Rinv_0_lt_compat, pow_lt; lra.
Qed.

(** a vector orthogonal to s and n x s is a multiple of the unit vector n *)
Lemma only_normal (n0 n1 n2 s0 s1 s2 b0 b1 b2 : R) :
  n0 * n0 + n1 * n1 + n2 * n2 = 1 -> s0 * n0 + s1 * n1 + s2 * n2 = 0 -> s0 * s0 + s1 * s1 + s2 * s2 <> 0 ->
  s0 * b0 + s1 * b1 + s2 * b2 = 0 ->
  (n1 * s2 - n2 * s1) * b0 + (n2 * s0 - n0 * s2) * b1 + (n0 * s1 - n1 * s0) * b2 = 0 ->
  let q := n0 * b0 + n1 * b1 + n2 * b2 in b0 = q * n0 /\ b1 = q * n1 /\ b2 = q * n2.
Proof.
  intros U O S B T q.
  assert (G : forall x, (s0 * s0 + s1 * s1 + s2 * s2) * x = 0 -> x = 0).
  { intros x H. apply Rmult_integral in H. tauto. }
  repeat split; apply Rminus_diag_uniq, G; unfold q; nsatz.
Qed.

(** ** Regularity of the matrix of eigenvectors *)
Ltac rows H m := 
  let H0 := fresh in let H1 := fresh in let H2 := fresh in let H3 := fresh in
  pose proof (H 0%nat ltac:(lia)) as H0; pose proof (H 1%nat ltac:(lia)) as H1;
  try (pose proof (H 2%nat ltac:(lia)) as H2); try (pose proof (H 3%nat ltac:(lia)) as H3).

(** the solution of the systems with a unit vector on the right *)
Definition rowvec (d : nat) (c : R) (n : vec) (sign : R) : vec := fun i => match i with 0 => sign / 2 | S k => n k / (2 * c) end.
Lemma eigen_solution d c n e x : dim_ok d -> c <> 0 -> unit_normal d n -> (e = d - 1 \/ e = d)%nat ->
  solves (d + 1) (eigenvectors_transposed d c n) (unit_vector e) x ->
  forall i, (i < d + 1)%nat -> x i = rowvec d c n (if (e =? d)%nat then -1 else 1) i.
Proof.
  intros D C U E S.
  destruct D as [->|[->| ->]]; unfold unit_normal, inner in U; cbn [rsum] in U; rewrite ?Rplus_0_l in U.
  - pose proof (S 0%nat ltac:(lia)) as S0. pose proof (S 1%nat ltac:(lia)) as S1.
    unfold apply in S0, S1. cbn [rsum Nat.add eigenvectors_transposed] in S0, S1.
    assert (N : n 0%nat <> 0) by nra.
    assert (Q : x 0%nat = (if (e =? 1)%nat then -1 else 1) / 2 /\ c * n 0%nat * x 1%nat = 1 / 2)
      by (destruct E as [->| ->]; cbn in S0, S1 |- *; lra).
    destruct Q as [Q0 Q1]. intros i I. destruct i as [|[|]]; [exact Q0| |lia]. cbn [rowvec].
    assert (X : x 1%nat = n 0%nat * (c * n 0%nat * x 1%nat) / c) by (transitivity (n 0%nat * n 0%nat * x 1%nat); [rewrite U; ring | field; auto]).
    rewrite X, Q1. field; auto.
  - pose proof (S 0%nat ltac:(lia)) as S0. pose proof (S 1%nat ltac:(lia)) as S1. pose proof (S 2%nat ltac:(lia)) as S2.
    unfold apply in S0, S1, S2. cbn [rsum Nat.add eigenvectors_transposed] in S0, S1, S2.
    assert (Q : x 0%nat = (if (e =? 2)%nat then -1 else 1) / 2 /\ c * (n 0%nat * x 1%nat + n 1%nat * x 2%nat) = 1 / 2 /\ - n 1%nat * x 1%nat + n 0%nat * x 2%nat = 0)
      by (destruct E as [->| ->]; cbn in S0, S1, S2 |- *; lra).
    destruct Q as (Q0 & Q1 & Q2).
    assert (Q1' : n 0%nat * x 1%nat + n 1%nat * x 2%nat = 1 / (2 * c)).
    { apply Rmult_eq_reg_l with c; auto. rewrite Q1. field; auto. }
    intros i I. destruct i as [|[|[|]]]; [exact Q0| | |lia]; cbn [rowvec].
    + replace (x 1%nat) with (n 0%nat * (n 0%nat * x 1%nat + n 1%nat * x 2%nat) - n 1%nat * (- n 1%nat * x 1%nat + n 0%nat * x 2%nat)) by (transitivity ((n 0%nat * n 0%nat + n 1%nat * n 1%nat) * x 1%nat); [ring | rewrite U; ring]).
      rewrite Q1', Q2. field; auto.
    + replace (x 2%nat) with (n 1%nat * (n 0%nat * x 1%nat + n 1%nat * x 2%nat) + n 0%nat * (- n 1%nat * x 1%nat + n 0%nat * x 2%nat)) by (transitivity ((n 0%nat * n 0%nat + n 1%nat * n 1%nat) * x 2%nat); [ring | rewrite U; ring]).
      rewrite Q1', Q2. field; auto.
  - pose proof (S 0%nat ltac:(lia)) as S0. pose proof (S 1%nat ltac:(lia)) as S1. pose proof (S 2%nat ltac:(lia)) as S2. pose proof (S 3%nat ltac:(lia)) as S3.
    unfold apply in S0, S1, S2, S3. cbn [rsum Nat.add eigenvectors_transposed] in S0, S1, S2, S3.
    pose proof (tangent_orthogonal n) as O. pose proof (tangent_nonzero n) as NZ. unfold unit_normal, inner in O, NZ. rewrite !sum3 in O. rewrite sum3 in NZ at 1.
    unfold cross in S1. cbv beta iota in S1.
    set (s := tangent n) in *. cbv zeta in *.
    assert (Q : x 0%nat = (if (e =? 3)%nat then -1 else 1) / 2 /\ c * (n 0%nat * x 1%nat + n 1%nat * x 2%nat + n 2%nat * x 3%nat) = 1 / 2 /\
      s 0%nat * x 1%nat + s 1%nat * x 2%nat + s 2%nat * x 3%nat = 0 /\
      (n 1%nat * s 2%nat - n 2%nat * s 1%nat) * x 1%nat + (n 2%nat * s 0%nat - n 0%nat * s 2%nat) * x 2%nat + (n 0%nat * s 1%nat - n 1%nat * s 0%nat) * x 3%nat = 0)
      by (destruct E as [->| ->]; cbn in S0, S1, S2, S3 |- *; lra).
    destruct Q as (Q0 & Q1 & Q2 & Q3).
    assert (Q1' : n 0%nat * x 1%nat + n 1%nat * x 2%nat + n 2%nat * x 3%nat = 1 / (2 * c)).
    { apply Rmult_eq_reg_l with c; auto. rewrite Q1. field; auto. }
    destruct (only_normal (n 0%nat) (n 1%nat) (n 2%nat) (s 0%nat) (s 1%nat) (s 2%nat) (x 1%nat) (x 2%nat) (x 3%nat)) as (X1 & X2 & X3); auto.
    { rewrite <- (sum3 (fun k => s k * s k)). apply NZ. exact U. }
    rewrite Q1' in X1, X2, X3.
    intros i I. destruct i as [|[|[|[|]]]]; [exact Q0| | | |lia]; cbn [rowvec]; rewrite ?X1, ?X2, ?X3; field; auto.
Qed.

Lemma eigen_regular d c n : dim_ok d -> c <> 0 -> unit_normal d n -> regular (d + 1) (eigenvectors_transposed d c n).
Proof.
  intros D C U x S i I.
  (* add the solution for a unit vector *)
  assert (G : forall y, solves (d + 1) (eigenvectors_transposed d c n) (unit_vector d) y -> x i = 0).
  { intros y Y.
    assert (Z : solves (d + 1) (eigenvectors_transposed d c n) (unit_vector d) (plusv y x)).
    { intros j J. specialize (Y j J). specialize (S j J). unfold zerov in S. rewrite <- Y. rewrite <- (Rplus_0_r (apply _ _ y j)), <- S.
      unfold apply, plusv. rewrite <- rsum_plus. apply rsum_ext. intros. ring. }
    pose proof (eigen_solution d c n d _ D C U (or_intror eq_refl) Y i I). pose proof (eigen_solution d c n d _ D C U (or_intror eq_refl) Z i I).
    unfold plusv in *. lra. }
  apply (G (rowvec d c n (-1))). clear G S I i x.
  intros i I. unfold apply. 
  destruct D as [->|[->| ->]]; unfold unit_normal, inner in U; cbn [rsum] in U; rewrite ?Rplus_0_l in U.
  - destruct i as [|[|]]; [| |lia]; cbn [rsum Nat.add eigenvectors_transposed rowvec]; unfold unit_vector; cbn [Nat.eqb];
      field_simplify; auto; nra.
  - destruct i as [|[|[|]]]; [| | |lia]; cbn [rsum Nat.add eigenvectors_transposed rowvec]; unfold unit_vector; cbn [Nat.eqb].
    + field; auto.
    + transitivity (-1 / 2 + (n 0%nat * n 0%nat + n 1%nat * n 1%nat) / 2); [field; auto | rewrite U; field].
    + transitivity (1 / 2 + (n 0%nat * n 0%nat + n 1%nat * n 1%nat) / 2); [field; auto | rewrite U; field].
  - pose proof (tangent_orthogonal n) as O. unfold inner in O. rewrite sum3 in O.
    destruct i as [|[|[|[|]]]]; [| | | |lia]; cbn [rsum Nat.add eigenvectors_transposed rowvec]; unfold unit_vector; cbn [Nat.eqb].
    + transitivity ((tangent n 0%nat * n 0%nat + tangent n 1%nat * n 1%nat + tangent n 2%nat * n 2%nat) / (2 * c)); [field; auto | rewrite O; field; auto].
    + unfold cross. field; auto.
    + transitivity (-1 / 2 + (n 0%nat * n 0%nat + n 1%nat * n 1%nat + n 2%nat * n 2%nat) / 2); [field; auto | rewrite U; field].
    + transitivity (1 / 2 + (n 0%nat * n 0%nat + n 1%nat * n 1%nat + n 2%nat * n 2%nat) / 2); [field; auto | rewrite U; field].
Qed.

(** the two matrices are transposed to each other, and their vectors are waves of speed 0, ..., 0, c, -c *)
Lemma eigenvectors_transpose d c n i j : dim_ok d -> (i < d + 1)%nat -> (j < d + 1)%nat -> eigenvectors d c n i j = eigenvectors_transposed d c n j i.
Proof.
  intros D I J. destruct D as [->|[->| ->]].
  - destruct i as [|[|]], j as [|[|]]; try lia; reflexivity.
  - destruct i as [|[|[|]]], j as [|[|[|]]]; try lia; reflexivity.
  - destruct i as [|[|[|[|]]]], j as [|[|[|[|]]]]; try lia; reflexivity.
Qed.
Lemma eigen_waves d c n k i : dim_ok d -> unit_normal d n -> (k < d + 1)%nat -> (i < d + 1)%nat ->
  acoustics_nflux d c n (eigenvectors_transposed d c n k) i = acoustics_speed d c k * eigenvectors_transposed d c n k i.
Proof.
  intros D U K I. unfold acoustics_speed, acoustics_nflux, momentum, inner.
  destruct D as [->|[->| ->]]; unfold unit_normal, inner in U; cbn [rsum] in U; rewrite ?Rplus_0_l in U.
  - destruct i as [|[|]], k as [|[|]]; try lia; cbn [rsum Nat.add Nat.sub Nat.eqb eigenvectors_transposed];
      try (transitivity (c * (n 0%nat * n 0%nat)); [ring | rewrite U; ring]); try ring.
  - destruct i as [|[|[|]]], k as [|[|[|]]]; try lia; cbn [rsum Nat.add Nat.sub Nat.eqb eigenvectors_transposed];
      try (transitivity (c * (n 0%nat * n 0%nat + n 1%nat * n 1%nat)); [ring | rewrite U; ring]); try ring.
  - pose proof (tangent_orthogonal n) as O. unfold inner in O. rewrite sum3 in O.
    destruct i as [|[|[|[|]]]], k as [|[|[|[|]]]]; try lia; cbn [rsum Nat.add Nat.sub Nat.eqb eigenvectors_transposed];
      try (transitivity (c * (n 0%nat * n 0%nat + n 1%nat * n 1%nat + n 2%nat * n 2%nat)); [ring | rewrite U; ring]);
      try ring; try lra; unfold cross; ring.
Qed.

(** ** The upwind matrices of acoustics *)
Lemma rowvec_dot d c n s u : dim_ok d -> c <> 0 ->
  rsum (d + 1) (fun j => rowvec d c n s j * u j) = (s * u 0%nat + inner d (momentum u) n / c) / 2.
Proof.
  intros D C. unfold inner, momentum.
  destruct D as [->|[->| ->]]; cbn [rsum Nat.add rowvec]; field; auto.
Qed.
Lemma acoustics_plus_apply solve d c n u i : dim_ok d -> c <> 0 -> unit_normal d n ->
  solves (d + 1) (eigenvectors_transposed d c n) (unit_vector (d - 1)) (solve (d + 1)%nat (eigenvectors_transposed d c n) (unit_vector (d - 1))) ->
  (i < d + 1)%nat ->
  apply (d + 1) (acoustics_plus solve d c n) u i = (acoustics_nflux d c n u i + c * acoustics_proj d n u i) / 2.
Proof.
  intros D C U S I. unfold acoustics_plus. rewrite apply_outer.
  rewrite (rsum_ext _ _ (fun j => rowvec d c n 1 j * u j)).
  2: { intros j J. rewrite (eigen_solution d c n (d - 1) _ D C U (or_introl eq_refl) S j J).
       destruct (Nat.eqb_spec (d - 1) d); [destruct D as [->|[->| ->]]; lia | reflexivity]. }
  rewrite rowvec_dot by auto. unfold acoustics_nflux, acoustics_proj. generalize (inner d (momentum u) n). intros q.
  destruct D as [->|[->| ->]].
  - destruct i as [|[|]]; try lia; cbn; field; auto.
  - destruct i as [|[|[|]]]; try lia; cbn; field; auto.
  - destruct i as [|[|[|[|]]]]; try lia; cbn [Nat.sub eigenvectors_transposed]; field; auto.
Qed.
Lemma acoustics_minus_apply solve d c n u i : dim_ok d -> c <> 0 -> unit_normal d n ->
  solves (d + 1) (eigenvectors_transposed d c n) (unit_vector d) (solve (d + 1)%nat (eigenvectors_transposed d c n) (unit_vector d)) ->
  (i < d + 1)%nat ->
  apply (d + 1) (acoustics_minus solve d c n) u i = (acoustics_nflux d c n u i - c * acoustics_proj d n u i) / 2.
Proof.
  intros D C U S I. unfold acoustics_minus. rewrite apply_outer.
  rewrite (rsum_ext _ _ (fun j => rowvec d c n (-1) j * u j)).
  2: { intros j J. rewrite (eigen_solution d c n d _ D C U (or_intror eq_refl) S j J). now rewrite Nat.eqb_refl. }
  rewrite rowvec_dot by auto. unfold acoustics_nflux, acoustics_proj. generalize (inner d (momentum u) n). intros q.
  destruct D as [->|[->| ->]].
  - destruct i as [|[|]]; try lia; cbn; field; auto.
  - destruct i as [|[|[|]]]; try lia; cbn; field; auto.
  - destruct i as [|[|[|[|]]]]; try lia; cbn [Nat.sub eigenvectors_transposed]; field; auto.
Qed.

(** ** The upwind matrices of the Maxwell equations *)
Definition maxwell_proj (n u : vec) : vec :=
  fun i => if (i <? 3)%nat then u i - inner 3 n (fieldD u) * n i else u i - inner 3 n (fieldB u) * n (i - 3)%nat.
Lemma lt3 i : (i < 3)%nat -> i = 0%nat \/ i = 1%nat \/ i = 2%nat. Proof. lia. Qed.
Lemma maxwell_rotation n i : unit_normal 3 n -> (i < 3)%nat -> crossp n (maxwell_re n) i = maxwell_im n i /\ crossp n (maxwell_im n) i = - maxwell_re n i.
Proof.
  unfold unit_normal, inner. rewrite sum3. intros U I. unfold crossp, maxwell_re, maxwell_im.
  destruct (lt3 i I) as [->|[->| ->]]; destruct Rlt_dec; cbv beta iota; split; first [ring | lra].
Qed.
Lemma maxwell_tangential n : unit_normal 3 n -> inner 3 n (maxwell_re n) = 0 /\ inner 3 n (maxwell_im n) = 0 /\ inner 3 (maxwell_re n) (maxwell_im n) = 0.
Proof.
  unfold unit_normal, inner. rewrite sum3. intros U. rewrite !sum3. unfold maxwell_re, maxwell_im.
  destruct Rlt_dec; cbv beta iota; clear -U; revert U; generalize (n 0%nat) (n 1%nat) (n 2%nat); intros a b c U; (split; [|split]); first [ring | nsatz].
Qed.
Lemma maxwell_length n : unit_normal 3 n -> inner 3 (maxwell_re n) (maxwell_re n) = inner 3 (maxwell_im n) (maxwell_im n) /\ 0 < inner 3 (maxwell_im n) (maxwell_im n).
Proof.
  unfold unit_normal, inner. rewrite sum3. intros U. rewrite !sum3. unfold maxwell_re, maxwell_im.
  destruct Rlt_dec as [L|L]; cbv beta iota.
  - split; [clear -U; revert U; generalize (n 0%nat) (n 1%nat) (n 2%nat); intros a b c U; nsatz|]. apply Rabs_def2 in L. assert (n 2%nat * n 2%nat < 1) by nra. nra.
  - split; [clear -U; revert U; generalize (n 0%nat) (n 1%nat) (n 2%nat); intros a b c U; nsatz|]. assert (1 / 4 <= n 2%nat * n 2%nat); [|nra].
    apply Rnot_lt_le in L. rewrite <- (Rabs_right (n 2%nat * n 2%nat)) by nra. rewrite Rabs_mult. nra.
Qed.

Section maxwell.
  Context (invert : nat -> mat -> mat) (eps mu : R) (n : vec).
  Hypothesis (E : 0 < eps) (Mu : 0 < mu) (U : unit_normal 3 n).
  Hypothesis INV : inverse 6 (maxwell_eigenvectors eps mu n) (invert 6%nat (maxwell_eigenvectors eps mu n)).
  Let Rm := maxwell_eigenvectors eps mu n.
  Let X := invert 6%nat Rm.
  Let coord (u : vec) : vec := fun k => rsum 6 (fun j => X k j * u j).

  Lemma coord_spec u i : (i < 6)%nat -> rsum 6 (fun k => Rm i k * coord u k) = u i.
  Proof.
    intros I. unfold coord.
    rewrite (rsum_ext _ _ (fun k => rsum 6 (fun j => Rm i k * X k j * u j))) by (intros; rewrite <- rsum_scal; apply rsum_ext; intros; ring).
    rewrite rsum_swap.
    rewrite (rsum_ext _ _ (fun j => (if (i =? j)%nat then 1 else 0) * u j)).
    2: { intros j J. rewrite rsum_scal_r. f_equal. now apply INV. }
    destruct i as [|[|[|[|[|[|]]]]]]; try lia; cbn; ring.
  Qed.
  Lemma split_apply D u i : apply 6 (mmul 6 (mmul 6 Rm (fun i j => if (i =? j)%nat then D i else 0)) X) u i = rsum 6 (fun k => Rm i k * D k * coord u k).
  Proof.
    unfold apply. rewrite (rsum_ext _ _ (fun j => rsum 6 (fun k => Rm i k * D k * X k j * u j))).
    - rewrite rsum_swap. apply rsum_ext. intros k K. unfold coord. rewrite <- rsum_scal. apply rsum_ext. intros. ring.
    - intros j J. rewrite mmul_sum, <- rsum_scal_r. apply rsum_ext. intros k K. f_equal. f_equal. rewrite mmul_sum.
      destruct k as [|[|[|[|[|[|]]]]]]; try lia; cbn; ring.
  Qed.
  Lemma roots : sqrt eps <> 0 /\ sqrt mu <> 0 /\ sqrt (eps * mu) = sqrt eps * sqrt mu /\ sqrt eps * sqrt eps = eps /\ sqrt mu * sqrt mu = mu.
  Proof.
    pose proof (sqrt_lt_R0 _ E). pose proof (sqrt_lt_R0 _ Mu). repeat split; try lra.
    - rewrite sqrt_mult; lra.
    - apply sqrt_sqrt. lra.
    - apply sqrt_sqrt. lra.
  Qed.
  (** the fields in terms of the coordinates *)
  Let re := maxwell_re n. Let im := maxwell_im n.
  Lemma fields u i : (i < 3)%nat ->
    u i = sqrt eps * (re i * (coord u 0%nat + coord u 3%nat) + im i * (coord u 2%nat - coord u 1%nat) + n i * coord u 4%nat) /\
    u (i + 3)%nat = sqrt mu * (im i * (coord u 0%nat - coord u 3%nat) + re i * (coord u 1%nat + coord u 2%nat) + n i * coord u 5%nat).
  Proof.
    intros I. split.
    - rewrite <- (coord_spec u i) at 1 by lia. cbn [rsum]. unfold Rm, maxwell_eigenvectors.
      destruct (Nat.ltb_spec i 3); [|lia]. fold re im. ring.
    - rewrite <- (coord_spec u (i + 3)) at 1 by lia. cbn [rsum]. unfold Rm, maxwell_eigenvectors.
      destruct (Nat.ltb_spec (i + 3) 3); [lia|]. replace (i + 3 - 3)%nat with i by lia. fold re im. ring.
  Qed.
  Lemma cross_lin a b c x y z i : crossp n (fun k => a * (x k * b + y k * c + n k * z)) i = a * (b * crossp n x i + c * crossp n y i).
  Proof. unfold crossp. destruct i as [|[|]]; ring. Qed.
  Lemma cross_ext x y i : (forall k, (k < 3)%nat -> x k = y k) -> crossp n x i = crossp n y i.
  Proof. intros H. unfold crossp. rewrite !H by lia. reflexivity. Qed.
  Lemma crossD u i : (i < 3)%nat -> crossp n (fieldD u) i = sqrt eps * (im i * (coord u 0%nat + coord u 3%nat) - re i * (coord u 2%nat - coord u 1%nat)).
  Proof.
    intros I. unfold fieldD. rewrite (cross_ext u _ i (fun k K => proj1 (fields u k K))).
    rewrite cross_lin. destruct (maxwell_rotation n i U I) as [A B]. unfold re, im. rewrite A, B. ring.
  Qed.
  Lemma crossB u i : (i < 3)%nat -> crossp n (fieldB u) i = sqrt mu * (- re i * (coord u 0%nat - coord u 3%nat) + im i * (coord u 1%nat + coord u 2%nat)).
  Proof.
    intros I. unfold fieldB. rewrite (cross_ext _ _ i (fun k K => proj2 (fields u k K))).
    rewrite cross_lin. destruct (maxwell_rotation n i U I) as [A B]. unfold re, im. rewrite A, B. ring.
  Qed.
  Lemma inner_lin a b c z x y : inner 3 n (fun k => a * (x k * b + y k * c + n k * z)) = a * (b * inner 3 n x + c * inner 3 n y + z * inner 3 n n).
  Proof. unfold inner. rewrite !sum3. ring. Qed.
  Lemma innerD u : inner 3 n (fieldD u) = sqrt eps * coord u 4%nat.
  Proof.
    rewrite (inner_ext 3 n (fieldD u) n _ (fun _ _ => eq_refl) (fun k K => proj1 (fields u k K))). rewrite inner_lin.
    destruct (maxwell_tangential n U) as (A & B & _). unfold re, im. rewrite A, B. unfold unit_normal in U. rewrite U. ring.
  Qed.
  Lemma innerB u : inner 3 n (fieldB u) = sqrt mu * coord u 5%nat.
  Proof.
    rewrite (inner_ext 3 n (fieldB u) n _ (fun _ _ => eq_refl) (fun k K => proj2 (fields u k K))). rewrite inner_lin.
    destruct (maxwell_tangential n U) as (A & B & _). unfold re, im. rewrite A, B. unfold unit_normal in U. rewrite U. ring.
  Qed.
  Lemma maxwell_plus_apply u i : (i < 6)%nat ->
    apply 6 (maxwell_plus invert eps mu n) u i = (maxwell_nflux eps mu n u i + 1 / sqrt (eps * mu) * maxwell_proj n u i) / 2.
  Proof.
    intros I. destruct roots as (R1 & R2 & R3 & R4 & R5).
    assert (IM : / mu = / (sqrt mu * sqrt mu)) by now rewrite R5. assert (IE : / eps = / (sqrt eps * sqrt eps)) by now rewrite R4.
    transitivity (rsum 6 (fun k => Rm i k * (if (k <? 2)%nat then 1 / sqrt (eps * mu) else 0) * coord u k)).
    { rewrite <- split_apply. reflexivity. }
    unfold Nat.ltb. cbn [rsum Nat.leb]. rewrite R3. unfold maxwell_nflux, maxwell_proj, Rm, maxwell_eigenvectors. fold re im.
    destruct (Nat.ltb_spec i 3) as [L|L].
    - rewrite crossB, innerD by auto. destruct (fields u i L) as [F _]. rewrite F at 1. unfold Rdiv. rewrite IM. field. auto.
    - assert (J : (i - 3 < 3)%nat) by lia. rewrite crossD, innerB by auto. destruct (fields u (i - 3) J) as [_ F].
      replace (i - 3 + 3)%nat with i in F by lia. rewrite F at 1. unfold Rdiv. rewrite IE. field. auto.
  Qed.
  Lemma maxwell_minus_apply u i : (i < 6)%nat ->
    apply 6 (maxwell_minus invert eps mu n) u i = (maxwell_nflux eps mu n u i - 1 / sqrt (eps * mu) * maxwell_proj n u i) / 2.
  Proof.
    intros I. destruct roots as (R1 & R2 & R3 & R4 & R5).
    assert (IM : / mu = / (sqrt mu * sqrt mu)) by now rewrite R5. assert (IE : / eps = / (sqrt eps * sqrt eps)) by now rewrite R4.
    transitivity (rsum 6 (fun k => Rm i k * (if ((2 <=? k) && (k <? 4))%nat then -1 / sqrt (eps * mu) else 0) * coord u k)).
    { rewrite <- split_apply. reflexivity. }
    unfold Nat.ltb. cbn [rsum Nat.leb andb]. rewrite R3. unfold maxwell_nflux, maxwell_proj, Rm, maxwell_eigenvectors. fold re im.
    destruct (Nat.ltb_spec i 3) as [L|L].
    - rewrite crossB, innerD by auto. destruct (fields u i L) as [F _]. rewrite F at 1. unfold Rdiv. rewrite IM. field. auto.
    - assert (J : (i - 3 < 3)%nat) by lia. rewrite crossD, innerB by auto. destruct (fields u (i - 3) J) as [_ F].
      replace (i - 3 + 3)%nat with i in F by lia. rewrite F at 1. unfold Rdiv. rewrite IE. field. auto.
  Qed.
End maxwell.
