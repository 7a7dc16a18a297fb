(** Waves, splitting, and what a single face does. *)
From Verif Require Import Common CommonFacts CdModel CdSpec CdProofs WaveModel WaveSpec WaveProofs WaveProofs2 WaveProofs3 WaveProofs4.
From Coq Require Import Reals Lra Lia Nsatz.
Open Scope R_scope.

Lemma acoustics_split_proof solve d c n : dim_ok d -> 0 < c -> unit_normal d n -> solve_ok solve d c n ->
  upwind_split (d + 1) (acoustics_nflux d c n) (acoustics_plus solve d c n) (acoustics_minus solve d c n).
Proof.
  intros D C N SO. apply (generic_split (d + 1) (acoustics_nflux d c n) (acoustics_proj d n)) with (c := c); auto.
  - intros l u v E i I.
    assert (E' : inner d (momentum u) n = l * inner d (momentum v) n).
    { unfold inner. rewrite <- rsum_scal. apply rsum_ext. intros k K. unfold momentum. rewrite E by lia. ring. }
    unfold acoustics_nflux. destruct i as [|k]; [exact E'|]. rewrite (E 0%nat) by lia. ring.
  - intros l u v E i I.
    assert (E' : inner d (momentum u) n = l * inner d (momentum v) n).
    { unfold inner. rewrite <- rsum_scal. apply rsum_ext. intros k K. unfold momentum. rewrite E by lia. ring. }
    unfold acoustics_proj. destruct i as [|k]; [apply E; lia|]. rewrite E'. ring.
  - intros v i I. unfold unit_normal in N.
    assert (E : forall a, inner d (fun k => a * n k) n = a) by (intros a; transitivity (a * inner d n n); [unfold inner; rewrite <- rsum_scal; apply rsum_ext; intros; ring | rewrite N; ring]).
    unfold acoustics_nflux, acoustics_proj. destruct i as [|k]; [|ring].
    rewrite (inner_ext d (momentum _) n (fun k => c * c * v 0%nat * n k) n) by (auto; intros; unfold momentum; rewrite Nat.add_1_r; reflexivity). apply E.
  - intros v i I. unfold unit_normal in N.
    assert (E : forall a, inner d (fun k => a * n k) n = a) by (intros a; transitivity (a * inner d n n); [unfold inner; rewrite <- rsum_scal; apply rsum_ext; intros; ring | rewrite N; ring]).
    unfold acoustics_proj at 1. destruct i as [|k]; [reflexivity|].
    rewrite (inner_ext d (momentum _) n (fun k => inner d (momentum v) n * n k) n) by (auto; intros; unfold momentum; rewrite Nat.add_1_r; reflexivity). rewrite E. reflexivity.
  - intros v i I. apply acoustics_plus_apply; auto; lra.
  - intros v i I. apply acoustics_minus_apply; auto; lra.
Qed.

Lemma maxwell_split_proof invert eps mu n : 0 < eps -> 0 < mu -> unit_normal 3 n -> invert_ok invert eps mu n ->
  upwind_split 6 (maxwell_nflux eps mu n) (maxwell_plus invert eps mu n) (maxwell_minus invert eps mu n).
Proof.
  intros E Mu N IO. apply (generic_split 6 (maxwell_nflux eps mu n) (maxwell_proj n)) with (c := 1 / sqrt (eps * mu)); auto.
  - now apply speed_pos.
  - intros l u v EE i I. unfold maxwell_nflux, crossp, fieldD, fieldB. cbn [Nat.add].
    rewrite !EE by lia. destruct i as [|[|[|[|[|[|]]]]]]; try lia; unfold Nat.ltb; cbn; unfold Rdiv; ring.
  - intros l u v EE i I. unfold maxwell_proj, inner, fieldD, fieldB. rewrite !sum3. cbn [Nat.add]. rewrite !EE by lia. destruct (i <? 3)%nat; ring.
  - assert (SQ : 1 / sqrt (eps * mu) * (1 / sqrt (eps * mu)) = / (eps * mu)).
    { assert (P : 0 < eps * mu) by nra. pose proof (sqrt_lt_R0 _ P). pose proof (sqrt_sqrt _ (Rlt_le _ _ P)) as S.
      replace (/ (eps * mu)) with (/ (sqrt (eps * mu) * sqrt (eps * mu))) by now rewrite S. field. lra. }
    intros v i I. rewrite SQ. unfold unit_normal, inner in N. rewrite sum3 in N.
    unfold maxwell_nflux, maxwell_proj, crossp, inner, fieldD, fieldB. rewrite !sum3.
    assert (F : forall a b c x y z k, a * a + b * b + c * c = 1 -> (k < 3)%nat ->
      match k with 0 => b * (a * y - b * x) - c * (c * x - a * z) | 1 => c * (b * z - c * y) - a * (a * y - b * x) | _ => a * (c * x - a * z) - b * (b * z - c * y) end =
      - (match k with 0 => x | 1 => y | _ => z end - (a * x + b * y + c * z) * match k with 0 => a | 1 => b | _ => c end)).
    { clear. intros a b c x y z k U K. destruct k as [|[|k]]; clear K; cbv iota; nsatz. }
    pose proof (F (n 0%nat) (n 1%nat) (n 2%nat) (v 0%nat) (v 1%nat) (v 2%nat)) as F1.
    pose proof (F (n 0%nat) (n 1%nat) (n 2%nat) (v 3%nat) (v 4%nat) (v 5%nat)) as F2. clear F.
    destruct i as [|[|[|[|[|[|]]]]]]; try lia; unfold Nat.ltb; cbn [Nat.leb Nat.sub Nat.add].
    + specialize (F1 0%nat N ltac:(lia)). cbv iota in F1. transitivity (- (- (v 0%nat - (n 0%nat * v 0%nat + n 1%nat * v 1%nat + n 2%nat * v 2%nat) * n 0%nat)) / (eps * mu)); [rewrite <- F1|]; field; lra.
    + specialize (F1 1%nat N ltac:(lia)). cbv iota in F1. transitivity (- (- (v 1%nat - (n 0%nat * v 0%nat + n 1%nat * v 1%nat + n 2%nat * v 2%nat) * n 1%nat)) / (eps * mu)); [rewrite <- F1|]; field; lra.
    + specialize (F1 2%nat N ltac:(lia)). cbv iota in F1. transitivity (- (- (v 2%nat - (n 0%nat * v 0%nat + n 1%nat * v 1%nat + n 2%nat * v 2%nat) * n 2%nat)) / (eps * mu)); [rewrite <- F1|]; field; lra.
    + specialize (F2 0%nat N ltac:(lia)). cbv iota in F2. transitivity (- (- (v 3%nat - (n 0%nat * v 3%nat + n 1%nat * v 4%nat + n 2%nat * v 5%nat) * n 0%nat)) / (eps * mu)); [rewrite <- F2|]; field; lra.
    + specialize (F2 1%nat N ltac:(lia)). cbv iota in F2. transitivity (- (- (v 4%nat - (n 0%nat * v 3%nat + n 1%nat * v 4%nat + n 2%nat * v 5%nat) * n 1%nat)) / (eps * mu)); [rewrite <- F2|]; field; lra.
    + specialize (F2 2%nat N ltac:(lia)). cbv iota in F2. transitivity (- (- (v 5%nat - (n 0%nat * v 3%nat + n 1%nat * v 4%nat + n 2%nat * v 5%nat) * n 2%nat)) / (eps * mu)); [rewrite <- F2|]; field; lra.
  - intros v i I. unfold unit_normal, inner in N. rewrite sum3 in N. unfold maxwell_proj, inner, fieldD, fieldB. rewrite !sum3.
    assert (F : forall a b c x y z q, a * a + b * b + c * c = 1 ->
      a * (x - (a * x + b * y + c * z) * a) + b * (y - (a * x + b * y + c * z) * b) + c * (z - (a * x + b * y + c * z) * c) = q * 0).
    { clear. intros a b c x y z q U. replace (q * 0) with 0 by ring. nsatz. }
    unfold Nat.ltb. cbn [Nat.leb Nat.sub Nat.add].
    destruct (match i with 0 | 1 | 2 => true | _ => false end) eqn:B; destruct i as [|[|[|[|[|[|]]]]]]; try lia; try discriminate; cbn [Nat.leb Nat.sub];
      rewrite (F _ _ _ _ _ _ 0 N); ring.
  - intros v i I. now apply maxwell_plus_apply.
  - intros v i I. now apply maxwell_minus_apply.
Qed.

Lemma frame_independent a b n p q s : unit_normal 3 n -> inner 3 n a = 0 -> inner 3 n b = 0 -> inner 3 a b = 0 -> 0 < inner 3 a a -> 0 < inner 3 b b ->
  (forall i, (i < 3)%nat -> a i * p + b i * q + n i * s = 0) -> p = 0 /\ q = 0 /\ s = 0.
Proof.
  unfold unit_normal, inner. rewrite !sum3. intros U A B AB LA LB E.
  pose proof (E 0%nat ltac:(lia)) as E0. pose proof (E 1%nat ltac:(lia)) as E1. pose proof (E 2%nat ltac:(lia)) as E2. clear E.
  revert U A B AB LA LB E0 E1 E2. generalize (n 0%nat) (n 1%nat) (n 2%nat) (a 0%nat) (a 1%nat) (a 2%nat) (b 0%nat) (b 1%nat) (b 2%nat).
  intros n0 n1 n2 a0 a1 a2 b0 b1 b2 U A B AB LA LB E0 E1 E2.
  assert (S0 : s = 0).
  { transitivity ((n0 * n0 + n1 * n1 + n2 * n2) * s + p * (n0 * a0 + n1 * a1 + n2 * a2) + q * (n0 * b0 + n1 * b1 + n2 * b2)); [rewrite U, A, B; ring|].
    transitivity (n0 * (a0 * p + b0 * q + n0 * s) + n1 * (a1 * p + b1 * q + n1 * s) + n2 * (a2 * p + b2 * q + n2 * s)); [ring|]. rewrite E0, E1, E2. ring. }
  assert (P0 : (a0 * a0 + a1 * a1 + a2 * a2) * p = 0).
  { transitivity ((a0 * a0 + a1 * a1 + a2 * a2) * p + s * (n0 * a0 + n1 * a1 + n2 * a2) + q * (a0 * b0 + a1 * b1 + a2 * b2)); [rewrite A, AB; ring|].
    transitivity (a0 * (a0 * p + b0 * q + n0 * s) + a1 * (a1 * p + b1 * q + n1 * s) + a2 * (a2 * p + b2 * q + n2 * s)); [ring|]. rewrite E0, E1, E2. ring. }
  assert (Q0 : (b0 * b0 + b1 * b1 + b2 * b2) * q = 0).
  { transitivity ((b0 * b0 + b1 * b1 + b2 * b2) * q + s * (n0 * b0 + n1 * b1 + n2 * b2) + p * (a0 * b0 + a1 * b1 + a2 * b2)); [rewrite B, AB; ring|].
    transitivity (b0 * (a0 * p + b0 * q + n0 * s) + b1 * (a1 * p + b1 * q + n1 * s) + b2 * (a2 * p + b2 * q + n2 * s)); [ring|]. rewrite E0, E1, E2. ring. }
  apply Rmult_integral in P0, Q0. repeat split; auto; [destruct P0|destruct Q0]; lra.
Qed.
Lemma maxwell_regular_proof eps mu n : 0 < eps -> 0 < mu -> unit_normal 3 n -> regular 6 (maxwell_eigenvectors eps mu n).
Proof.
  intros E Mu N x S.
  destruct (maxwell_tangential n N) as (T1 & T2 & T3). destruct (maxwell_length n N) as (L1 & L2).
  assert (L3 : 0 < inner 3 (maxwell_re n) (maxwell_re n)) by now rewrite L1.
  pose proof (sqrt_lt_R0 _ E). pose proof (sqrt_lt_R0 _ Mu).
  destruct (frame_independent (maxwell_re n) (maxwell_im n) n (x 0%nat + x 3%nat) (x 2%nat - x 1%nat) (x 4%nat)) as (A1 & A2 & A3); auto.
  { intros i I. specialize (S i ltac:(lia)). unfold apply, maxwell_eigenvectors, zerov in S. destruct (Nat.ltb_spec i 3); [|lia]. cbn [rsum] in S.
    apply Rmult_eq_reg_r with (sqrt eps); [|lra]. rewrite Rmult_0_l. rewrite <- S. ring. }
  destruct (frame_independent (maxwell_re n) (maxwell_im n) n (x 1%nat + x 2%nat) (x 0%nat - x 3%nat) (x 5%nat)) as (B1 & B2 & B3); auto.
  { intros i I. specialize (S (i + 3)%nat ltac:(lia)). unfold apply, maxwell_eigenvectors, zerov in S. destruct (Nat.ltb_spec (i + 3) 3); [lia|]. cbn [rsum] in S.
    replace (i + 3 - 3)%nat with i in S by lia. apply Rmult_eq_reg_r with (sqrt mu); [|lra]. rewrite Rmult_0_l. rewrite <- S. ring. }
  intros i I. destruct i as [|[|[|[|[|[|]]]]]]; try lia; lra.
Qed.
Lemma maxwell_waves_proof eps mu n k i : 0 < eps -> 0 < mu -> unit_normal 3 n -> (k < 6)%nat -> (i < 6)%nat ->
  maxwell_nflux eps mu n (fun r => maxwell_eigenvectors eps mu n r k) i = maxwell_speed eps mu k * maxwell_eigenvectors eps mu n i k.
Proof.
  intros E Mu N K I. destruct (roots eps mu E Mu) as (R1 & R2 & R3 & R4 & R5).
  assert (IM : / mu = / (sqrt mu * sqrt mu)) by now rewrite R5. assert (IE : / eps = / (sqrt eps * sqrt eps)) by now rewrite R4.
  assert (CS : forall a u j, crossp n (fun q => u q * a) j = a * crossp n u j) by (intros a u j; unfold crossp; destruct j as [|[|]]; ring).
  assert (CO : forall u j, crossp n (fun q => - u q) j = - crossp n u j) by (intros u j; unfold crossp; destruct j as [|[|]]; ring).
  assert (CN : forall j, crossp n n j = 0) by (intros j; unfold crossp; destruct j as [|[|]]; ring).
  assert (CZ : forall j, crossp n (fun _ => 0) j = 0) by (intros j; unfold crossp; destruct j as [|[|]]; ring).
  assert (CE : forall x y j, (forall q, (q < 3)%nat -> x q = y q) -> crossp n x j = crossp n y j) by (intros x y j Hx; unfold crossp; rewrite !Hx by lia; reflexivity).
  unfold maxwell_nflux, maxwell_speed. rewrite R3.
  destruct (Nat.ltb_spec i 3) as [L|L].
  - rewrite (CE _ (fun q => (match k with 0 => maxwell_im n | 1 => maxwell_re n | 2 => maxwell_re n | 3 => fun q => - maxwell_im n q | 4 => fun _ => 0 | _ => n end) q * sqrt mu) i).
    2: { intros q Q. unfold fieldB, maxwell_eigenvectors. destruct (Nat.ltb_spec (q + 3) 3); [lia|]. replace (q + 3 - 3)%nat with q by lia. destruct k as [|[|[|[|[|]]]]]; reflexivity. }
    rewrite CS. unfold maxwell_eigenvectors. destruct (Nat.ltb_spec i 3); [|lia]. destruct (maxwell_rotation n i N L) as [Q1 Q2]. unfold Rdiv. rewrite IM.
    destruct k as [|[|[|[|[|[|]]]]]]; try lia; unfold Nat.ltb; cbn [Nat.leb]; rewrite ?CO, ?Q1, ?Q2, ?CZ, ?CN; field; auto.
  - assert (J : (i - 3 < 3)%nat) by lia.
    rewrite (CE _ (fun q => (match k with 0 => maxwell_re n | 1 => fun q => - maxwell_im n q | 2 => maxwell_im n | 3 => maxwell_re n | 4 => n | _ => fun _ => 0 end) q * sqrt eps) (i - 3)%nat).
    2: { intros q Q. unfold fieldD, maxwell_eigenvectors. destruct (Nat.ltb_spec q 3); [destruct k as [|[|[|[|[|]]]]]; reflexivity|lia]. }
    rewrite CS. unfold maxwell_eigenvectors. destruct (Nat.ltb_spec i 3); [lia|]. destruct (maxwell_rotation n (i - 3) N J) as [Q1 Q2]. unfold Rdiv. rewrite IE.
    destruct k as [|[|[|[|[|[|]]]]]]; try lia; unfold Nat.ltb; cbn [Nat.leb]; rewrite ?CO, ?Q1, ?Q2, ?CZ, ?CN; field; auto.
Qed.

(** what one cell loses through a face the other one gains *)
Lemma face_conservative m ns nn Ap Am pts x_s x_n e_s e_n i : (i < m)%nat ->
  (forall p, In p pts -> fun_at ns e_s (wf_phi_s p) = 1 /\ fun_at nn e_n (wf_phi_n p) = 1) ->
  let r := wave_alpha_skeleton m ns nn Ap Am pts x_s x_n (zerom, zerom) in
  rsum ns (fun k => e_s k * fst r i k) + rsum nn (fun k => e_n k * snd r i k) = 0.
Proof.
  intros I O r.
  pose (f := fun p => upflux m Ap Am (state_at ns x_s (wf_phi_s p)) (state_at nn x_n (wf_phi_n p)) i).
  assert (E1 : rsum ns (fun k => e_s k * fst r i k) = lsum (fun p => wf_factor p * f p) pts).
  { transitivity (rsum ns (fun k => lsum (fun p => e_s k * (wf_factor p * (f p * wf_phi_s p k))) pts)).
    - apply rsum_ext. intros k K. unfold r. rewrite (proj1 (skeleton_eq m ns nn Ap Am pts x_s x_n zerom zerom i k I) K). unfold zerom at 1. rewrite Rplus_0_l, <- lsum_scal. reflexivity.
    - rewrite rsum_lsum. apply lsum_ext. intros p Ip.
      rewrite (rsum_ext _ _ (fun k => wf_factor p * f p * (e_s k * wf_phi_s p k))) by (intros; ring). rewrite rsum_scal.
      destruct (O p Ip) as [O1 _]. unfold fun_at in O1. rewrite O1. ring. }
  assert (E2 : rsum nn (fun k => e_n k * snd r i k) = lsum (fun p => -1 * (wf_factor p * f p)) pts).
  { transitivity (rsum nn (fun k => lsum (fun p => e_n k * (wf_factor p * (- f p * wf_phi_n p k))) pts)).
    - apply rsum_ext. intros k K. unfold r. rewrite (proj2 (skeleton_eq m ns nn Ap Am pts x_s x_n zerom zerom i k I) K). unfold zerom at 1. rewrite Rplus_0_l, <- lsum_scal. reflexivity.
    - rewrite rsum_lsum. apply lsum_ext. intros p Ip.
      rewrite (rsum_ext _ _ (fun k => - (wf_factor p * f p) * (e_n k * wf_phi_n p k))) by (intros; ring). rewrite rsum_scal.
      destruct (O p Ip) as [_ O1]. unfold fun_at in O1. rewrite O1. ring. }
  rewrite E1, E2, lsum_scal. ring.
Qed.
