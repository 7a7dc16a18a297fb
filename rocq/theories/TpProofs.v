(** Two-phase flow: proofs. *)
From Verif Require Import Common CdModel CdSpec CdProofs FlowProofs TpModel TpSpec.
From Coq Require Import Reals Lra Lia.
Open Scope R_scope.
Local Arguments rsum : simpl never.

Lemma eps_pos : 0 < tp_eps. Proof. unfold tp_eps. apply Rinv_0_lt_compat. apply pow_lt. lra. Qed.
Lemma aavg_mean a b : aavg a b = mean a b. Proof. unfold aavg, mean. field. Qed.
Lemma havg_harmonic a b : 0 <= a -> 0 <= b -> havg a b = harmonic (a + tp_eps) (b + tp_eps).
Proof. intros. pose proof eps_pos. unfold havg, harmonic. field. lra. Qed.
Lemma harmonic_comm a b : harmonic a b = harmonic b a.
Proof. unfold harmonic. rewrite (Rplus_comm b a). unfold Rdiv. ring. Qed.
Lemma harmonic_pos a b : 0 < a -> 0 < b -> 0 < harmonic a b.
Proof. intros. unfold harmonic. apply Rdiv_lt_0_compat; [|lra]. repeat apply Rmult_lt_0_compat; lra. Qed.
Lemma mobility_nonneg cells x P c s : physical (cells c) -> 0 <= mobility cells x P c s.
Proof.
  intros (K & R1 & M). unfold mobility. apply Rmult_le_pos; [|easy]. unfold Rdiv.
  apply Rmult_le_pos; [apply R1|]. left. apply Rinv_0_lt_compat, M.
Qed.
Lemma accp_at r c p v c' p' : accp r c p v c' p' = r c' p' + when ((c' =? c)%nat && phase_eqb p' p)%bool v.
Proof. unfold accp, when. destruct (_ && _)%bool; ring. Qed.

Lemma skeleton_at cells sl sg x r F c P : physical (cells (tf_s F)) -> physical (cells (tf_n F)) ->
  tp_alpha_skeleton cells sl sg x r F c P =
  r c P + scale sl sg P * (when (c =? tf_s F)%nat (flux cells x P F) - when (c =? tf_n F)%nat (flux cells x P F)).
Proof.
  intros HS HN. unfold tp_alpha_skeleton. rewrite !accp_at.
  pose proof (fun s => mobility_nonneg cells x Liquid (tf_s F) s HS) as M1. pose proof (fun s => mobility_nonneg cells x Liquid (tf_n F) s HN) as M2.
  pose proof (fun s => mobility_nonneg cells x Gas (tf_s F) s HS) as M3. pose proof (fun s => mobility_nonneg cells x Gas (tf_n F) s HN) as M4.
  unfold mobility, kr, mu in M1, M2, M3, M4. rewrite !aavg_mean, !havg_harmonic by easy.
  destruct P; cbn [phase_eqb scale]; rewrite !Bool.andb_true_r, !Bool.andb_false_r; cbn [when]; rewrite ?Rplus_0_r.
  - unfold flux, upstream, drive, mobility, sat, kr, mu, rho, nu. destruct (c =? tf_s F)%nat, (c =? tf_n F)%nat; cbn [when]; ring.
  - set (wl := _ / tf_dist F + mean (tp_rhol _ _) _ * _). set (wg := (x (tf_s F) Gas - _) / tf_dist F + _).
    assert (HU : (if Rle_dec (wl * wg) 0
                  then 1 - (if Rle_dec 0 wg then tp_s (cells (tf_s F)) (x (tf_s F) Gas - x (tf_s F) Liquid) else tp_s (cells (tf_n F)) (x (tf_n F) Gas - x (tf_n F) Liquid))
                  else 1 - (if Rle_dec 0 wl then tp_s (cells (tf_s F)) (x (tf_s F) Gas - x (tf_s F) Liquid) else tp_s (cells (tf_n F)) (x (tf_n F) Gas - x (tf_n F) Liquid)))
                 = upstream cells x Gas F).
    { unfold upstream, drive, sat, rho. fold wg. destruct (Rle_dec (wl * wg) 0) as [|Hp].
      - destruct (Rle_dec 0 wg); reflexivity.
      - destruct (Rle_dec 0 wl), (Rle_dec 0 wg); try reflexivity; exfalso; apply Hp.
        + apply Ropp_le_cancel. rewrite Ropp_0, Ropp_mult_distr_r. apply Rmult_le_pos; lra.
        + apply Ropp_le_cancel. rewrite Ropp_0, Ropp_mult_distr_l. apply Rmult_le_pos; lra. }
    rewrite HU. unfold flux, drive, mobility, kr, mu, rho, nu. fold wg. destruct (c =? tf_s F)%nat, (c =? tf_n F)%nat; cbn [when]; ring.
Qed.

Lemma flux_reverse cells x P F : flux cells x P (reverse F) = - flux cells x P F.
Proof.
  assert (HD : drive cells x P (reverse F) = - drive cells x P F).
  { unfold drive, reverse, mean, Rdiv; cbn. ring. }
  destruct (Req_dec (drive cells x P F) 0) as [E|E].
  - unfold flux. rewrite HD, E. ring.
  - assert (HU : upstream cells x P (reverse F) = upstream cells x P F).
    { unfold upstream. rewrite HD. cbn [reverse tf_s tf_n]. destruct (Rle_dec 0 (- drive cells x P F)), (Rle_dec 0 (drive cells x P F)); try reflexivity; lra. }
    unfold flux. rewrite HU, HD. cbn [reverse tf_s tf_n tf_area]. rewrite harmonic_comm. unfold mean.
    rewrite (Rplus_comm (nu P (cells (tf_n F)) _)). ring.
Qed.

Lemma boundary_at cells sl sg x r F c P : (P = Liquid \/ sl = sg) ->
  tp_lambda_boundary sl sg (tp_alpha_boundary cells sl x r F) F c P = r c P + scale sl sg P * when (c =? tb_s F)%nat (outflow cells x P F).
Proof.
  intros HP. unfold tp_lambda_boundary, tp_alpha_boundary, outflow, btype, mobility, sat, kr, mu, rho, nu, dirichlet, neumann.
  destruct P, (tb_bcl F) as [|[|nl]], (tb_bcg F) as [|[|ng]]; cbn [Nat.eqb negb andb]; rewrite ?accp_at; cbn [phase_eqb scale];
    rewrite ?Bool.andb_true_r, ?Bool.andb_false_r; destruct (c =? tb_s F)%nat; cbn [when]; try (destruct HP as [HP|HP]; [discriminate|rewrite HP]); ring.
Qed.

(** Order of accumulation: separate passes over the boundary *)
Lemma fold_at {A} (f : state -> A -> state) (g : A -> nat -> phase -> R) l r c P :
  (forall a r, In a l -> f r a c P = r c P + g a c P) -> fold_left f l r c P = r c P + lsum (fun a => g a c P) l.
Proof.
  revert r. induction l as [|a l IH]; intros r H; cbn [fold_left lsum]; [ring|].
  rewrite IH by (intros; apply H; now right). rewrite H by now left. ring.
Qed.
Lemma alpha_boundary_at cells sl x r F c P :
  tp_alpha_boundary cells sl x r F c P = r c P + tp_alpha_boundary cells sl x (fun _ _ => 0) F c P.
Proof.
  unfold tp_alpha_boundary. destruct (_ && _)%bool; [ring|]. destruct (tb_bcl F =? 1)%nat, (tb_bcg F =? 1)%nat; rewrite ?accp_at; ring.
Qed.
Lemma lambda_boundary_at sl sg r F c P :
  tp_lambda_boundary sl sg r F c P = r c P + tp_lambda_boundary sl sg (fun _ _ => 0) F c P.
Proof.
  unfold tp_lambda_boundary. destruct (_ && _)%bool; [ring|]. destruct (tb_bcl F =? 0)%nat, (tb_bcg F =? 0)%nat; rewrite ?accp_at; ring.
Qed.
Lemma loop_cells n (f : nat -> state -> state) (v : nat -> phase -> R) r c P :
  (forall k r c P, f k r c P = r c P + when (c =? k)%nat (v k P)) -> (c < n)%nat -> loop n f r c P = r c P + v c P.
Proof.
  intros H. assert (HG : forall m, loop m f r c P = r c P + when (c <? m)%nat (v c P)).
  { induction m as [|m IH]; cbn [loop]; [unfold when; destruct (Nat.ltb_spec c 0); [lia|ring]|]. rewrite H, IH. unfold when.
    destruct (Nat.ltb_spec c m), (Nat.ltb_spec c (S m)), (Nat.eqb_spec c m) as [->|]; try lia; ring. }
  intros Hc. rewrite HG. unfold when. destruct (Nat.ltb_spec c n); [ring|lia].
Qed.

Lemma residual_at cells sl sg n inner bound x c P : (forall c, physical (cells c)) -> (P = Liquid \/ sl = sg) -> (c < n)%nat ->
  tp_residual cells sl sg n inner bound x c P = scale sl sg P * cell_balance cells inner bound x P c.
Proof.
  intros HP HS Hc. unfold tp_residual.
  rewrite (fold_at _ (fun F => tp_lambda_boundary sl sg (fun _ _ => 0) F)) by (intros; apply lambda_boundary_at).
  rewrite (fold_at _ (fun F => tp_alpha_boundary cells sl x (fun _ _ => 0) F)) by (intros; apply alpha_boundary_at).
  rewrite (fold_at _ (fun F c P => scale sl sg P * (when (c =? tf_s F)%nat (flux cells x P F) - when (c =? tf_n F)%nat (flux cells x P F)))) by (intros; now apply skeleton_at).
  rewrite (loop_cells n _ (fun c P => - (scale sl sg P * (source P (cells c) * tp_vol (cells c))))).
  - unfold cell_balance.
    assert (HB : lsum (fun F => tp_alpha_boundary cells sl x (fun _ _ => 0) F c P) bound + lsum (fun F => tp_lambda_boundary sl sg (fun _ _ => 0) F c P) bound =
                 scale sl sg P * lsum (fun F => when (c =? tb_s F)%nat (outflow cells x P F)) bound).
    { rewrite <- lsum_plus, <- lsum_scal. apply lsum_ext. intros F _. rewrite <- lambda_boundary_at, boundary_at by easy. ring. }
    assert (HI : lsum (fun F => scale sl sg P * (when (c =? tf_s F)%nat (flux cells x P F) - when (c =? tf_n F)%nat (flux cells x P F))) inner =
                 scale sl sg P * (lsum (fun F => when (c =? tf_s F)%nat (flux cells x P F)) inner - lsum (fun F => when (c =? tf_n F)%nat (flux cells x P F)) inner)).
    { rewrite lsum_scal. f_equal. induction inner as [|F l IH]; cbn [lsum]; [ring|]. rewrite IH. ring. }
    rewrite HI, !Rplus_assoc, HB. ring.
  - intros k r c' P'. unfold tp_lambda_volume. rewrite !accp_at. destruct P'; cbn [phase_eqb scale source]; rewrite ?Bool.andb_true_r, ?Bool.andb_false_r;
      destruct (c' =? k)%nat; cbn [when]; ring.
  - easy.
Qed.

Lemma rsum_when n k v : (k < n)%nat -> rsum n (fun c => when (c =? k)%nat v) = v.
Proof. intros. unfold when. now apply (rsum_pick n (fun _ => v)). Qed.
Lemma rsum_lsum_when {A} n (l : list A) (k : A -> nat) (v : A -> R) : (forall a, In a l -> (k a < n)%nat) ->
  rsum n (fun c => lsum (fun a => when (c =? k a)%nat (v a)) l) = lsum v l.
Proof.
  intros H. rewrite rsum_lsum. apply lsum_ext. intros a Ha. apply rsum_when. now apply H.
Qed.
Lemma balance_sum cells n inner bound x P :
  (forall F, In F inner -> (tf_s F < n)%nat /\ (tf_n F < n)%nat) -> (forall F, In F bound -> (tb_s F < n)%nat) ->
  rsum n (cell_balance cells inner bound x P) = lsum (outflow cells x P) bound - rsum n (fun c => source P (cells c) * tp_vol (cells c)).
Proof.
  intros H1 H2. unfold cell_balance, Rminus. rewrite !rsum_plus, !rsum_opp, !rsum_lsum_when; [ring|..].
  - easy.
  - intros; now apply H1.
  - intros; now apply H1.
Qed.

Lemma storage_at cells sl sg n x c P : (c < n)%nat ->
  tp_mass cells sl sg n x c P = scale sl sg P * (tp_phi (cells c) * sat P (cells c) (x c) * nu P (cells c) (x c P) * tp_vol (cells c)).
Proof.
  intros Hc. unfold tp_mass. rewrite (loop_cells n _ (fun c P => scale sl sg P * (tp_phi (cells c) * sat P (cells c) (x c) * nu P (cells c) (x c P) * tp_vol (cells c)))); [ring| |easy].
  intros k r c' P'. unfold tp_storage. rewrite !accp_at. destruct P'; cbn [phase_eqb scale]; rewrite ?Bool.andb_true_r, ?Bool.andb_false_r;
    destruct (c' =? k)%nat; cbn [when]; unfold sat, nu; ring.
Qed.

(** ** Velocities *)
Lemma vl_flux cells x F : physical (cells (tf_s F)) -> physical (cells (tf_n F)) ->
  tp_nul (cells (tf_n F)) (x (tf_n F) Gas) = tp_nul (cells (tf_n F)) (x (tf_n F) Liquid) ->
  tf_area F * vl_normal cells x (Neighbour F) = flux cells x Liquid F.
Proof.
  intros HS HN E. cbn [vl_normal]. rewrite E.
  pose proof (fun s => mobility_nonneg cells x Liquid (tf_s F) s HS) as M1. pose proof (fun s => mobility_nonneg cells x Liquid (tf_n F) s HN) as M2.
  unfold mobility, kr, mu in M1, M2. rewrite !aavg_mean, !havg_harmonic by easy.
  unfold flux, upstream, drive, mobility, sat, kr, mu, rho, nu. ring.
Qed.
Lemma vg_flux cells x F : physical (cells (tf_s F)) -> physical (cells (tf_n F)) ->
  tp_rhog (cells (tf_s F)) (x (tf_n F) Gas) = tp_rhog (cells (tf_n F)) (x (tf_n F) Gas) ->
  tf_area F * vg_normal cells x (Neighbour F) = flux cells x Gas F.
Proof.
  intros HS HN E. cbn [vg_normal]. rewrite E.
  pose proof (fun s => mobility_nonneg cells x Gas (tf_s F) s HS) as M1. pose proof (fun s => mobility_nonneg cells x Gas (tf_n F) s HN) as M2.
  unfold mobility, kr, mu in M1, M2. rewrite !aavg_mean, !havg_harmonic by easy.
  unfold flux, upstream, drive, mobility, sat, kr, mu, rho, nu.
  set (wg := (x (tf_s F) Gas - _) / tf_dist F + _).
  replace (1 - (if Rle_dec 0 wg then tp_s (cells (tf_s F)) (x (tf_s F) Gas - x (tf_s F) Liquid) else tp_s (cells (tf_n F)) (x (tf_n F) Gas - x (tf_n F) Liquid)))
    with (if Rle_dec 0 wg then 1 - tp_s (cells (tf_s F)) (x (tf_s F) Gas - x (tf_s F) Liquid) else 1 - tp_s (cells (tf_n F)) (x (tf_n F) Gas - x (tf_n F) Liquid))
    by (destruct (Rle_dec 0 wg); ring). cbv zeta. ring.
Qed.
Lemma v_outflow cells x F :
  tb_area F * vl_normal cells x (AtBoundary F) = outflow cells x Liquid F /\ tb_area F * vg_normal cells x (AtBoundary F) = outflow cells x Gas F.
Proof.
  unfold outflow, btype, mobility, sat, kr, mu, rho, nu, dirichlet, neumann. cbn [vl_normal vg_normal].
  split; [destruct (tb_bcl F) as [|[|]]|destruct (tb_bcg F) as [|[|]]]; cbn [Nat.eqb]; cbv zeta; ring.
Qed.

Lemma loop_vec n (g : nat -> vec) (y : vec) k : loop n (fun i (y : vec) k => y k + g i k) y k = y k + rsum n (fun i => g i k).
Proof. induction n; cbn [loop]; [unfold rsum; ring|]. rewrite IHn, rsum_S. ring. Qed.
Lemma div2_even m : ((2 * m) / 2 = m)%nat. Proof. rewrite Nat.mul_comm. apply Nat.div_mul. lia. Qed.
Lemma div2_odd m : ((2 * m + 1) / 2 = m)%nat.
Proof. rewrite Nat.add_comm, Nat.mul_comm, Nat.div_add by lia. reflexivity. Qed.
Lemma even_double m : Nat.even (2 * m) = true. Proof. rewrite Nat.even_mul. reflexivity. Qed.
Lemma even_double1 m : Nat.even (2 * m + 1) = false. Proof. rewrite Nat.even_add, even_double. reflexivity. Qed.
Lemma rsum_pairs m (f : nat -> R) : rsum (2 * m) f = rsum m (fun k => f (2 * k)%nat + f (2 * k + 1)%nat).
Proof.
  induction m; [reflexivity|]. replace (2 * S m)%nat with (S (S (2 * m))) by lia. rewrite !rsum_S, IHm.
  replace (S (2 * m)) with (2 * m + 1)%nat by lia. ring.
Qed.
(** The field on the reference cube *)
Lemma yhat_at dim (c : nat -> R) (x : vec) k : (k < dim)%nat ->
  loop (2 * dim) (fun i (y : vec) k => y k + c i * rt0 i x k) (fun _ => 0) k = c (2 * k)%nat * (x k - 1) + c (2 * k + 1)%nat * x k.
Proof.
  intros Hk. rewrite (loop_vec (2 * dim) (fun i k => c i * rt0 i x k)), rsum_pairs.
  rewrite (rsum_ext dim _ (fun m => if (m =? k)%nat then c (2 * m)%nat * (x k - 1) + c (2 * m + 1)%nat * x k else 0)).
  - rewrite (rsum_pick dim (fun m => c (2 * m)%nat * (x k - 1) + c (2 * m + 1)%nat * x k)) by easy. ring.
  - intros m _. unfold rt0. rewrite div2_even, div2_odd, even_double, even_double1, (Nat.eqb_sym k m). destruct (m =? k)%nat; ring.
Qed.
Lemma inner_normalhat dim v i : (i / 2 < dim)%nat -> inner dim v (normalhat i) = (if Nat.even i then -1 else 1) * v (i / 2)%nat.
Proof.
  intros H. unfold inner, normalhat.
  rewrite (rsum_ext dim _ (fun k => if (k =? i / 2)%nat then (if Nat.even i then -1 else 1) * v k else 0)).
  - now rewrite (rsum_pick dim (fun k => (if Nat.even i then -1 else 1) * v k)).
  - intros k _. destruct (k =? i / 2)%nat; ring.
Qed.
Lemma inner_adjoint dim (A : mat) u v : inner dim (fun k => inner dim (fun l => A l k) u) v = inner dim u (apply dim A v).
Proof.
  unfold inner, apply. rewrite (rsum_ext dim _ (fun k => rsum dim (fun l => A l k * u l * v k))) by (intros; now rewrite <- rsum_scal_r).
  rewrite rsum_swap. apply rsum_ext; intros l _. rewrite <- rsum_scal. apply rsum_ext; intros; ring.
Qed.
Lemma inner_ext_r d a b c : (forall k, (k < d)%nat -> a k = b k) -> inner d c a = inner d c b.
Proof. intros H. unfold inner. apply rsum_ext. intros. now rewrite H. Qed.
Lemma inner_scal_r d a b c : inner d a (fun k => c * b k) = c * inner d a b.
Proof. unfold inner. rewrite <- rsum_scal. apply rsum_ext; intros; ring. Qed.
Lemma inner_scal_l d a b c : inner d (fun k => a k * c) b = c * inner d a b.
Proof. unfold inner. rewrite <- rsum_scal. apply rsum_ext; intros; ring. Qed.

Section rt.
Variables (dim : nat) (B Binv : mat) (detB : R) (normal : nat -> vec) (len : nat -> R) (vn : nat -> R).
Hypothesis HB : forall v k, (k < dim)%nat -> apply dim Binv (apply dim B v) k = v k.
Hypothesis Hdet : detB <> 0.
Hypothesis Hlen : forall i, (i < 2 * dim)%nat -> 0 < len i.
Hypothesis Hn : forall i k, (i < 2 * dim)%nat -> (k < dim)%nat -> apply dim B (normalhat i) k = len i * normal i k.
Hypothesis Hunit : forall i, (i < 2 * dim)%nat -> inner dim (normal i) (normal i) = 1.
Lemma half i : (i < 2 * dim)%nat -> (i / 2 < dim)%nat. Proof. intros. apply Nat.div_lt_upper_bound; lia. Qed.
Lemma coeff_eq i : (i < 2 * dim)%nat -> rt0_coeff dim B detB normal vn i = detB * (vn i * len i).
Proof.
  intros Hi. unfold rt0_coeff. rewrite dot_sum. 
  replace (fun k => dot dim (fun l => B l k) (fun k0 => normal i k0 * vn i) * detB) with (fun k => inner dim (fun l => B l k) (fun k0 => normal i k0 * vn i) * detB).
  2:{ apply FunctionalExtensionality.functional_extensionality; intros. now rewrite dot_sum. }
  change (inner dim (fun k => inner dim (fun l => B l k) (fun k0 => normal i k0 * vn i) * detB) (normalhat i) = detB * (vn i * len i)).
  rewrite inner_scal_l, inner_adjoint, inner_scal_l, (inner_ext_r dim _ (fun k => len i * normal i k)) by (intros; now apply Hn).
  rewrite inner_scal_r, Hunit by easy. ring.
Qed.
(** y . v for the field y *)
Lemma field_inner x v : inner dim (rt0_field dim B Binv detB normal vn x) v =
  inner dim (fun k => rt0_coeff dim B detB normal vn (2 * k) * (x k - 1) + rt0_coeff dim B detB normal vn (2 * k + 1) * x k) (apply dim Binv v) / detB.
Proof.
  unfold rt0_field. set (yh := loop _ _ _).
  transitivity (inner dim (fun k => inner dim (fun l => Binv l k) yh * / detB) v).
  - unfold inner at 1 2. apply rsum_ext. intros k _. rewrite dot_sum. reflexivity.
  - rewrite inner_scal_l, inner_adjoint. unfold Rdiv. rewrite Rmult_comm. f_equal. unfold inner. apply rsum_ext. intros k Hk. f_equal. now apply yhat_at.
Qed.
Lemma field_normal i x : (i < 2 * dim)%nat -> x (i / 2)%nat = (if Nat.even i then 0 else 1) ->
  inner dim (rt0_field dim B Binv detB normal vn x) (normal i) = vn i.
Proof.
  intros Hi Hx. rewrite field_inner.
  rewrite (inner_ext_r dim (apply dim Binv (normal i)) (fun k => / len i * normalhat i k)).
  - rewrite inner_scal_r, inner_normalhat by now apply half.
    assert (HE : (i = 2 * (i / 2) \/ i = 2 * (i / 2) + 1)%nat).
    { pose proof (Nat.div_mod_eq i 2). pose proof (Nat.mod_upper_bound i 2). lia. }
    pose proof (Hlen i Hi). rewrite Hx. destruct HE as [E|E].
    + assert (V : Nat.even i = true) by (rewrite E; apply even_double). rewrite V, <- E, coeff_eq by easy. field. lra.
    + assert (V : Nat.even i = false) by (rewrite E; apply even_double1). rewrite V, <- E, (coeff_eq i) by easy. field. lra.
  - intros k Hk. pose proof (Hlen i Hi).
    rewrite <- (HB (normalhat i) k Hk). unfold apply at 2. rewrite <- rsum_scal. unfold apply at 1. apply rsum_ext. intros l Hl. rewrite Hn by easy. field. lra.
Qed.
(** constant fields are reproduced *)
Lemma field_constant (v : vec) x w : (forall i, (i < 2 * dim)%nat -> vn i = inner dim v (normal i)) ->
  (forall u k, (k < dim)%nat -> apply dim B (apply dim Binv u) k = u k) ->
  inner dim (rt0_field dim B Binv detB normal vn x) w = inner dim v w.
Proof.
  intros Hv HB2. rewrite field_inner.
  assert (HC : forall i, (i < 2 * dim)%nat -> rt0_coeff dim B detB normal vn i = detB * inner dim v (apply dim B (normalhat i))).
  { intros i Hi. rewrite coeff_eq, Hv by easy. rewrite (inner_ext_r dim (apply dim B (normalhat i)) (fun k => len i * normal i k)) by (intros; now apply Hn).
    rewrite inner_scal_r. ring. }
  transitivity (inner dim (fun k => inner dim (fun l => B l k) v * detB) (apply dim Binv w) / detB).
  - f_equal. unfold inner at 1 2. apply rsum_ext. intros k Hk. f_equal.
    rewrite !HC by lia. rewrite <- !inner_adjoint. rewrite (inner_normalhat dim _ (2 * k)) by now rewrite div2_even. rewrite (inner_normalhat dim _ (2 * k + 1)) by now rewrite div2_odd.
    rewrite even_double, even_double1, div2_even, div2_odd. ring.
  - rewrite inner_scal_l, inner_adjoint, (inner_ext_r dim (apply dim B (apply dim Binv w)) w) by (intros; now apply HB2). field. easy.
Qed.
End rt.
