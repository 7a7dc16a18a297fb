(** Splitting, conservation and energy balance of the wave operators. *)
From Verif Require Import Common CommonFacts CdModel CdSpec CdProofs WaveModel WaveSpec WaveProofs WaveProofs2.
From Coq Require Import Reals Lra Lia.
Open Scope R_scope.

(** ** Splitting *)
Section split.
  Context (m : nat) (A P : vec -> vec) (Ap Am : mat) (c : R).
  Hypothesis C : 0 < c.
  Hypothesis AL : forall l u v, (forall i, (i < m)%nat -> u i = l * v i) -> forall i, (i < m)%nat -> A u i = l * A v i.
  Hypothesis PL : forall l u v, (forall i, (i < m)%nat -> u i = l * v i) -> forall i, (i < m)%nat -> P u i = l * P v i.
  Hypothesis AA : forall v i, (i < m)%nat -> A (A v) i = c * c * P v i.
  Hypothesis PP : forall v i, (i < m)%nat -> P (P v) i = P v i.
  Hypothesis HAp : forall v i, (i < m)%nat -> apply m Ap v i = (A v i + c * P v i) / 2.
  Hypothesis HAm : forall v i, (i < m)%nat -> apply m Am v i = (A v i - c * P v i) / 2.
  Lemma generic_split : upwind_split m A Ap Am.
  Proof.
    intros l v E i I. rewrite HAp, HAm, E by auto.
    assert (P1 : forall j, (j < m)%nat -> c * c * P v j = l * l * v j).
    { intros j J. rewrite <- AA by auto. rewrite (AL l (A v) v E j J), E by auto. ring. }
    assert (P2 : forall j, (j < m)%nat -> P v j = l * l / (c * c) * v j).
    { intros j J. apply Rmult_eq_reg_l with (c * c); [|apply Rgt_not_eq; nra]. rewrite P1 by auto. field. lra. }
    assert (P3 : l * l * (l * l - c * c) * v i = 0).
    { pose proof (PL (l * l / (c * c)) (P v) v P2 i I) as Q. rewrite PP, !P2 in Q by auto.
      assert (Q' : c * c * (c * c) * (l * l / (c * c) * v i) = c * c * (c * c) * (l * l / (c * c) * (l * l / (c * c) * v i))) by (f_equal; exact Q).
      replace (c * c * (c * c) * (l * l / (c * c) * v i)) with (c * c * (l * l) * v i) in Q' by (field; lra).
      replace (c * c * (c * c) * (l * l / (c * c) * (l * l / (c * c) * v i))) with (l * l * (l * l) * v i) in Q' by (field; lra). lra. }
    rewrite (P2 i I).
    apply Rmult_integral in P3. destruct P3 as [P3|Z]; [|rewrite Z; split; field; lra].
    apply Rmult_integral in P3. destruct P3 as [L0|LC].
    - assert (l = 0) by (apply Rsqr_0_uniq; exact L0). subst l. rewrite Rmax_left, Rmin_left by lra. split; field; lra.
    - replace (l * l) with (c * c) by lra.
      replace (c * (c * c / (c * c) * v i)) with (c * v i) by (field; lra).
      assert (D : (l - c) * (l + c) = 0) by lra. apply Rmult_integral in D. destruct D as [D|D].
      + replace l with c by lra. rewrite Rmax_left, Rmin_right by lra. split; field.
      + replace l with (- c) by lra. rewrite Rmax_right, Rmin_left by lra. split; field.
  Qed.
End split.

(** ** Forms *)
Definition bil (m : nat) (H u w : vec) : R := rsum m (fun i => H i * (u i * w i)).
Lemma bil_ext m H u u' w w' : (forall i, (i < m)%nat -> u i = u' i) -> (forall i, (i < m)%nat -> w i = w' i) -> bil m H u w = bil m H u' w'.
Proof. intros A B. apply rsum_ext. intros. rewrite A, B by auto. reflexivity. Qed.
Lemma bil_plus_r m H u v w : bil m H u (fun i => v i + w i) = bil m H u v + bil m H u w.
Proof. unfold bil. rewrite <- rsum_plus. apply rsum_ext. intros. ring. Qed.
Lemma bil_scal_r m H u a v : bil m H u (fun i => a * v i) = a * bil m H u v.
Proof. unfold bil. rewrite <- rsum_scal. apply rsum_ext. intros. ring. Qed.
Lemma bil_minus_l m H u v w : bil m H (fun i => u i - v i) w = bil m H u w - bil m H v w.
Proof. unfold bil. rewrite <- rsum_minus. apply rsum_ext. intros. ring. Qed.

(** testing a residual with finite element coefficients *)
Lemma pairing_sum {Q} m n H y (pts : list Q) (w : Q -> R) (f : Q -> vec) (phi : Q -> vec) r :
  (forall i k, (i < m)%nat -> (k < n)%nat -> r i k = 0 + lsum (fun p => w p * (f p i * phi p k)) pts) ->
  pairing m n H y r = lsum (fun p => w p * bil m H (state_at n y (phi p)) (f p)) pts.
Proof.
  intros E. unfold pairing.
  transitivity (rsum m (fun i => lsum (fun p => w p * (H i * (state_at n y (phi p) i * f p i))) pts)).
  - apply rsum_ext. intros i I.
    transitivity (H i * rsum n (fun k => lsum (fun p => w p * (f p i * phi p k) * y i k) pts)).
    { f_equal. apply rsum_ext. intros k K. rewrite (E i k I K), Rplus_0_l. rewrite Rmult_comm.
      transitivity (lsum (fun p => y i k * (w p * (f p i * phi p k))) pts); [rewrite lsum_scal; ring | apply lsum_ext; intros; ring]. }
    rewrite rsum_lsum, <- lsum_scal. apply lsum_ext. intros p _. unfold state_at, fun_at.
    transitivity (H i * (w p * f p i * rsum n (fun k => y i k * phi p k))).
    { f_equal. rewrite <- rsum_scal. apply rsum_ext. intros. ring. }
    ring.
  - rewrite rsum_lsum. apply lsum_ext. intros p _. unfold bil. rewrite <- rsum_scal. reflexivity.
Qed.

(** the sum over all cells of what a face gives to its cells *)
Lemma rsum_pick n (a : R) s : (s < n)%nat -> rsum n (fun c => if (s =? c)%nat then a else 0) = a.
Proof. intros S. rewrite (rsum_one n (fun _ => a) s). destruct (Nat.ltb_spec s n); [reflexivity | lia]. Qed.
Lemma lsum_minus {Q} (f g : Q -> R) l : lsum (fun a => f a - g a) l = lsum f l - lsum g l.
Proof. induction l as [|a l IH]; cbn; [ring|]. rewrite IH. ring. Qed.

(** ** Energy balance of a system: flux A, projection P on the moving part, speed c *)
Section energy.
  Context (N : vec -> Prop) (m : nat) (H : vec) (A P : vec -> vec -> vec) (Ap Am : vec -> mat) (c : R).
  Hypothesis C : 0 <= c.
  Hypothesis HAp : forall n v i, N n -> (i < m)%nat -> apply m (Ap n) v i = (A n v i + c * P n v i) / 2.
  Hypothesis HAm : forall n v i, N n -> (i < m)%nat -> apply m (Am n) v i = (A n v i - c * P n v i) / 2.
  Hypothesis Asym : forall n u v, bil m H u (A n v) = bil m H v (A n u).
  Hypothesis Psym : forall n u v, bil m H u (P n v) = bil m H v (P n u).
  Hypothesis Ppsd : forall n u, N n -> 0 <= bil m H u (P n u).
  Hypothesis Pminus : forall n u v i, (i < m)%nat -> P n (fun i => u i - v i) i = P n u i - P n v i.

  Lemma bil_up n u v w : N n -> bil m H u (upflux m (Ap n) (Am n) v w) =
    (bil m H u (A n v) + bil m H u (A n w) + c * (bil m H u (P n v) - bil m H u (P n w))) / 2.
  Proof.
    intros HN. rewrite (bil_ext m H u u _ (fun i => / 2 * (A n v i + (A n w i + (c * P n v i + (- c) * P n w i))))); auto.
    - rewrite bil_scal_r. rewrite !bil_plus_r. rewrite !bil_scal_r. field.
    - intros i I. unfold upflux. rewrite HAp, HAm by auto. field.
  Qed.
  (** what a face dissipates *)
  Lemma face_energy n u v : N n ->
    0 <= bil m H u (upflux m (Ap n) (Am n) u v) - bil m H v (upflux m (Ap n) (Am n) u v) - bil m H u (A n u) / 2 + bil m H v (A n v) / 2.
  Proof.
    intros HN. rewrite !bil_up by auto.
    pose proof (Ppsd n (fun i => u i - v i) HN) as D.
    rewrite (bil_ext m H _ (fun i => u i - v i) (P n (fun i => u i - v i)) (fun i => P n u i + (-1) * P n v i)) in D; auto.
    2: { intros i I. rewrite Pminus by auto. ring. }
    rewrite bil_plus_r, bil_scal_r, !bil_minus_l in D. rewrite (Psym n v u) in *. rewrite (Asym n v u).
    replace (((bil m H u (A n u) + bil m H u (A n v) + c * (bil m H u (P n u) - bil m H u (P n v))) / 2 -
              (bil m H u (A n v) + bil m H v (A n v) + c * (bil m H u (P n v) - bil m H v (P n v))) / 2 - bil m H u (A n u) / 2 + bil m H v (A n v) / 2))
      with (c * (bil m H u (P n u) - bil m H u (P n v) + -1 * (bil m H u (P n v) - bil m H v (P n v))) / 2) by field.
    nra.
  Qed.
  Lemma absorbing_energy n u g : N n -> (forall i, g i = 0) -> (forall v i, (i < m)%nat -> (forall j, v j = 0) -> A n v i = 0 /\ P n v i = 0) ->
    0 <= bil m H u (upflux m (Ap n) (Am n) u g) - bil m H u (A n u) / 2.
  Proof.
    intros HN G Z. rewrite bil_up by auto.
    assert (E : bil m H u (A n g) = 0 /\ bil m H u (P n g) = 0).
    { split; unfold bil; rewrite <- (rsum_0 m); apply rsum_ext; intros i I; destruct (Z g i I G) as [E1 E2]; rewrite ?E1, ?E2; ring. }
    destruct E as [-> ->]. pose proof (Ppsd n u HN). nra.
  Qed.

  Context (M : wmesh) (volume : nat -> mat -> mat -> mat) (skeleton : iface -> mat -> mat -> mat * mat -> mat * mat) (boundary : bface -> mat -> mat -> mat).
  Context (x : nat -> mat) (extra : nat -> R).
  Hypothesis MO : mesh_ok M.
  Hypothesis WO : weights_ok M.
  Hypothesis NO : (forall F, In F (m_inner M) -> N (i_normal F)) /\ (forall F, In F (m_boundary M) -> N (b_normal F)).
  Let dofs := m_dofs M.
  Let us (F : iface) (p : wfpoint) : vec := state_at (dofs (i_s F)) (x (i_s F)) (wf_phi_s p).
  Let un (F : iface) (p : wfpoint) : vec := state_at (dofs (i_n F)) (x (i_n F)) (wf_phi_n p).
  Let ub (F : bface) (p : wfpoint) : vec := state_at (dofs (b_s F)) (x (b_s F)) (wf_phi_s p).
  Let Qs F := lsum (fun p => wf_factor p * (bil m H (us F p) (A (i_normal F) (us F p)) / 2)) (i_pts F).
  Let Qn F := lsum (fun p => wf_factor p * (bil m H (un F p) (A (i_normal F) (un F p)) / 2)) (i_pts F).
  Let Qb F := lsum (fun p => wf_factor p * (bil m H (ub F p) (A (b_normal F) (ub F p)) / 2)) (b_pts F).
  Hypothesis VOL : forall c, (c < m_cells M)%nat -> pairing m (dofs c) H (x c) (volume c (x c) zerom) = extra c -
    (lsum (fun F => (if (i_s F =? c)%nat then Qs F else 0) - (if (i_n F =? c)%nat then Qn F else 0)) (m_inner M) +
     lsum (fun F => if (b_s F =? c)%nat then Qb F else 0) (m_boundary M)).
  Hypothesis EX : forall c, (c < m_cells M)%nat -> 0 <= extra c.
  Hypothesis SK : forall F x_s x_n r, skeleton F x_s x_n r = wave_alpha_skeleton m (dofs (i_s F)) (dofs (i_n F)) (Ap (i_normal F)) (Am (i_normal F)) (i_pts F) x_s x_n r.
  Hypothesis BO : forall F x_s r, boundary F x_s r = wave_alpha_boundary m (dofs (b_s F)) (Ap (b_normal F)) (Am (b_normal F)) (b_pts F) x_s r.
  Hypothesis BC : forall F p u, In F (m_boundary M) -> In p (b_pts F) ->
    0 <= bil m H u (upflux m (Ap (b_normal F)) (Am (b_normal F)) u (wf_g p u)) - bil m H u (A (b_normal F) u) / 2.
  Hypothesis Aext : forall n u v i, (i < m)%nat -> (forall j, u j = v j) -> A n u i = A n v i.

  Lemma generic_energy : 0 <= tested m H M volume skeleton boundary x x.
  Proof.
    unfold tested. fold dofs.
    assert (V : rsum (m_cells M) (fun c => pairing m (dofs c) H (x c) (volume c (x c) zerom)) =
      rsum (m_cells M) extra - (lsum (fun F => Qs F - Qn F) (m_inner M) + lsum Qb (m_boundary M))).
    { rewrite (rsum_ext _ _ _ (fun c I => VOL c I)). rewrite rsum_minus, rsum_plus. f_equal. rewrite !rsum_lsum. f_equal; apply lsum_ext; intros F I.
      - destruct MO as [MI _]. destruct (MI F I) as [S Sn]. rewrite rsum_minus. now rewrite !rsum_pick.
      - destruct MO as [_ MB]. now rewrite rsum_pick by (apply MB; auto). }
    rewrite V. clear V VOL.
    assert (S : lsum (fun F => let r := skeleton F (x (i_s F)) (x (i_n F)) (zerom, zerom) in
                 pairing m (dofs (i_s F)) H (x (i_s F)) (fst r) + pairing m (dofs (i_n F)) H (x (i_n F)) (snd r)) (m_inner M) - lsum (fun F => Qs F - Qn F) (m_inner M) >= 0).
    { rewrite <- lsum_minus. apply Rle_ge, lsum_nonneg. intros F I. cbv zeta. rewrite SK.
      rewrite (pairing_sum m (dofs (i_s F)) H (x (i_s F)) (i_pts F) wf_factor (fun p => upflux m (Ap (i_normal F)) (Am (i_normal F)) (us F p) (un F p)) wf_phi_s).
      2: { intros i k Ii K. destruct (skeleton_eq m (dofs (i_s F)) (dofs (i_n F)) (Ap (i_normal F)) (Am (i_normal F)) (i_pts F) (x (i_s F)) (x (i_n F)) zerom zerom i k Ii) as [E _]. exact (E K). }
      rewrite (pairing_sum m (dofs (i_n F)) H (x (i_n F)) (i_pts F) wf_factor (fun p i => - upflux m (Ap (i_normal F)) (Am (i_normal F)) (us F p) (un F p) i) wf_phi_n).
      2: { intros i k Ii K. destruct (skeleton_eq m (dofs (i_s F)) (dofs (i_n F)) (Ap (i_normal F)) (Am (i_normal F)) (i_pts F) (x (i_s F)) (x (i_n F)) zerom zerom i k Ii) as [_ E]. exact (E K). }
      unfold Qs, Qn. rewrite <- lsum_minus, <- lsum_plus, <- lsum_minus. apply lsum_nonneg. intros p Ip.
      fold (us F p) (un F p). destruct WO as [W _]. specialize (W F p I Ip). destruct NO as [NI _]. specialize (NI F I).
      pose proof (face_energy (i_normal F) (us F p) (un F p) NI) as FE.
      rewrite (bil_ext m H (un F p) (un F p) (fun i => - upflux m (Ap (i_normal F)) (Am (i_normal F)) (us F p) (un F p) i)
                (fun i => (-1) * upflux m (Ap (i_normal F)) (Am (i_normal F)) (us F p) (un F p) i)) by (auto; intros; ring).
      rewrite bil_scal_r. nra. }
    assert (B : lsum (fun F => pairing m (dofs (b_s F)) H (x (b_s F)) (boundary F (x (b_s F)) zerom)) (m_boundary M) - lsum Qb (m_boundary M) >= 0).
    { rewrite <- lsum_minus. apply Rle_ge, lsum_nonneg. intros F I. rewrite BO.
      rewrite (pairing_sum m (dofs (b_s F)) H (x (b_s F)) (b_pts F) wf_factor
        (fun p => upflux m (Ap (b_normal F)) (Am (b_normal F)) (eval_state (dofs (b_s F)) (x (b_s F)) (wf_phi_s p)) (wf_g p (eval_state (dofs (b_s F)) (x (b_s F)) (wf_phi_s p)))) wf_phi_s).
      2: { intros i k Ii K. now apply boundary_eq. }
      unfold Qb. rewrite <- lsum_minus. apply lsum_nonneg. intros p Ip. destruct WO as [_ W]. specialize (W F p I Ip).
      pose proof (BC F p (eval_state (dofs (b_s F)) (x (b_s F)) (wf_phi_s p)) I Ip) as G. fold (ub F p).
      rewrite (bil_ext m H (ub F p) (eval_state (dofs (b_s F)) (x (b_s F)) (wf_phi_s p)) (A (b_normal F) (ub F p)) (A (b_normal F) (eval_state (dofs (b_s F)) (x (b_s F)) (wf_phi_s p)))).
      2: { intros i Ii. symmetry. apply eval_state_at. }
      2: { intros i Ii. apply Aext; auto. intros j. symmetry. apply eval_state_at. }
      rewrite (bil_ext m H (ub F p) (eval_state (dofs (b_s F)) (x (b_s F)) (wf_phi_s p)) _ _ ltac:(intros; symmetry; apply eval_state_at) (fun _ _ => eq_refl)).
      nra. }
    pose proof (rsum_nonneg _ _ EX). cbv zeta in S. lra.
  Qed.
End energy.

(** ** Conservation *)
Lemma bil_unit m i0 (I0 : (i0 < m)%nat) u w : bil m (unit_vector i0) u w = u i0 * w i0.
Proof.
  unfold bil, unit_vector.
  rewrite (rsum_ext _ _ (fun i => if (i0 =? i)%nat then u i * w i else 0)) by (intros i _; rewrite (Nat.eqb_sym i0 i); destruct (i =? i0)%nat; ring).
  rewrite (rsum_one m (fun i => u i * w i) i0). destruct (Nat.ltb_spec i0 m); [reflexivity | lia].
Qed.
Section conservation.
  Context (d m i0 : nat) (Ap : iface -> mat) (Am : iface -> mat) (Bp Bm : bface -> mat).
  Hypothesis I0 : (i0 < m)%nat.
  Context (M : wmesh) (volume : nat -> mat -> mat -> mat) (skeleton : iface -> mat -> mat -> mat * mat -> mat * mat) (boundary : bface -> mat -> mat -> mat).
  Context (x : nat -> mat) (e : nat -> vec) (extra : nat -> R).
  Let dofs := m_dofs M.
  Hypothesis ON : ones d M e.
  Hypothesis VOL : forall c, (c < m_cells M)%nat -> pairing m (dofs c) (unit_vector i0) (fun _ => e c) (volume c (x c) zerom) = extra c.
  Hypothesis SK : forall F x_s x_n r, skeleton F x_s x_n r = wave_alpha_skeleton m (dofs (i_s F)) (dofs (i_n F)) (Ap F) (Am F) (i_pts F) x_s x_n r.
  Hypothesis BO : forall F x_s r, boundary F x_s r = wave_alpha_boundary m (dofs (b_s F)) (Bp F) (Bm F) (b_pts F) x_s r.
  Lemma generic_conservation :
    tested m (unit_vector i0) M volume skeleton boundary (fun c _ => e c) x =
    rsum (m_cells M) extra +
    lsum (fun F => lsum (fun p => wf_factor p * (let u := eval_state (dofs (b_s F)) (x (b_s F)) (wf_phi_s p) in upflux m (Bp F) (Bm F) u (wf_g p u) i0)) (b_pts F)) (m_boundary M).
  Proof.
    unfold tested. fold dofs. cbv beta. rewrite (rsum_ext _ _ _ (fun c I => VOL c I)).
    assert (S : lsum (fun F => let r := skeleton F (x (i_s F)) (x (i_n F)) (zerom, zerom) in
                 pairing m (dofs (i_s F)) (unit_vector i0) (fun _ => e (i_s F)) (fst r) + pairing m (dofs (i_n F)) (unit_vector i0) (fun _ => e (i_n F)) (snd r)) (m_inner M) = 0).
    { rewrite <- (lsum_0 (m_inner M)). apply lsum_ext. intros F I. cbv zeta. rewrite SK.
      set (f := fun p => upflux m (Ap F) (Am F) (state_at (dofs (i_s F)) (x (i_s F)) (wf_phi_s p)) (state_at (dofs (i_n F)) (x (i_n F)) (wf_phi_n p))).
      rewrite (pairing_sum m (dofs (i_s F)) _ _ (i_pts F) wf_factor f wf_phi_s).
      2: { intros i k Ii K. destruct (skeleton_eq m (dofs (i_s F)) (dofs (i_n F)) (Ap F) (Am F) (i_pts F) (x (i_s F)) (x (i_n F)) zerom zerom i k Ii) as [E _]. exact (E K). }
      rewrite (pairing_sum m (dofs (i_n F)) _ _ (i_pts F) wf_factor (fun p i => - f p i) wf_phi_n).
      2: { intros i k Ii K. destruct (skeleton_eq m (dofs (i_s F)) (dofs (i_n F)) (Ap F) (Am F) (i_pts F) (x (i_s F)) (x (i_n F)) zerom zerom i k Ii) as [_ E]. exact (E K). }
      rewrite <- lsum_plus. rewrite <- (lsum_0 (i_pts F)). apply lsum_ext. intros p Ip. rewrite !(bil_unit m i0 I0). unfold state_at.
      destruct ON as (_ & _ & O & _). destruct (O F p I Ip) as [O1 O2]. fold dofs in O1, O2. rewrite O1, O2. ring. }
    cbv beta zeta in S |- *. rewrite S. rewrite Rplus_0_r. f_equal. apply lsum_ext. intros F I. rewrite BO.
    rewrite (pairing_sum m (dofs (b_s F)) _ _ (b_pts F) wf_factor
      (fun p => upflux m (Bp F) (Bm F) (eval_state (dofs (b_s F)) (x (b_s F)) (wf_phi_s p)) (wf_g p (eval_state (dofs (b_s F)) (x (b_s F)) (wf_phi_s p)))) wf_phi_s).
    2: { intros i k Ii K. now apply boundary_eq. }
    apply lsum_ext. intros p Ip. rewrite (bil_unit m i0 I0). unfold state_at. destruct ON as (_ & _ & _ & O). specialize (O F p I Ip). fold dofs in O. rewrite O. cbv zeta. ring.
  Qed.
End conservation.
