(** Energy and conservation for acoustics and Maxwell. *)
From Verif Require Import Common CommonFacts CdModel CdSpec CdProofs WaveModel WaveSpec WaveProofs WaveProofs2 WaveProofs3.
From Coq Require Import Reals Lra Lia.
Open Scope R_scope.

Lemma lsum_zero {P} (f : P -> R) l : (forall a, In a l -> f a = 0) -> lsum f l = 0.
Proof. intros E. transitivity (lsum (fun _ : P => 0) l); [now apply lsum_ext | apply lsum_0]. Qed.
Definition term := (R * nat * nat * nat)%type.
Definition tsum (T : list term) (f : nat -> nat -> nat -> R) : R := lsum (fun '(k, a, b, j) => k * f a b j) T.
Lemma tsum_ext T f g : (forall k a b j, In (k, a, b, j) T -> f a b j = g a b j) -> tsum T f = tsum T g.
Proof. intros E. apply lsum_ext. intros [[[k a] b] j] I. now rewrite (E k a b j I). Qed.
Lemma tsum_plus T f g : tsum T (fun a b j => f a b j + g a b j) = tsum T f + tsum T g.
Proof. unfold tsum. rewrite <- lsum_plus. apply lsum_ext. intros [[[k a] b] j] _. ring. Qed.
Lemma tsum_minus T f g : tsum T (fun a b j => f a b j - g a b j) = tsum T f - tsum T g.
Proof. unfold tsum. rewrite <- lsum_minus. apply lsum_ext. intros [[[k a] b] j] _. ring. Qed.
Lemma tsum_0 T : tsum T (fun _ _ _ => 0) = 0.
Proof. apply lsum_zero. intros [[[k a] b] j] _. ring. Qed.
Lemma lsum_swap {P Q} (f : P -> Q -> R) l l' : lsum (fun a => lsum (f a) l') l = lsum (fun b => lsum (fun a => f a b) l) l'.
Proof. induction l as [|a l IH]; cbn. { symmetry. apply lsum_0. } rewrite IH, <- lsum_plus. reflexivity. Qed.
Lemma tsum_lsum {Q} T (f : Q -> nat -> nat -> nat -> R) l : tsum T (fun a b j => lsum (fun q => f q a b j) l) = lsum (fun q => tsum T (f q)) l.
Proof.
  unfold tsum. transitivity (lsum (fun t : term => lsum (fun q => let '(k, a, b, j) := t in k * f q a b j) l) T).
  - apply lsum_ext. intros [[[k a] b] j] _. now rewrite lsum_scal.
  - apply lsum_swap.
Qed.
Lemma tsum_scal T w f : tsum T (fun a b j => w * f a b j) = w * tsum T f.
Proof. unfold tsum. rewrite <- lsum_scal. apply lsum_ext. intros [[[k a] b] j] _. ring. Qed.

Section system.
  Context (d m : nat) (A : vec -> vec -> vec) (F : vec -> mat).
  Hypothesis AF : forall n u i, (i < m)%nat -> A n u i = rsum d (fun j => F u i j * n j).
  Lemma volume_pairing n H y u pts (S : wpoint -> vec) r :
    (forall i k, (i < m)%nat -> (k < n)%nat -> r i k = 0 + lsum (fun p => w_factor p * (- A (w_grad d p k) (u p) i + S p i * w_phi p k)) pts) ->
    pairing m n H y r = lsum (fun p => w_factor p * rsum m (fun i => H i * (S p i * state_at n y (w_phi p) i))) pts -
                        lsum (fun p => w_factor p * rsum m (fun i => H i * rsum d (fun j => F (u p) i j * grad_at n (y i) (w_grad d p) j))) pts.
  Proof.
    intros E. rewrite <- lsum_minus. unfold pairing.
    transitivity (rsum m (fun i => lsum (fun p => w_factor p * (H i * (S p i * state_at n y (w_phi p) i)) - w_factor p * (H i * rsum d (fun j => F (u p) i j * grad_at n (y i) (w_grad d p) j))) pts)).
    - apply rsum_ext. intros i I.
      transitivity (H i * rsum n (fun k => lsum (fun p => y i k * (w_factor p * (- A (w_grad d p k) (u p) i + S p i * w_phi p k))) pts)).
      { f_equal. apply rsum_ext. intros k K. rewrite (E i k I K), Rplus_0_l. now rewrite lsum_scal. }
      rewrite rsum_lsum, <- lsum_scal. apply lsum_ext. intros p _.
      assert (Q : rsum n (fun k => y i k * A (w_grad d p k) (u p) i) = rsum d (fun j => F (u p) i j * grad_at n (y i) (w_grad d p) j)).
      { transitivity (rsum n (fun k => rsum d (fun j => F (u p) i j * (y i k * w_grad d p k j)))).
        - apply rsum_ext. intros k K. rewrite AF by auto. rewrite <- rsum_scal. apply rsum_ext. intros. ring.
        - rewrite rsum_swap. apply rsum_ext. intros j J. rewrite rsum_scal. f_equal. }
      rewrite <- Q. unfold state_at, fun_at.
      transitivity (H i * (w_factor p * (rsum n (fun k => S p i * (y i k * w_phi p k)) - rsum n (fun k => y i k * A (w_grad d p k) (u p) i)))).
      { f_equal. rewrite <- rsum_minus, <- rsum_scal. apply rsum_ext. intros. ring. }
      rewrite rsum_scal. ring.
    - rewrite rsum_lsum. apply lsum_ext. intros p _. rewrite rsum_minus, !rsum_scal. reflexivity.
  Qed.

  Context (H : vec) (M : wmesh) (x : nat -> mat) (S : nat -> wpoint -> vec) (volume : nat -> mat -> mat -> mat) (T : list term).
  Hypothesis T1 : forall n u, bil m H u (A n u) / 2 = tsum T (fun a b j => u a * u b * n j).
  Hypothesis T2 : forall u (G : mat), rsum m (fun i => H i * rsum d (fun j => F u i j * G i j)) = tsum T (fun a b j => u a * G b j + u b * G a j).
  Hypothesis T3 : forall k a b j, In (k, a, b, j) T -> (j < d)%nat.
  Hypothesis VE : forall c i k, (c < m_cells M)%nat -> (i < m)%nat -> (k < m_dofs M c)%nat ->
    volume c (x c) zerom i k = 0 + lsum (fun p => w_factor p * (- A (w_grad d p k) (state_at (m_dofs M c) (x c) (w_phi p)) i + S c p i * w_phi p k)) (m_pts M c).
  Hypothesis GE : gauss_exact d M.
  Let dofs := m_dofs M.
  Lemma VOL c : (c < m_cells M)%nat -> pairing m (dofs c) H (x c) (volume c (x c) zerom) =
    lsum (fun p => w_factor p * rsum m (fun i => H i * (S c p i * state_at (dofs c) (x c) (w_phi p) i))) (m_pts M c) -
    (lsum (fun F => (if (i_s F =? c)%nat then lsum (fun p => wf_factor p * (bil m H (state_at (dofs (i_s F)) (x (i_s F)) (wf_phi_s p)) (A (i_normal F) (state_at (dofs (i_s F)) (x (i_s F)) (wf_phi_s p))) / 2)) (i_pts F) else 0) -
                    (if (i_n F =? c)%nat then lsum (fun p => wf_factor p * (bil m H (state_at (dofs (i_n F)) (x (i_n F)) (wf_phi_n p)) (A (i_normal F) (state_at (dofs (i_n F)) (x (i_n F)) (wf_phi_n p))) / 2)) (i_pts F) else 0)) (m_inner M) +
     lsum (fun F => if (b_s F =? c)%nat then lsum (fun p => wf_factor p * (bil m H (state_at (dofs (b_s F)) (x (b_s F)) (wf_phi_s p)) (A (b_normal F) (state_at (dofs (b_s F)) (x (b_s F)) (wf_phi_s p))) / 2)) (b_pts F) else 0) (m_boundary M)).
  Proof.
    intros Cc. rewrite (volume_pairing (dofs c) H (x c) (fun p => state_at (dofs c) (x c) (w_phi p)) (m_pts M c) (S c)) by (intros; now apply VE).
    f_equal.
    transitivity (tsum T (fun a b j => lsum (fun p => w_factor p * (fun_at (dofs c) (x c a) (w_phi p) * grad_at (dofs c) (x c b) (w_grad d p) j +
                                                                   fun_at (dofs c) (x c b) (w_phi p) * grad_at (dofs c) (x c a) (w_grad d p) j)) (m_pts M c))).
    { rewrite tsum_lsum. apply lsum_ext. intros p _. rewrite tsum_scal. f_equal.
      exact (T2 (state_at (dofs c) (x c) (w_phi p)) (fun i j => grad_at (dofs c) (x c i) (w_grad d p) j)). }
    etransitivity; [exact (tsum_ext T _ _ (fun k a b j I => GE c (x c a) (x c b) j Cc (T3 k a b j I)))|]. cbv zeta. rewrite tsum_plus.
    fold dofs. f_equal.
    - rewrite tsum_lsum. apply lsum_ext. intros Fa _. rewrite tsum_minus. f_equal.
      + destruct (Nat.eqb_spec (i_s Fa) c); [|apply tsum_0]. subst c. rewrite tsum_lsum. apply lsum_ext. intros p _. rewrite tsum_scal, T1. reflexivity.
      + destruct (Nat.eqb_spec (i_n Fa) c); [|apply tsum_0]. subst c. rewrite tsum_lsum. apply lsum_ext. intros p _. rewrite tsum_scal, T1. reflexivity.
    - rewrite tsum_lsum. apply lsum_ext. intros Fa _. destruct (Nat.eqb_spec (b_s Fa) c); [|apply tsum_0]. subst c. rewrite tsum_lsum. apply lsum_ext.
      intros p _. rewrite tsum_scal, T1. reflexivity.
  Qed.
End system.

Section one.
  Context (d m : nat) (A : vec -> vec -> vec) (F : vec -> mat).
  Hypothesis AF : forall n u i, (i < m)%nat -> A n u i = rsum d (fun j => F u i j * n j).
  Context (M : wmesh) (x : nat -> mat) (S : nat -> wpoint -> vec) (volume : nat -> mat -> mat -> mat) (e : nat -> vec) (i0 : nat).
  Hypothesis I0 : (i0 < m)%nat.
  Hypothesis VE : forall c i k, (c < m_cells M)%nat -> (i < m)%nat -> (k < m_dofs M c)%nat ->
    volume c (x c) zerom i k = 0 + lsum (fun p => w_factor p * (- A (w_grad d p k) (state_at (m_dofs M c) (x c) (w_phi p)) i + S c p i * w_phi p k)) (m_pts M c).
  Lemma volume_one c : ones d M e -> (c < m_cells M)%nat ->
    pairing m (m_dofs M c) (unit_vector i0) (fun _ => e c) (volume c (x c) zerom) = lsum (fun p => w_factor p * S c p i0) (m_pts M c).
  Proof.
    intros (O1 & O2 & _) Cc.
    rewrite (volume_pairing d m A F AF (m_dofs M c) _ _ (fun p => state_at (m_dofs M c) (x c) (w_phi p)) (m_pts M c) (S c)) by (intros; now apply VE).
    rewrite <- lsum_minus. apply lsum_ext. intros p Ip.
    rewrite (rsum_ext m _ (fun i => unit_vector i0 i * (S c p i * 1))) by (intros i _; unfold state_at; now rewrite O2).
    pose proof (bil_unit m i0 I0 (S c p) (fun _ => 1)) as E. unfold bil in E. rewrite E.
    rewrite (rsum_ext m _ (fun _ => 0)).
    - rewrite rsum_0. ring.
    - intros i _. rewrite (rsum_ext d _ (fun _ => 0)) by (intros j J; rewrite (O1 c p Cc Ip j J); ring). rewrite rsum_0. ring.
  Qed.
End one.

(** ** Acoustics *)
Definition acoustics_fmat (c : R) (u : vec) : mat := fun i j => match i with 0 => u (j + 1)%nat | S k => if (k =? j)%nat then c * c * u 0%nat else 0 end.
Definition acoustics_terms (d : nat) (c : R) : list term := map (fun j => (c * c, (j + 1)%nat, 0%nat, j)) (seq 0 d).
Ltac dims H := destruct H as [->|[->| ->]].
Ltac comp := unfold bil, acoustics_energy, acoustics_nflux, acoustics_proj, inner, momentum, tsum, acoustics_terms, acoustics_fmat; cbn [Nat.add Nat.eqb rsum lsum fold_right map seq].
Lemma acoustics_AF d c n u i : dim_ok d -> (i < d + 1)%nat -> acoustics_nflux d c n u i = rsum d (fun j => acoustics_fmat c u i j * n j).
Proof. intros D I. dims D; comp; destruct i as [|[|[|[|]]]]; try lia; cbn; ring. Qed.
Lemma acoustics_T1 d c n u : dim_ok d -> bil (d + 1) (acoustics_energy c) u (acoustics_nflux d c n u) / 2 = tsum (acoustics_terms d c) (fun a b j => u a * u b * n j).
Proof. intros D. dims D; comp; cbn; field. Qed.
Lemma acoustics_T2 d c u (G : mat) : dim_ok d -> rsum (d + 1) (fun i => acoustics_energy c i * rsum d (fun j => acoustics_fmat c u i j * G i j)) =
  tsum (acoustics_terms d c) (fun a b j => u a * G b j + u b * G a j).
Proof. intros D. dims D; comp; cbn; ring. Qed.
Lemma acoustics_T3 d c k a b j : In (k, a, b, j) (acoustics_terms d c) -> (j < d)%nat.
Proof. unfold acoustics_terms. rewrite in_map_iff. intros (j' & E & I). injection E as <- <- <- <-. apply in_seq in I. lia. Qed.
Lemma acoustics_Asym d c n u v : dim_ok d ->
  bil (d + 1) (acoustics_energy c) u (acoustics_nflux d c n v) = bil (d + 1) (acoustics_energy c) v (acoustics_nflux d c n u).
Proof. intros D. dims D; comp; cbn; ring. Qed.
Lemma acoustics_P d c n u v : dim_ok d ->
  bil (d + 1) (acoustics_energy c) u (acoustics_proj d n v) = c * c * (u 0%nat * v 0%nat) + inner d (momentum u) n * inner d (momentum v) n.
Proof. intros D. dims D; comp; cbn; ring. Qed.
Lemma acoustics_A d c n u v : dim_ok d ->
  bil (d + 1) (acoustics_energy c) u (acoustics_nflux d c n v) = c * c * (u 0%nat * inner d (momentum v) n + v 0%nat * inner d (momentum u) n).
Proof. intros D. dims D; comp; cbn; ring. Qed.

Section acoustics.
  Context (solve : nat -> mat -> vec -> vec) (d : nat).
  Hypothesis D : dim_ok d.
  Lemma wall_energy c n u g : 0 < c -> unit_normal d n -> solve_ok solve d c n -> acoustics_wall d n g ->
    0 <= bil (d + 1) (acoustics_energy c) u (upflux (d + 1) (acoustics_plus solve d c n) (acoustics_minus solve d c n) u (g u)) -
         bil (d + 1) (acoustics_energy c) u (acoustics_nflux d c n u) / 2.
  Proof.
    intros C N SO W.
    assert (HU : bil (d + 1) (acoustics_energy c) u (upflux (d + 1) (acoustics_plus solve d c n) (acoustics_minus solve d c n) u (g u)) =
      bil (d + 1) (acoustics_energy c) u (fun i => / 2 * (acoustics_nflux d c n u i + (acoustics_nflux d c n (g u) i + (c * acoustics_proj d n u i + (- c) * acoustics_proj d n (g u) i))))).
    { apply bil_ext; auto. intros i I. unfold upflux. rewrite acoustics_plus_apply, acoustics_minus_apply by (auto; try lra). field. }
    rewrite HU, bil_scal_r, !bil_plus_r, !bil_scal_r, !acoustics_A, !acoustics_P by auto.
    destruct (W u) as [W0 W1]. rewrite W0.
    assert (E : inner d (momentum (g u)) n = - inner d (momentum u) n).
    { remember (inner d (momentum u) n) as w eqn:Ew.
      transitivity (inner d (momentum u) n - 2 * w * inner d n n); [|unfold unit_normal in N; rewrite N, <- Ew; ring].
      unfold inner. rewrite <- rsum_scal, <- rsum_minus. apply rsum_ext. intros k K. unfold momentum. rewrite W1 by auto. ring. }
    rewrite E. generalize (inner d (momentum u) n) (u 0%nat). intros w r. nra.
  Qed.
  Lemma acoustics_energy_proof c M x : 0 < c -> mesh_ok M -> weights_ok M -> normals_ok d M -> gauss_exact d M ->
    (forall n, normals M n -> solve_ok solve d c n) ->
    (forall F p, In F (m_boundary M) -> In p (b_pts F) -> absorbing (wf_g p) \/ acoustics_wall d (b_normal F) (wf_g p)) ->
    0 <= tested (d + 1) (acoustics_energy c) M
           (fun k => acoustics_alpha_volume d (m_dofs M k) c (m_pts M k))
           (fun F => acoustics_alpha_skeleton solve d (m_dofs M (i_s F)) (m_dofs M (i_n F)) c c (i_normal F) (i_pts F))
           (fun F => acoustics_alpha_boundary solve d (m_dofs M (b_s F)) c (b_normal F) (b_pts F)) x x.
  Proof.
    intros C MO WO NO GE SO BC.
    apply (generic_energy (fun n => unit_normal d n /\ solve_ok solve d c n) (d + 1) (acoustics_energy c) (acoustics_nflux d c) (acoustics_proj d) (acoustics_plus solve d c) (acoustics_minus solve d c) c) with (extra := fun k => lsum (fun p => w_factor p * rsum (d + 1) (fun i => acoustics_energy c i * (0 * state_at (m_dofs M k) (x k) (w_phi p) i))) (m_pts M k)); auto; try lra.
    - intros n v i [N SN] I. apply acoustics_plus_apply; auto; try lra.
    - intros n v i [N SN] I. apply acoustics_minus_apply; auto; try lra.
    - intros. now apply acoustics_Asym.
    - intros. rewrite !acoustics_P by auto. ring.
    - intros n u [N _]. rewrite acoustics_P by auto. pose proof (Rle_0_sqr (c * u 0%nat)). pose proof (Rle_0_sqr (inner d (momentum u) n)). unfold Rsqr in *. nra.
    - intros n u v i I. dims D; comp; destruct i as [|[|[|[|]]]]; try lia; cbn; ring.
    - split; intros F I; (split; [now apply NO | apply SO]); [left | right]; eauto.
    - intros k K.
      apply (VOL d (d + 1) (acoustics_nflux d c) (acoustics_fmat c)) with (S := fun _ _ _ => 0) (T := acoustics_terms d c)
        (volume := fun k => acoustics_alpha_volume d (m_dofs M k) c (m_pts M k)); auto.
      + intros. now apply acoustics_AF.
      + intros. now apply acoustics_T1.
      + intros. now apply acoustics_T2.
      + intros. eapply acoustics_T3; eauto.
      + intros c' i k' C' I K'. rewrite acoustics_volume_eq by auto. f_equal. apply lsum_ext. intros. ring.
    - intros k K. apply Req_le. symmetry. apply lsum_zero. intros p _. rewrite (rsum_ext _ _ (fun _ => 0)) by (intros; ring). rewrite rsum_0. ring.
    - intros F p u IF Ip. destruct NO as [_ NO]. specialize (NO F IF). assert (NF : normals M (b_normal F)) by (right; eauto). destruct (BC F p IF Ip) as [G|G].
      + apply (absorbing_energy (fun n => unit_normal d n /\ solve_ok solve d c n) (d + 1) (acoustics_energy c) (acoustics_nflux d c) (acoustics_proj d) (acoustics_plus solve d c) (acoustics_minus solve d c) c); auto; try lra.
        * intros n v i [N SN] I. apply acoustics_plus_apply; auto; try lra.
        * intros n v i [N SN] I. apply acoustics_minus_apply; auto; try lra.
        * intros n v [N _]. rewrite acoustics_P by auto. pose proof (Rle_0_sqr (c * v 0%nat)). pose proof (Rle_0_sqr (inner d (momentum v) n)). unfold Rsqr in *. nra.
        * intros v i I Z. dims D; comp; destruct i as [|[|[|[|]]]]; try lia; cbn; rewrite ?Z; split; ring.
      + apply wall_energy; auto.
    - intros n u v i I E. dims D; comp; destruct i as [|[|[|[|]]]]; try lia; cbn; rewrite ?E; ring.
  Qed.
  Lemma acoustics_conservation_proof c M x e i0 : (i0 < d + 1)%nat -> ones d M e ->
    tested (d + 1) (unit_vector i0) M
           (fun k => acoustics_alpha_volume d (m_dofs M k) (c k) (m_pts M k))
           (fun F => acoustics_alpha_skeleton solve d (m_dofs M (i_s F)) (m_dofs M (i_n F)) (c (i_s F)) (c (i_n F)) (i_normal F) (i_pts F))
           (fun F => acoustics_alpha_boundary solve d (m_dofs M (b_s F)) (c (b_s F)) (b_normal F) (b_pts F)) (fun k _ => e k) x =
    lsum (fun F => lsum (fun p => wf_factor p *
      (let u := eval_state (m_dofs M (b_s F)) (x (b_s F)) (wf_phi_s p) in
       upflux (d + 1) (acoustics_plus solve d (c (b_s F)) (b_normal F)) (acoustics_minus solve d (c (b_s F)) (b_normal F)) u (wf_g p u) i0)) (b_pts F)) (m_boundary M).
  Proof.
    intros I0 ON.
    rewrite (generic_conservation d (d + 1) i0 (fun F => acoustics_plus solve d (c (i_s F)) (i_normal F)) (fun F => acoustics_minus solve d (c (i_n F)) (i_normal F))
      (fun F => acoustics_plus solve d (c (b_s F)) (b_normal F)) (fun F => acoustics_minus solve d (c (b_s F)) (b_normal F)) I0 M) with (extra := fun k => lsum (fun p => w_factor p * 0) (m_pts M k)); auto.
    - rewrite (rsum_ext _ _ (fun _ => 0)). { rewrite rsum_0. ring. }
      intros k _. apply lsum_zero. intros. ring.
    - intros k K. set (ck := c k).
      apply (volume_one d (d + 1) (acoustics_nflux d ck) (acoustics_fmat ck)) with (M := M) (x := x) (S := fun _ _ _ => 0) (i0 := i0) (e := e)
        (volume := fun k => acoustics_alpha_volume d (m_dofs M k) ck (m_pts M k)); auto.
      + intros. now apply acoustics_AF.
      + intros c' i k' C' I K'. rewrite acoustics_volume_eq by auto. f_equal. apply lsum_ext. intros. ring.
  Qed.
End acoustics.

(** ** Maxwell *)
Definition maxwell_terms (eps mu : R) : list term :=
  let k := / (eps * mu) in
  [(- k, 0, 5, 1); (k, 2, 3, 1); (k, 0, 4, 2); (- k, 1, 3, 2); (k, 1, 5, 0); (- k, 2, 4, 0)]%nat.
Ltac mcomp := unfold bil, maxwell_energy, maxwell_nflux, maxwell_proj, crossp, inner, fieldD, fieldB, tsum, maxwell_terms, maxwell_flux, Nat.ltb;
  cbn [rsum lsum fold_right map Nat.ltb Nat.leb Nat.sub Nat.add].
Lemma maxwell_AF eps mu n u i : (i < 6)%nat -> maxwell_nflux eps mu n u i = rsum 3 (fun j => maxwell_flux (1 / mu) (1 / eps) u i j * n j).
Proof. intros I. rewrite maxwell_flux_row by auto. unfold maxwell_nflux. destruct (i <? 3)%nat; unfold Rdiv; ring. Qed.
Lemma maxwell_T1 eps mu n u : eps <> 0 -> mu <> 0 -> bil 6 (maxwell_energy eps mu) u (maxwell_nflux eps mu n u) / 2 = tsum (maxwell_terms eps mu) (fun a b j => u a * u b * n j).
Proof. intros E Mu. mcomp. field. auto. Qed.
Lemma maxwell_T2 eps mu u (G : mat) : eps <> 0 -> mu <> 0 ->
  rsum 6 (fun i => maxwell_energy eps mu i * rsum 3 (fun j => maxwell_flux (1 / mu) (1 / eps) u i j * G i j)) =
  tsum (maxwell_terms eps mu) (fun a b j => u a * G b j + u b * G a j).
Proof. intros E Mu. mcomp. field. auto. Qed.
Lemma maxwell_T3 eps mu k a b j : In (k, a, b, j) (maxwell_terms eps mu) -> (j < 3)%nat.
Proof. cbn. intros I. repeat (destruct I as [I|I]; [injection I as <- <- <- <-; lia|]). destruct I. Qed.
Lemma maxwell_Asym eps mu n u v : eps <> 0 -> mu <> 0 ->
  bil 6 (maxwell_energy eps mu) u (maxwell_nflux eps mu n v) = bil 6 (maxwell_energy eps mu) v (maxwell_nflux eps mu n u).
Proof. intros E Mu. mcomp. field. auto. Qed.
Lemma maxwell_P eps mu n u v : bil 6 (maxwell_energy eps mu) u (maxwell_proj n v) =
  (inner 3 (fieldD u) (fieldD v) - inner 3 n (fieldD u) * inner 3 n (fieldD v)) * / eps +
  (inner 3 (fieldB u) (fieldB v) - inner 3 n (fieldB u) * inner 3 n (fieldB v)) * / mu.
Proof. mcomp. ring. Qed.
Lemma tangential_nonneg n w : unit_normal 3 n -> 0 <= inner 3 w w - inner 3 n w * inner 3 n w.
Proof.
  unfold unit_normal, inner. rewrite !sum3. generalize (n 0%nat) (n 1%nat) (n 2%nat) (w 0%nat) (w 1%nat) (w 2%nat). intros a b c x y z U.
  replace (x * x + y * y + z * z) with ((a * a + b * b + c * c) * (x * x + y * y + z * z)) by (rewrite U; ring).
  pose proof (Rle_0_sqr (a * y - b * x)). pose proof (Rle_0_sqr (a * z - c * x)). pose proof (Rle_0_sqr (b * z - c * y)). unfold Rsqr in *. lra.
Qed.

Section maxwell.
  Context (invert : nat -> mat -> mat) (eps mu : R).
  Hypothesis (E : 0 < eps) (Mu : 0 < mu).
  Let c := 1 / sqrt (eps * mu).
  Lemma speed_pos : 0 < c.
  Proof. unfold c. apply Rdiv_lt_0_compat; [lra|]. apply sqrt_lt_R0. nra. Qed.
  Lemma maxwell_psd n u : unit_normal 3 n -> 0 <= bil 6 (maxwell_energy eps mu) u (maxwell_proj n u).
  Proof.
    intros N. rewrite maxwell_P. pose proof (tangential_nonneg n (fieldD u) N). pose proof (tangential_nonneg n (fieldB u) N).
    pose proof (Rinv_0_lt_compat _ E). pose proof (Rinv_0_lt_compat _ Mu).
    apply Rplus_le_le_0_compat; apply Rmult_le_pos; lra.
  Qed.
  Lemma conductor_energy n u g : unit_normal 3 n -> invert_ok invert eps mu n -> conductor g ->
    0 <= bil 6 (maxwell_energy eps mu) u (upflux 6 (maxwell_plus invert eps mu n) (maxwell_minus invert eps mu n) u (g u)) -
         bil 6 (maxwell_energy eps mu) u (maxwell_nflux eps mu n u) / 2.
  Proof.
    intros N IO G.
    assert (HU : bil 6 (maxwell_energy eps mu) u (upflux 6 (maxwell_plus invert eps mu n) (maxwell_minus invert eps mu n) u (g u)) =
      bil 6 (maxwell_energy eps mu) u (fun i => / 2 * (maxwell_nflux eps mu n u i + (maxwell_nflux eps mu n (g u) i + (c * maxwell_proj n u i + (- c) * maxwell_proj n (g u) i))))).
    { apply bil_ext; auto. intros i I. unfold upflux. rewrite maxwell_plus_apply, maxwell_minus_apply by auto. fold c. field. }
    rewrite HU, bil_scal_r, !bil_plus_r, !bil_scal_r.
    assert (Q : bil 6 (maxwell_energy eps mu) u (maxwell_nflux eps mu n (g u)) = 0).
    { assert (G0 := fun i I => proj1 (G u i I)). assert (G1 := fun i I => proj2 (G u i I)).
      pose proof (G0 0%nat ltac:(lia)) as A0. pose proof (G0 1%nat ltac:(lia)) as A1. pose proof (G0 2%nat ltac:(lia)) as A2.
      pose proof (G1 0%nat ltac:(lia)) as B0. pose proof (G1 1%nat ltac:(lia)) as B1. pose proof (G1 2%nat ltac:(lia)) as B2. cbn in B0, B1, B2.
      mcomp. rewrite A0, A1, A2, B0, B1, B2. field. lra. }
    assert (Q2 : bil 6 (maxwell_energy eps mu) u (maxwell_proj n (g u)) =
      - (inner 3 (fieldD u) (fieldD u) - inner 3 n (fieldD u) * inner 3 n (fieldD u)) * / eps +
      (inner 3 (fieldB u) (fieldB u) - inner 3 n (fieldB u) * inner 3 n (fieldB u)) * / mu).
    { assert (G0 := fun i I => proj1 (G u i I)). assert (G1 := fun i I => proj2 (G u i I)).
      pose proof (G0 0%nat ltac:(lia)) as A0. pose proof (G0 1%nat ltac:(lia)) as A1. pose proof (G0 2%nat ltac:(lia)) as A2.
      pose proof (G1 0%nat ltac:(lia)) as B0. pose proof (G1 1%nat ltac:(lia)) as B1. pose proof (G1 2%nat ltac:(lia)) as B2. cbn in B0, B1, B2.
      mcomp. rewrite A0, A1, A2, B0, B1, B2. ring. }
    rewrite Q, Q2, maxwell_P. pose proof (tangential_nonneg n (fieldD u) N) as TD. pose proof (Rinv_0_lt_compat _ E) as IE. pose proof speed_pos as CP.
    match goal with |- 0 <= ?a => replace a with (c * ((inner 3 (fieldD u) (fieldD u) - inner 3 n (fieldD u) * inner 3 n (fieldD u)) * / eps)) by (clearbody c; field; lra) end.
    all: try lra.
    apply Rmult_le_pos; [lra|]. apply Rmult_le_pos; lra.
  Qed.
  Lemma maxwell_energy_proof sigma M x : (forall k, 0 <= sigma k) -> mesh_ok M -> weights_ok M -> cell_weights_ok M -> normals_ok 3 M -> gauss_exact 3 M ->
    (forall n, normals M n -> invert_ok invert eps mu n) ->
    (forall F p, In F (m_boundary M) -> In p (b_pts F) -> absorbing (wf_g p) \/ conductor (wf_g p)) ->
    0 <= tested 6 (maxwell_energy eps mu) M
           (fun k => maxwell_alpha_volume (m_dofs M k) eps mu (sigma k) (m_pts M k))
           (fun F => maxwell_alpha_skeleton invert (m_dofs M (i_s F)) (m_dofs M (i_n F)) eps mu eps mu (i_normal F) (i_pts F))
           (fun F => maxwell_alpha_boundary invert (m_dofs M (b_s F)) eps mu (b_normal F) (b_pts F)) x x.
  Proof.
    intros SP MO WO CO NO GE IO BC. pose proof speed_pos as CP.
    pose (S := fun (k : nat) (p : wpoint) (i : nat) => if (i <? 3)%nat then sigma k / eps * state_at (m_dofs M k) (x k) (w_phi p) i else 0).
    apply (generic_energy (fun n => unit_normal 3 n /\ invert_ok invert eps mu n) 6 (maxwell_energy eps mu) (maxwell_nflux eps mu) maxwell_proj (maxwell_plus invert eps mu) (maxwell_minus invert eps mu) c)
      with (extra := fun k => lsum (fun p => w_factor p * rsum 6 (fun i => maxwell_energy eps mu i * (S k p i * state_at (m_dofs M k) (x k) (w_phi p) i))) (m_pts M k)); auto; try lra.
    - intros n v i [N IN'] I. now apply maxwell_plus_apply.
    - intros n v i [N IN'] I. now apply maxwell_minus_apply.
    - intros. apply maxwell_Asym; lra.
    - intros. rewrite !maxwell_P. mcomp. ring.
    - intros n u [N _]. now apply maxwell_psd.
    - intros n u v i I. unfold maxwell_proj, inner, fieldD, fieldB. rewrite !sum3. destruct (i <? 3)%nat; ring.
    - split; intros F I; (split; [now apply NO | apply IO]); [left | right]; eauto.
    - intros k K.
      apply (VOL 3 6 (maxwell_nflux eps mu) (maxwell_flux (1 / mu) (1 / eps))) with (S := S) (T := maxwell_terms eps mu)
        (volume := fun k => maxwell_alpha_volume (m_dofs M k) eps mu (sigma k) (m_pts M k)); auto.
      + intros. now apply maxwell_AF.
      + intros. apply maxwell_T1; lra.
      + intros. apply maxwell_T2; lra.
      + intros. eapply maxwell_T3; eauto.
      + intros c' i k' C' I K'. rewrite maxwell_volume_eq by auto. f_equal. apply lsum_ext. intros. unfold S. destruct (i <? 3)%nat; ring.
    - intros k K. apply lsum_nonneg. intros p Ip. apply Rmult_le_pos; [now apply (CO k)|]. apply rsum_nonneg. intros i I.
      unfold maxwell_energy, S. destruct (i <? 3)%nat; [|ring_simplify; lra]. specialize (SP k). pose proof (Rinv_0_lt_compat _ E).
      set (u := state_at (m_dofs M k) (x k) (w_phi p) i). unfold Rdiv.
      replace (/ eps * (sigma k * / eps * u * u)) with (sigma k * ((/ eps * u) * (/ eps * u))) by ring.
      apply Rmult_le_pos; [auto|]. apply (Rle_0_sqr (/ eps * u)).
    - intros F p u IF Ip. destruct NO as [_ NO]. specialize (NO F IF). assert (NF : normals M (b_normal F)) by (right; eauto). destruct (BC F p IF Ip) as [G|G].
      + apply (absorbing_energy (fun n => unit_normal 3 n /\ invert_ok invert eps mu n) 6 (maxwell_energy eps mu) (maxwell_nflux eps mu) maxwell_proj (maxwell_plus invert eps mu) (maxwell_minus invert eps mu) c); auto; try lra.
        * intros n v i [N IN'] I. now apply maxwell_plus_apply.
        * intros n v i [N IN'] I. now apply maxwell_minus_apply.
        * intros n v [N _]. now apply maxwell_psd.
        * intros v i I Z. unfold maxwell_nflux, maxwell_proj, inner, fieldD, fieldB, crossp. rewrite !sum3.
          destruct i as [|[|[|[|[|[|]]]]]]; try lia; unfold Nat.ltb; cbn; rewrite !Z; split; unfold Rdiv; ring.
      + apply conductor_energy; auto.
    - intros n u v i I EE. unfold maxwell_nflux, fieldD, fieldB, crossp.
      destruct i as [|[|[|[|[|[|]]]]]]; try lia; unfold Nat.ltb; cbn; rewrite !EE; reflexivity.
  Qed.
End maxwell.
Lemma maxwell_conservation_proof invert eps mu sigma M x e i0 : (i0 < 6)%nat -> ones 3 M e ->
  tested 6 (unit_vector i0) M
         (fun k => maxwell_alpha_volume (m_dofs M k) (eps k) (mu k) (sigma k) (m_pts M k))
         (fun F => maxwell_alpha_skeleton invert (m_dofs M (i_s F)) (m_dofs M (i_n F)) (eps (i_s F)) (mu (i_s F)) (eps (i_n F)) (mu (i_n F)) (i_normal F) (i_pts F))
         (fun F => maxwell_alpha_boundary invert (m_dofs M (b_s F)) (eps (b_s F)) (mu (b_s F)) (b_normal F) (b_pts F)) (fun k _ => e k) x =
  rsum (m_cells M) (fun k => lsum (fun p => w_factor p * (if (i0 <? 3)%nat then sigma k / eps k * state_at (m_dofs M k) (x k) (w_phi p) i0 else 0)) (m_pts M k)) +
  lsum (fun F => lsum (fun p => wf_factor p *
    (let u := eval_state (m_dofs M (b_s F)) (x (b_s F)) (wf_phi_s p) in
     upflux 6 (maxwell_plus invert (eps (b_s F)) (mu (b_s F)) (b_normal F)) (maxwell_minus invert (eps (b_s F)) (mu (b_s F)) (b_normal F)) u (wf_g p u) i0)) (b_pts F)) (m_boundary M).
Proof.
  intros I0 ON.
  apply (generic_conservation 3 6 i0 (fun F => maxwell_plus invert (eps (i_s F)) (mu (i_s F)) (i_normal F)) (fun F => maxwell_minus invert (eps (i_n F)) (mu (i_n F)) (i_normal F))
    (fun F => maxwell_plus invert (eps (b_s F)) (mu (b_s F)) (b_normal F)) (fun F => maxwell_minus invert (eps (b_s F)) (mu (b_s F)) (b_normal F)) I0 M); auto.
  intros k K. set (ek := eps k). set (mk := mu k). set (sk := sigma k).
  apply (volume_one 3 6 (maxwell_nflux ek mk) (maxwell_flux (1 / mk) (1 / ek))) with (M := M) (x := x) (i0 := i0) (e := e)
    (S := fun k' p i => if (i <? 3)%nat then sk / ek * state_at (m_dofs M k') (x k') (w_phi p) i else 0)
    (volume := fun k => maxwell_alpha_volume (m_dofs M k) ek mk sk (m_pts M k)); auto.
  - intros. now apply maxwell_AF.
  - intros c' i k' C' I K'. rewrite maxwell_volume_eq by auto. f_equal. apply lsum_ext. intros. destruct (i <? 3)%nat; ring.
Qed.
