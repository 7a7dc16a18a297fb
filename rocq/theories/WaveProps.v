(** Properties of the discontinuous Galerkin operators for waves: C107-C110. *)
From Verif Require Import Common CommonFacts CdModel CdSpec CdProofs WaveModel WaveSpec WaveProofs WaveProofs2 WaveProofs3 WaveProofs4 WaveProofs5.
From Coq Require Import Reals Lra Lia.
Open Scope R_scope.

(** ** C107: the flux is split into outgoing and incoming waves *)

(** The rows of the eigenvector matrix are waves of the equations with the speeds c, -c and zero, and they span all states; the other matrix is
    the transpose. *)
Theorem c107_acoustics_waves : forall d c n, dim_ok d -> c <> 0 -> unit_normal d n ->
  (forall k i, (k < d + 1)%nat -> (i < d + 1)%nat ->
     acoustics_nflux d c n (eigenvectors_transposed d c n k) i = acoustics_speed d c k * eigenvectors_transposed d c n k i) /\
  regular (d + 1) (eigenvectors_transposed d c n) /\
  (forall i j, (i < d + 1)%nat -> (j < d + 1)%nat -> eigenvectors d c n i j = eigenvectors_transposed d c n j i).
Proof.
  intros d c n D C N. repeat split.
  - intros. now apply eigen_waves.
  - now apply eigen_regular.
  - intros. now apply eigenvectors_transpose.
Qed.
Print Assumptions c107_acoustics_waves.

Theorem c107_maxwell_waves : forall eps mu n, 0 < eps -> 0 < mu -> unit_normal 3 n ->
  (forall k i, (k < 6)%nat -> (i < 6)%nat ->
     maxwell_nflux eps mu n (fun r => maxwell_eigenvectors eps mu n r k) i = maxwell_speed eps mu k * maxwell_eigenvectors eps mu n i k) /\
  regular 6 (maxwell_eigenvectors eps mu n).
Proof. intros eps mu n E M N. split; [intros; now apply maxwell_waves_proof | now apply maxwell_regular_proof]. Qed.
Print Assumptions c107_maxwell_waves.

(** For every wave, A+ is its speed if it leaves the cell and zero if it enters, A- the other way round. *)
Theorem c107_acoustics_split : forall solve d c n, dim_ok d -> 0 < c -> unit_normal d n -> solve_ok solve d c n ->
  upwind_split (d + 1) (acoustics_nflux d c n) (acoustics_plus solve d c n) (acoustics_minus solve d c n).
Proof. exact acoustics_split_proof. Qed.
Print Assumptions c107_acoustics_split.

Theorem c107_maxwell_split : forall invert eps mu n, 0 < eps -> 0 < mu -> unit_normal 3 n -> invert_ok invert eps mu n ->
  upwind_split 6 (maxwell_nflux eps mu n) (maxwell_plus invert eps mu n) (maxwell_minus invert eps mu n).
Proof. exact maxwell_split_proof. Qed.
Print Assumptions c107_maxwell_split.

(** Cramer's rule solves the systems in one dimension, for every speed and both normals. *)
Definition cramer (m : nat) (A : mat) (b : vec) : vec :=
  let det := A 0%nat 0%nat * A 1%nat 1%nat - A 0%nat 1%nat * A 1%nat 0%nat in
  fun i => match i with
           | 0 => (b 0%nat * A 1%nat 1%nat - A 0%nat 1%nat * b 1%nat) / det
           | _ => (A 0%nat 0%nat * b 1%nat - b 0%nat * A 1%nat 0%nat) / det
           end.
Lemma cramer_ok c n : c <> 0 -> unit_normal 1 n -> solve_ok cramer 1 c n.
Proof.
  intros C N k _ i I. unfold unit_normal, inner in N. cbn in N.
  assert (Z : n 0%nat <> 0) by (intros Z; rewrite Z in N; lra).
  assert (H : 1 * (c * n 0%nat) - c * n 0%nat * -1 <> 0).
  { intros E. apply Z. assert (c * n 0%nat = 0) by lra. apply Rmult_integral in H. destruct H; [contradiction|assumption]. }
  unfold apply, cramer. cbn [rsum Nat.add eigenvectors_transposed]. generalize (unit_vector k). intros b. destruct i as [|[|]]; try lia; field; (intros E; apply H; rewrite <- E; ring).
Qed.
Example c107_acoustics_example : dim_ok 1 /\ 0 < 3 /\ unit_normal 1 (fun _ => -1) /\ solve_ok cramer 1 3 (fun _ => -1) /\
  (* the wave (1, -3), density and momentum, leaves through the left end with speed 3: A+ multiplies it by 3 *)
  apply 2 (acoustics_plus cramer 1 3 (fun _ => -1)) (fun i => match i with 0 => 1 | _ => -3 end) 0%nat = 3.
Proof.
  assert (N : unit_normal 1 (fun _ => -1)) by (unfold unit_normal, inner; cbn; lra).
  assert (S : solve_ok cramer 1 3 (fun _ => -1)) by (apply cramer_ok; auto; lra).
  repeat split; auto; try lra. { now left. }
  change 2%nat with (1 + 1)%nat. rewrite acoustics_plus_apply; auto; try lra; try lia; try (now left). unfold acoustics_nflux, acoustics_proj, inner, momentum. cbn. lra.
Qed.
(** The columns of the matrix of Maxwell's equations are orthogonal when eps = mu = 1; here for the normals of a pair of opposite faces. *)
Definition orthogonal_inverse (m : nat) (A : mat) : mat := fun k j => A j k / rsum m (fun i => A i k * A i k).
Definition ex (s : R) : vec := fun k => match k with 0 => s | _ => 0 end.
Lemma ex_frame s : (forall k, maxwell_re (ex s) k = match k with 0 | 1 => 0 | _ => -1 end) /\ (forall k, maxwell_im (ex s) k = match k with 1 => s | _ => 0 end).
Proof.
  unfold maxwell_re, maxwell_im, ex. destruct Rlt_dec as [_|N]; [|exfalso; apply N; rewrite Rabs_R0; lra].
  split; intros [|[|[|]]]; cbn; ring.
Qed.
Lemma orthogonal_ok s : s * s = 1 -> invert_ok orthogonal_inverse 1 1 (ex s).
Proof.
  intros S i j I J. destruct (ex_frame s) as [A B]. unfold orthogonal_inverse, maxwell_eigenvectors. rewrite sqrt_1. unfold Nat.ltb. cbn [rsum Nat.leb Nat.sub].
  rewrite !A, !B. cbn [ex].
  assert (D1 : s * s + 1 <> 0) by lra.
  destruct i as [|[|[|[|[|[|]]]]]]; try lia; destruct j as [|[|[|[|[|[|]]]]]]; try lia; cbn [Nat.leb Nat.sub Nat.eqb]; rewrite ?A, ?B; cbn [ex];
    repeat match goal with |- context [?a / ?b] => progress (replace b with 2 by lra) end;
    repeat match goal with |- context [?a / ?b] => progress (replace b with 1 by lra) end; lra.
Qed.
Example c107_maxwell_example : 0 < 1 /\ unit_normal 3 (ex (-1)) /\ invert_ok orthogonal_inverse 1 1 (ex (-1)).
Proof. repeat split; [lra | unfold unit_normal, inner; cbn; lra | apply orthogonal_ok; lra]. Qed.

(** ** C108: the numerical flux is conservative and consistent *)

(** Whatever the materials of the two cells: what one cell loses through a face is what its neighbour gains. *)
Theorem c108_acoustics_conservative : forall solve d ns nn c_s c_n n pts x_s x_n e_s e_n i, (i < d + 1)%nat ->
  (forall p, In p pts -> fun_at ns e_s (wf_phi_s p) = 1 /\ fun_at nn e_n (wf_phi_n p) = 1) ->
  let r := acoustics_alpha_skeleton solve d ns nn c_s c_n n pts x_s x_n (zerom, zerom) in
  rsum ns (fun k => e_s k * fst r i k) + rsum nn (fun k => e_n k * snd r i k) = 0.
Proof. intros. now apply face_conservative. Qed.
Print Assumptions c108_acoustics_conservative.
Theorem c108_maxwell_conservative : forall invert ns nn eps_s mu_s eps_n mu_n n pts x_s x_n e_s e_n i, (i < 6)%nat ->
  (forall p, In p pts -> fun_at ns e_s (wf_phi_s p) = 1 /\ fun_at nn e_n (wf_phi_n p) = 1) ->
  let r := maxwell_alpha_skeleton invert ns nn eps_s mu_s eps_n mu_n n pts x_s x_n (zerom, zerom) in
  rsum ns (fun k => e_s k * fst r i k) + rsum nn (fun k => e_n k * snd r i k) = 0.
Proof. intros. now apply face_conservative. Qed.
Print Assumptions c108_maxwell_conservative.

(** Between cells of the same material the numerical flux of a continuous state is the flux of the equations. *)
Theorem c108_acoustics_consistent_partial : forall solve d c n u i, dim_ok d -> 0 < c -> unit_normal d n -> solve_ok solve d c n -> (i < d + 1)%nat ->
  apply (d + 1) (acoustics_plus solve d c n) u i + apply (d + 1) (acoustics_minus solve d c n) u i = acoustics_nflux d c n u i.
Proof. intros solve d c n u i D C N S I. rewrite acoustics_plus_apply, acoustics_minus_apply by (auto; lra). field. Qed.
Print Assumptions c108_acoustics_consistent_partial.
Theorem c108_maxwell_consistent_partial : forall invert eps mu n u i, 0 < eps -> 0 < mu -> unit_normal 3 n -> invert_ok invert eps mu n -> (i < 6)%nat ->
  apply 6 (maxwell_plus invert eps mu n) u i + apply 6 (maxwell_minus invert eps mu n) u i = maxwell_nflux eps mu n u i.
Proof. intros invert eps mu n u i E M N S I. rewrite maxwell_plus_apply, maxwell_minus_apply by auto. generalize (1 / sqrt (eps * mu)). intros. field. Qed.
Print Assumptions c108_maxwell_consistent_partial.

(** Where the speed of sound jumps it is not: a fluid at rest (w = 0) under the same pressure (c^2 rho) on both sides, for which both cells see
    the same flux of the equations, gets a flux of mass. *)
Theorem c108_jump_acoustics_refuted : exists solve d c_s c_n n u_s u_n,
  dim_ok d /\ 0 < c_s /\ 0 < c_n /\ unit_normal d n /\ solve_ok solve d c_s n /\ solve_ok solve d c_n n /\
  (forall i, (i < d + 1)%nat -> acoustics_nflux d c_s n u_s i = acoustics_nflux d c_n n u_n i) /\
  acoustics_nflux d c_s n u_s 0%nat = 0 /\
  apply (d + 1) (acoustics_plus solve d c_s n) u_s 0%nat + apply (d + 1) (acoustics_minus solve d c_n n) u_n 0%nat = 1.
Proof.
  exists cramer, 1%nat, 1, 2, (fun _ => 1), (fun i => match i with 0 => 4 | _ => 0 end), (fun i => match i with 0 => 1 | _ => 0 end).
  assert (N : unit_normal 1 (fun _ => 1)) by (unfold unit_normal, inner; cbn; lra).
  assert (D : dim_ok 1) by now left.
  assert (S1 : solve_ok cramer 1 1 (fun _ => 1)) by (apply cramer_ok; auto; lra).
  assert (S2 : solve_ok cramer 1 2 (fun _ => 1)) by (apply cramer_ok; auto; lra).
  split; [auto|]. split; [lra|]. split; [lra|]. split; [auto|]. split; [auto|]. split; [auto|].
  split; [intros [|[|i]] I; try lia; unfold acoustics_nflux, inner, momentum; cbn; ring|].
  split; [unfold acoustics_nflux, inner, momentum; cbn; ring|].
  rewrite acoustics_plus_apply, acoustics_minus_apply by (auto; try lra; lia). unfold acoustics_nflux, acoustics_proj, inner, momentum. cbn. lra.
Qed.
Print Assumptions c108_jump_acoustics_refuted.

(** The hypotheses on a face: linear functions of the neighbouring intervals [0, 1] and [1, 2] at the point 1, and the constant function one *)
Example c108_example : let pts := [mkwfp 1 1 (fun k => match k with 0 => 0 | _ => 1 end) (fun k => match k with 0 => 1 | _ => 0 end) (fun _ => zerov)] in
  (forall p, In p pts -> fun_at 2 (fun _ => 1) (wf_phi_s p) = 1 /\ fun_at 2 (fun _ => 1) (wf_phi_n p) = 1) /\
  (* and the residual is not zero *)
  fst (acoustics_alpha_skeleton cramer 1 2 2 1 1 (fun _ => 1) pts (fun i k => match i, k with 0, _ => 2 | _, _ => 0 end) zerom (zerom, zerom)) 0%nat 1%nat = 1.
Proof.
  intros pts. split. { intros p [<-|[]]. unfold fun_at. cbn. split; ring. }
  assert (N : unit_normal 1 (fun _ => 1)) by (unfold unit_normal, inner; cbn; lra).
  assert (D : dim_ok 1) by now left.
  assert (S1 : solve_ok cramer 1 1 (fun _ => 1)) by (apply cramer_ok; auto; lra).
  unfold acoustics_alpha_skeleton. 
  match goal with |- fst (wave_alpha_skeleton ?m ?a ?b ?c ?d ?e ?f ?g (?h, ?k)) _ _ = _ =>
    rewrite (proj1 (skeleton_eq m a b c d e f g h k 0%nat 1%nat ltac:(lia)) ltac:(lia)) end.
  unfold upflux, pts. cbn [lsum fold_right].
  rewrite acoustics_plus_apply, acoustics_minus_apply by (auto; try lra; lia). unfold acoustics_nflux, acoustics_proj, inner, momentum, state_at, fun_at, wf_factor, zerom. cbn. lra.
Qed.

(** ** C109: the residuals are the weak form *)

Theorem c109_acoustics_volume : forall d n c pts x r i k, (i < d + 1)%nat -> (k < n)%nat ->
  acoustics_alpha_volume d n c pts x r i k =
  r i k + lsum (fun p => w_factor p * - acoustics_nflux d c (w_grad d p k) (state_at n x (w_phi p)) i) pts.
Proof. exact acoustics_volume_eq. Qed.
Print Assumptions c109_acoustics_volume.
Theorem c109_maxwell_volume : forall n eps mu sigma pts x r i k, (i < 6)%nat -> (k < n)%nat ->
  maxwell_alpha_volume n eps mu sigma pts x r i k =
  r i k + lsum (fun p => w_factor p * (- maxwell_nflux eps mu (w_grad 3 p k) (state_at n x (w_phi p)) i +
                                       (if (i <? 3)%nat then sigma / eps * state_at n x (w_phi p) i * w_phi p k else 0))) pts.
Proof. exact maxwell_volume_eq. Qed.
Print Assumptions c109_maxwell_volume.
(** faces: plus the upwind flux for the inner cell, minus the same flux for the neighbour; outgoing waves with the material of the inner cell,
    incoming ones with the material of the neighbour *)
Theorem c109_acoustics_skeleton : forall solve d c_s c_n n ns nn pts x_s x_n r_s r_n i k, (i < d + 1)%nat ->
  let flux p := apply (d + 1) (acoustics_plus solve d c_s n) (state_at ns x_s (wf_phi_s p)) i + apply (d + 1) (acoustics_minus solve d c_n n) (state_at nn x_n (wf_phi_n p)) i in
  let r := acoustics_alpha_skeleton solve d ns nn c_s c_n n pts x_s x_n (r_s, r_n) in
  ((k < ns)%nat -> fst r i k = r_s i k + lsum (fun p => wf_factor p * (flux p * wf_phi_s p k)) pts) /\
  ((k < nn)%nat -> snd r i k = r_n i k + lsum (fun p => wf_factor p * (- flux p * wf_phi_n p k)) pts).
Proof. intros. now apply skeleton_eq. Qed.
Print Assumptions c109_acoustics_skeleton.
Theorem c109_maxwell_skeleton : forall invert eps_s mu_s eps_n mu_n n ns nn pts x_s x_n r_s r_n i k, (i < 6)%nat ->
  let flux p := apply 6 (maxwell_plus invert eps_s mu_s n) (state_at ns x_s (wf_phi_s p)) i + apply 6 (maxwell_minus invert eps_n mu_n n) (state_at nn x_n (wf_phi_n p)) i in
  let r := maxwell_alpha_skeleton invert ns nn eps_s mu_s eps_n mu_n n pts x_s x_n (r_s, r_n) in
  ((k < ns)%nat -> fst r i k = r_s i k + lsum (fun p => wf_factor p * (flux p * wf_phi_s p k)) pts) /\
  ((k < nn)%nat -> snd r i k = r_n i k + lsum (fun p => wf_factor p * (- flux p * wf_phi_n p k)) pts).
Proof. intros. now apply skeleton_eq. Qed.
Print Assumptions c109_maxwell_skeleton.
(** on the boundary the outer state is the one given by the user for the inner one (which must depend on its values only) *)
Lemma boundary_state m ns Ap Am pts x r i k : (i < m)%nat -> (k < ns)%nat ->
  (forall p, In p pts -> proper m (wf_g p)) ->
  wave_alpha_boundary m ns Ap Am pts x r i k =
  r i k + lsum (fun p => wf_factor p * ((apply m Ap (state_at ns x (wf_phi_s p)) i + apply m Am (wf_g p (state_at ns x (wf_phi_s p))) i) * wf_phi_s p k)) pts.
Proof.
  intros I K P. rewrite boundary_eq by auto. f_equal. apply lsum_ext. intros p Ip. f_equal. f_equal. unfold upflux. f_equal.
  - apply apply_ext. intros. apply eval_state_at.
  - apply apply_ext. intros j J. apply (P p Ip); auto. intros. apply eval_state_at.
Qed.
Theorem c109_acoustics_boundary : forall solve d c n ns pts x r i k, (i < d + 1)%nat -> (k < ns)%nat ->
  (forall p, In p pts -> proper (d + 1) (wf_g p)) ->
  acoustics_alpha_boundary solve d ns c n pts x r i k =
  r i k + lsum (fun p => wf_factor p * ((apply (d + 1) (acoustics_plus solve d c n) (state_at ns x (wf_phi_s p)) i +
                                         apply (d + 1) (acoustics_minus solve d c n) (wf_g p (state_at ns x (wf_phi_s p))) i) * wf_phi_s p k)) pts.
Proof. intros. now apply boundary_state. Qed.
Print Assumptions c109_acoustics_boundary.
Theorem c109_maxwell_boundary : forall invert eps mu n ns pts x r i k, (i < 6)%nat -> (k < ns)%nat ->
  (forall p, In p pts -> proper 6 (wf_g p)) ->
  maxwell_alpha_boundary invert ns eps mu n pts x r i k =
  r i k + lsum (fun p => wf_factor p * ((apply 6 (maxwell_plus invert eps mu n) (state_at ns x (wf_phi_s p)) i +
                                         apply 6 (maxwell_minus invert eps mu n) (wf_g p (state_at ns x (wf_phi_s p))) i) * wf_phi_s p k)) pts.
Proof. intros. now apply boundary_state. Qed.
Print Assumptions c109_maxwell_boundary.
Theorem c109_source : forall m n pts r i k, (i < m)%nat -> (k < n)%nat ->
  wave_lambda_volume m n pts r i k = r i k + lsum (fun p => w_factor p * (- w_q p i * w_phi p k)) pts.
Proof. exact lambda_eq. Qed.
Print Assumptions c109_source.
Theorem c109_mass : forall m n pts x r i k, (i < m)%nat -> (k < n)%nat ->
  wave_mass_volume m n pts x r i k = r i k + lsum (fun p => w_factor p * (state_at n x (w_phi p) i * w_phi p k)) pts.
Proof. exact mass_eq. Qed.
Print Assumptions c109_mass.
(** The mass operator is linear and its Jacobian is its matrix; no entry is outside the pattern. *)
Theorem c109_mass_jacobian : forall m n pts x i k, (i < m)%nat -> (k < n)%nat ->
  wave_mass_volume m n pts x zerom i k =
  rsum m (fun l => rsum n (fun j => wave_mass_jacobian m n pts (fun _ _ _ _ => 0) i k l j * x l j)).
Proof.
  intros m n pts x i k I K. rewrite mass_eq by auto. unfold zerom. rewrite Rplus_0_l.
  rewrite (rsum_ext m _ (fun l => if (i =? l)%nat then rsum n (fun j => lsum (fun p => w_factor p * (w_phi p j * w_phi p k)) pts * x l j) else 0)).
  - rewrite rsum_one. destruct (Nat.ltb_spec i m); [|lia].
    rewrite (rsum_ext n _ (fun j => lsum (fun p => w_factor p * (w_phi p j * w_phi p k) * x i j) pts)).
    + rewrite rsum_lsum. apply lsum_ext. intros p _. unfold state_at, fun_at.
      transitivity (rsum n (fun j => w_factor p * w_phi p k * (x i j * w_phi p j))); [rewrite rsum_scal; ring | apply rsum_ext; intros; ring].
    + intros j J. rewrite Rmult_comm, <- lsum_scal. apply lsum_ext. intros. ring.
  - intros l L. destruct (Nat.eqb_spec i l) as [->|NE].
    + apply rsum_ext. intros j J. rewrite mass_jacobian_eq, Nat.eqb_refl.
      destruct (Nat.ltb_spec l m), (Nat.ltb_spec k n), (Nat.ltb_spec j n); try lia. cbn [andb]. ring.
    + transitivity (rsum n (fun _ => 0)); [|apply rsum_0]. apply rsum_ext. intros j J. rewrite mass_jacobian_eq. destruct (Nat.eqb_spec i l); [contradiction|]. cbn [andb]. ring.
Qed.
Print Assumptions c109_mass_jacobian.
Theorem c109_mass_pattern : forall m n pts k i l j, wave_mass_jacobian m n pts (fun _ _ _ _ => 0) k i l j <> 0 -> In ((k, i), (l, j)) (wave_pattern_volume m n).
Proof.
  intros m n pts k i l j NZ. rewrite mass_jacobian_eq in NZ.
  destruct ((k =? l) && (k <? m) && (i <? n) && (j <? n))%nat eqn:B; [|lra].
  apply andb_prop in B as [B J]. apply andb_prop in B as [B I]. apply andb_prop in B as [B K].
  apply Nat.eqb_eq in B. apply Nat.ltb_lt in K, I, J. subst l.
  unfold wave_pattern_volume. apply in_flat_map. exists k. split; [apply in_seq; lia|]. apply in_flat_map. exists i. split; [apply in_seq; lia|].
  apply in_map_iff. exists j. split; [reflexivity | apply in_seq; lia].
Qed.
Print Assumptions c109_mass_pattern.

(** ** C110: the schemes conserve the conserved quantities and do not create energy *)

(** No sources, absorbing boundaries or walls, the same material everywhere, rules that integrate products of basis functions exactly:
    testing the spatial residual with the solution (weighted to the energy) gives something nonnegative. As the mass operator tested the same
    way gives the rate of the energy, the energy does not grow. *)
Theorem c110_acoustics_energy : forall solve d c M x, dim_ok d -> 0 < c -> mesh_ok M -> weights_ok M -> normals_ok d M -> gauss_exact d M ->
  (forall n, normals M n -> solve_ok solve d c n) ->
  (forall F p, In F (m_boundary M) -> In p (b_pts F) -> absorbing (wf_g p) \/ acoustics_wall d (b_normal F) (wf_g p)) ->
  0 <= tested (d + 1) (acoustics_energy c) M
         (fun k => acoustics_alpha_volume d (m_dofs M k) c (m_pts M k))
         (fun F => acoustics_alpha_skeleton solve d (m_dofs M (i_s F)) (m_dofs M (i_n F)) c c (i_normal F) (i_pts F))
         (fun F => acoustics_alpha_boundary solve d (m_dofs M (b_s F)) c (b_normal F) (b_pts F)) x x.
Proof. intros. now apply acoustics_energy_proof. Qed.
Print Assumptions c110_acoustics_energy.
Theorem c110_maxwell_energy : forall invert eps mu sigma M x, 0 < eps -> 0 < mu -> (forall k, 0 <= sigma k) ->
  mesh_ok M -> weights_ok M -> cell_weights_ok M -> normals_ok 3 M -> gauss_exact 3 M ->
  (forall n, normals M n -> invert_ok invert eps mu n) ->
  (forall F p, In F (m_boundary M) -> In p (b_pts F) -> absorbing (wf_g p) \/ conductor (wf_g p)) ->
  0 <= tested 6 (maxwell_energy eps mu) M
         (fun k => maxwell_alpha_volume (m_dofs M k) eps mu (sigma k) (m_pts M k))
         (fun F => maxwell_alpha_skeleton invert (m_dofs M (i_s F)) (m_dofs M (i_n F)) eps mu eps mu (i_normal F) (i_pts F))
         (fun F => maxwell_alpha_boundary invert (m_dofs M (b_s F)) eps mu (b_normal F) (b_pts F)) x x.
Proof. intros. now apply maxwell_energy_proof. Qed.
Print Assumptions c110_maxwell_energy.

(** Any materials: the total amount of every component changes only by the flux over the boundary (and by conduction for the displacement). *)
Theorem c110_acoustics_conservation : forall solve d c M x e i0, (i0 < d + 1)%nat -> dim_ok d -> ones d M e ->
  tested (d + 1) (unit_vector i0) M
         (fun k => acoustics_alpha_volume d (m_dofs M k) (c k) (m_pts M k))
         (fun F => acoustics_alpha_skeleton solve d (m_dofs M (i_s F)) (m_dofs M (i_n F)) (c (i_s F)) (c (i_n F)) (i_normal F) (i_pts F))
         (fun F => acoustics_alpha_boundary solve d (m_dofs M (b_s F)) (c (b_s F)) (b_normal F) (b_pts F)) (fun k _ => e k) x =
  lsum (fun F => lsum (fun p => wf_factor p *
    (let u := eval_state (m_dofs M (b_s F)) (x (b_s F)) (wf_phi_s p) in
     apply (d + 1) (acoustics_plus solve d (c (b_s F)) (b_normal F)) u i0 + apply (d + 1) (acoustics_minus solve d (c (b_s F)) (b_normal F)) (wf_g p u) i0))
    (b_pts F)) (m_boundary M).
Proof. intros. now apply acoustics_conservation_proof. Qed.
Print Assumptions c110_acoustics_conservation.
Theorem c110_maxwell_conservation : forall invert eps mu sigma M x e i0, (i0 < 6)%nat -> ones 3 M e ->
  tested 6 (unit_vector i0) M
         (fun k => maxwell_alpha_volume (m_dofs M k) (eps k) (mu k) (sigma k) (m_pts M k))
         (fun F => maxwell_alpha_skeleton invert (m_dofs M (i_s F)) (m_dofs M (i_n F)) (eps (i_s F)) (mu (i_s F)) (eps (i_n F)) (mu (i_n F)) (i_normal F) (i_pts F))
         (fun F => maxwell_alpha_boundary invert (m_dofs M (b_s F)) (eps (b_s F)) (mu (b_s F)) (b_normal F) (b_pts F)) (fun k _ => e k) x =
  rsum (m_cells M) (fun k => lsum (fun p => w_factor p * (if (i0 <? 3)%nat then sigma k / eps k * state_at (m_dofs M k) (x k) (w_phi p) i0 else 0)) (m_pts M k)) +
  lsum (fun F => lsum (fun p => wf_factor p *
    (let u := eval_state (m_dofs M (b_s F)) (x (b_s F)) (wf_phi_s p) in
     apply 6 (maxwell_plus invert (eps (b_s F)) (mu (b_s F)) (b_normal F)) u i0 + apply 6 (maxwell_minus invert (eps (b_s F)) (mu (b_s F)) (b_normal F)) (wf_g p u) i0))
    (b_pts F)) (m_boundary M).
Proof. intros. now apply maxwell_conservation_proof. Qed.
Print Assumptions c110_maxwell_conservation.

(** Two unit intervals with linear functions: a wall on the left, an absorbing boundary on the right. The midpoint rule is exact. *)
Definition hat (l r : R) : vec := fun k => match k with 0 => l | _ => r end.
Definition midpoint : wpoint := mkwp 1 1 (hat (1 / 2) (1 / 2)) (fun k _ => hat (-1) 1 k) (fun _ _ => 1) zerov.
Definition wall_g (n : vec) : vec -> vec := fun u i => match i with 0 => u 0%nat | S k => u (S k) - 2 * inner 1 (momentum u) n * n k end.
Definition two_intervals : wmesh :=
  mkwm 2 (fun _ => 2%nat) (fun _ => [midpoint])
    [mkif 0 1 (fun _ => 1) [mkwfp 1 1 (hat 0 1) (hat 1 0) (fun _ => zerov)]]
    [mkbf 0 (fun _ => -1) [mkwfp 1 1 (hat 1 0) zerov (wall_g (fun _ => -1))]; mkbf 1 (fun _ => 1) [mkwfp 1 1 (hat 0 1) zerov (fun _ => zerov)]].
Example c110_acoustics_example :
  dim_ok 1 /\ 0 < 2 /\ mesh_ok two_intervals /\ weights_ok two_intervals /\ normals_ok 1 two_intervals /\ gauss_exact 1 two_intervals /\
  (forall n, normals two_intervals n -> solve_ok cramer 1 2 n) /\
  (forall F p, In F (m_boundary two_intervals) -> In p (b_pts F) -> absorbing (wf_g p) \/ acoustics_wall 1 (b_normal F) (wf_g p)) /\
  ones 1 two_intervals (fun _ _ => 1).
Proof.
  assert (NO : normals_ok 1 two_intervals).
  { split; cbn; intros F I; repeat (destruct I as [<-|I]; [unfold unit_normal, inner; cbn; lra|]); destruct I. }
  split; [now left|]. split; [lra|]. split. { split; cbn; intros F I; repeat (destruct I as [<-|I]; [cbn; lia|]); destruct I. }
  split. { split; cbn; intros F p I Ip; repeat (destruct I as [<-|I]; [cbn in Ip; destruct Ip as [<-|[]]; unfold wf_factor; cbn; lra|]); destruct I. }
  split; [exact NO|].
  split. { intros c a b j C J. destruct c as [|[|]]; cbn in C; try lia; destruct j; try lia; unfold fun_at, grad_at, w_grad, grads, apply, w_factor, wf_factor; cbn; field. }
  split. { intros n [(F & I & ->)|(F & I & ->)]; apply cramer_ok; try lra; now apply NO. }
  split. { intros F p I Ip. cbn in I. destruct I as [<-|[<-|[]]]; cbn in Ip; destruct Ip as [<-|[]]; cbn.
    - right. intros u. cbn. split; [reflexivity|]. intros k K. replace (k + 1)%nat with (S k) by lia. reflexivity.
    - left. intros u i. reflexivity. }
  split; [|split; [|split]].
  - intros k p K Ip j J. cbn in Ip. destruct Ip as [<-|[]]. unfold grad_at, w_grad, grads, apply, zerov. cbn. ring.
  - intros k p K Ip. cbn in Ip. destruct Ip as [<-|[]]. unfold fun_at. cbn. field.
  - intros F p I Ip. cbn in I. destruct I as [<-|[]]. cbn in Ip. destruct Ip as [<-|[]]. unfold fun_at. cbn. split; field.
  - intros F p I Ip. cbn in I. destruct I as [<-|[<-|[]]]; cbn in Ip; destruct Ip as [<-|[]]; unfold fun_at; cbn; field.
Qed.
Example c109_boundary_example : proper 2 (wall_g (fun _ => -1)) /\ proper 6 (fun _ => zerov).
Proof.
  split; intros u v E i I; [|reflexivity]. unfold wall_g. destruct i as [|k]; [apply E|]. unfold inner, momentum. cbn. now rewrite !E.
Qed.
(** Two cubes in a row (periodic across), piecewise constant fields: a conductor on the left, an absorbing boundary on the right *)
Definition conductor_g : vec -> vec := fun u i => if (i <? 3)%nat then - u i else u i.
Definition onev : vec := fun _ => 1.
Definition two_cubes : wmesh :=
  mkwm 2 (fun _ => 1%nat) (fun _ => [mkwp 1 1 onev (fun _ => zerov) (fun _ _ => 1) zerov])
    [mkif 0 1 (ex 1) [mkwfp 1 1 onev onev (fun _ => zerov)]]
    [mkbf 0 (ex (-1)) [mkwfp 1 1 onev zerov conductor_g]; mkbf 1 (ex 1) [mkwfp 1 1 onev zerov (fun _ => zerov)]].
Example c110_maxwell_example :
  mesh_ok two_cubes /\ weights_ok two_cubes /\ cell_weights_ok two_cubes /\ normals_ok 3 two_cubes /\ gauss_exact 3 two_cubes /\
  (forall n, normals two_cubes n -> invert_ok orthogonal_inverse 1 1 n) /\
  (forall F p, In F (m_boundary two_cubes) -> In p (b_pts F) -> absorbing (wf_g p) \/ conductor (wf_g p)) /\
  ones 3 two_cubes (fun _ _ => 1).
Proof.
  split. { split; cbn; intros F I; repeat (destruct I as [<-|I]; [cbn; lia|]); destruct I. }
  split. { split; cbn; intros F p I Ip; repeat (destruct I as [<-|I]; [cbn in Ip; destruct Ip as [<-|[]]; unfold wf_factor; cbn; lra|]); destruct I. }
  split. { intros c p _ Ip. cbn in Ip. destruct Ip as [<-|[]]. unfold w_factor. cbn. lra. }
  split. { split; cbn; intros F I; repeat (destruct I as [<-|I]; [unfold unit_normal, inner; cbn; lra|]); destruct I. }
  split. { intros c a b j C J. destruct c as [|[|]]; cbn in C; try lia; destruct j as [|[|[|]]]; try lia; unfold fun_at, grad_at, w_grad, grads, apply, w_factor, wf_factor, onev; cbn; unfold zerov; ring. }
  split. { intros n [(F & I & ->)|(F & I & ->)]; cbn in I; repeat (destruct I as [<-|I]; [apply orthogonal_ok; lra|]); destruct I. }
  split. { intros F p I Ip. cbn in I. destruct I as [<-|[<-|[]]]; cbn in Ip; destruct Ip as [<-|[]]; cbn.
    - right. intros u i I. unfold conductor_g. destruct (Nat.ltb_spec i 3), (Nat.ltb_spec (i + 3) 3); try lia. auto.
    - left. intros u i. reflexivity. }
  split; [|split; [|split]].
  - intros k p K Ip j J. cbn in Ip. destruct Ip as [<-|[]]. unfold grad_at, w_grad, grads, apply, zerov. cbn. ring.
  - intros k p K Ip. cbn in Ip. destruct Ip as [<-|[]]. unfold fun_at, onev. cbn. field.
  - intros F p I Ip. cbn in I. destruct I as [<-|[]]. cbn in Ip. destruct Ip as [<-|[]]. unfold fun_at, onev. cbn. split; field.
  - intros F p I Ip. cbn in I. destruct I as [<-|[<-|[]]]; cbn in Ip; destruct Ip as [<-|[]]; unfold fun_at, onev; cbn; field.
Qed.
