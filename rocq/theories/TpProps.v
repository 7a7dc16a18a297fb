(** Properties of the two-phase flow operators: C117-C119. *)
From Verif Require Import Common CommonFacts CdModel CdSpec CdProofs TpModel TpSpec TpProofs.
From Coq Require Import Reals Lra Lia.
Open Scope R_scope.

(** ** C117: the flux over a face *)

(** Both phases: what leaves the inside cell enters the outside cell, and it is the two-point flux with the saturation of the upstream cell of this phase. *)
Theorem c117_skeleton : forall cells sl sg x r F c P, physical (cells (tf_s F)) -> physical (cells (tf_n F)) ->
  tp_alpha_skeleton cells sl sg x r F c P =
  r c P + scale sl sg P * (when (c =? tf_s F)%nat (flux cells x P F) - when (c =? tf_n F)%nat (flux cells x P F)).
Proof. exact skeleton_at. Qed.
Print Assumptions c117_skeleton.

(** It does not matter from which side a face is visited. *)
Theorem c117_either_side : forall cells sl sg x r F c P, physical (cells (tf_s F)) -> physical (cells (tf_n F)) ->
  tp_alpha_skeleton cells sl sg x r (reverse F) c P = tp_alpha_skeleton cells sl sg x r F c P.
Proof. intros. rewrite !skeleton_at by easy. rewrite flux_reverse. cbn [reverse tf_s tf_n]. unfold when. destruct (c =? tf_s F)%nat, (c =? tf_n F)%nat; ring. Qed.
Print Assumptions c117_either_side.

(** A phase in hydrostatic equilibrium does not flow; otherwise it flows down its potential. *)
Theorem c117_direction : forall cells x F P, physical (cells (tf_s F)) -> physical (cells (tf_n F)) -> 0 < tf_area F -> 0 < tf_dist F ->
  (forall c p, 0 < nu P (cells c) p) ->
  let w := x (tf_s F) P - x (tf_n F) P + tf_dist F * (rho P (cells (tf_s F)) (x (tf_s F) P) + rho P (cells (tf_n F)) (x (tf_n F) P)) / 2 * tf_gn F in
  (w = 0 -> flux cells x P F = 0) /\ (0 < w -> 0 < flux cells x P F) /\ (w < 0 -> flux cells x P F < 0).
Proof.
  intros cells x F P HS HN HA HD HNU w.
  assert (HW : drive cells x P F = w / tf_dist F) by (unfold drive, w, mean; field; lra).
  assert (HC : exists k, 0 < k /\ flux cells x P F = k * w).
  { exists (tf_area F * mean (nu P (cells (tf_s F)) (x (tf_s F) P)) (nu P (cells (tf_n F)) (x (tf_n F) P))
      * harmonic (mobility cells x P (tf_s F) (upstream cells x P F) + tp_eps) (mobility cells x P (tf_n F) (upstream cells x P F) + tp_eps) / tf_dist F).
    split; [|unfold flux; rewrite HW; field; lra].
    pose proof (HNU (tf_s F) (x (tf_s F) P)). pose proof (HNU (tf_n F) (x (tf_n F) P)). pose proof eps_pos.
    pose proof (mobility_nonneg cells x P (tf_s F) (upstream cells x P F) HS). pose proof (mobility_nonneg cells x P (tf_n F) (upstream cells x P F) HN).
    apply Rdiv_lt_0_compat; [|easy]. apply Rmult_lt_0_compat; [|apply harmonic_pos; lra]. apply Rmult_lt_0_compat; [easy|]. unfold mean. lra. }
  destruct HC as (k & Hk & ->). repeat split; intros H.
  - rewrite H. ring.
  - now apply Rmult_lt_0_compat.
  - assert (0 < k * - w) by (apply Rmult_lt_0_compat; lra). lra.
Qed.
Print Assumptions c117_direction.

(** The averaged mobility lies between those of the two cells, up to the 1e-30 that keep it from dividing by zero; it vanishes with either of them. *)
Theorem c117_mobility : forall a b, 0 <= a -> 0 <= b ->
  Rmin a b + tp_eps <= havg a b <= Rmax a b + tp_eps /\ havg a b <= 2 * (Rmin a b + tp_eps) /\ havg a b = havg b a.
Proof.
  intros a b Ha Hb. pose proof eps_pos as He. rewrite !havg_harmonic by easy. rewrite (harmonic_comm (b + tp_eps)).
  assert (HH : forall u v, 0 < u -> u <= v -> u <= harmonic u v <= v /\ harmonic u v <= 2 * u).
  { intros u v Hu Huv. unfold harmonic. assert (Hs : 0 < u + v) by lra.
    assert (HD : forall z, 2 * u * v / (u + v) <= z <-> 2 * u * v <= z * (u + v)).
    { intros z. split; intros H.
      - apply (Rmult_le_compat_r (u + v)) in H; [|lra]. unfold Rdiv in H. rewrite Rmult_assoc, Rinv_l, Rmult_1_r in H; lra.
      - apply Rmult_le_reg_r with (u + v); [easy|]. unfold Rdiv. rewrite Rmult_assoc, Rinv_l, Rmult_1_r; lra. }
    assert (HL : u <= 2 * u * v / (u + v)).
    { apply Rmult_le_reg_r with (u + v); [easy|]. unfold Rdiv. rewrite Rmult_assoc, Rinv_l, Rmult_1_r by lra.
      replace (2 * u * v) with (u * (v + v)) by ring. apply Rmult_le_compat_l; lra. }
    repeat split; [exact HL| |]; apply HD.
    - replace (2 * u * v) with (v * (u + u)) by ring. apply Rmult_le_compat_l; lra.
    - replace (2 * u * v) with (2 * u * v + 0) by ring. replace (2 * u * (u + v)) with (2 * u * v + 2 * (u * u)) by ring. pose proof (Rle_0_sqr u). unfold Rsqr in *. lra. }
  destruct (Rle_dec a b) as [L|L].
  - rewrite Rmin_left, Rmax_right by easy. destruct (HH (a + tp_eps) (b + tp_eps)) as [[H1 H2] H3]; [lra|lra|]. repeat split; lra.
  - rewrite Rmin_right, Rmax_left by lra. rewrite harmonic_comm. destruct (HH (b + tp_eps) (a + tp_eps)) as [[H1 H2] H3]; [lra|lra|]. repeat split; lra.
Qed.
Print Assumptions c117_mobility.

(** Two cells of different viscosity of the gas; liquid and gas flow in opposite directions *)
Definition tp_example (m : R) : tpcell :=
  mktp (1/5) 2 (fun pc => pc) (fun s => s * s) (fun s => s * s) (fun _ => 1) (fun _ => m) (fun _ => 3) (fun p => 1 + p * p) (fun _ => 1) (fun _ => 1) 7 11 13.
Definition tp_cells (c : nat) : tpcell := match c with 0 => tp_example 1 | _ => tp_example 2 end.
Definition tp_state : state := fun c P => match c, P with 0, Liquid => 4 | 0, Gas => 5 | _, Liquid => 1 | _, Gas => 6 end.
Lemma tp_physical c : physical (tp_cells c).
Proof. assert (H : forall m, 0 < m -> physical (tp_example m)). { intros m Hm. split; [cbn; lra|]. split; intros []; intros; cbn; try lra; apply Rle_0_sqr. } destruct c; apply H; lra. Qed.
Example c117_example : (forall c, physical (tp_cells c)) /\ (forall c p P, 0 < nu P (tp_cells c) p) /\
  (* liquid flows out of cell 0 with the saturation 5 - 4 = 1 of cell 0: w = 3 + 1/2 * (1 + 1) * (-1) = 2, density 3, mobilities 7 *)
  flux tp_cells tp_state Liquid (mktf 0 1 1 10 (-1)) = 10 * 3 * (7 + tp_eps) * 2 /\
  drive tp_cells tp_state Gas (mktf 0 1 1 10 (-1)) = -2 /\ upstream tp_cells tp_state Gas (mktf 0 1 1 10 (-1)) = -4.
Proof.
  assert (D : drive tp_cells tp_state Gas (mktf 0 1 1 10 (-1)) = -2) by (unfold drive, mean; cbn; field).
  assert (E : drive tp_cells tp_state Liquid (mktf 0 1 1 10 (-1)) = 2) by (unfold drive, mean; cbn; field).
  repeat split; try apply tp_physical.
  - intros c p P. pose proof (Rle_0_sqr p). unfold Rsqr in *. destruct c, P; cbn; lra.
  - unfold flux, upstream. rewrite E. destruct (Rle_dec 0 2); [|lra]. unfold mobility, mean, harmonic. cbn. pose proof eps_pos.
    replace ((5 - 4) * (5 - 4) / 1 * 7 + tp_eps) with (7 + tp_eps) by field. field. lra.
  - exact D.
  - unfold upstream. rewrite D. destruct (Rle_dec 0 (-2)); [lra|]. cbn. ring.
Qed.

(** ** C118: the balance of mass *)

(** Cell by cell the residual is what leaves through the faces minus the sources, times the scale of the phase. The gas phase
    needs equal scales, see below. *)
Theorem c118_residual_partial : forall cells sl sg n inner bound x c P, (forall c, physical (cells c)) -> (P = Liquid \/ sl = sg) -> (c < n)%nat ->
  tp_residual cells sl sg n inner bound x c P = scale sl sg P * cell_balance cells inner bound x P c.
Proof. exact residual_at. Qed.
Print Assumptions c118_residual_partial.

(** In total only the boundary and the sources are left: nothing is lost inside. *)
Theorem c118_conservation_partial : forall cells sl sg n inner bound x P, (forall c, physical (cells c)) -> (P = Liquid \/ sl = sg) ->
  (forall F, In F inner -> (tf_s F < n)%nat /\ (tf_n F < n)%nat) -> (forall F, In F bound -> (tb_s F < n)%nat) ->
  rsum n (fun c => tp_residual cells sl sg n inner bound x c P) =
  scale sl sg P * (lsum (outflow cells x P) bound - rsum n (fun c => source P (cells c) * tp_vol (cells c))).
Proof.
  intros cells sl sg n inner bound x P HP HS H1 H2. rewrite <- (balance_sum cells n inner bound x P H1 H2), <- rsum_scal. apply rsum_ext. intros. now apply residual_at.
Qed.
Print Assumptions c118_conservation_partial.

(** The storage operator: porosity, saturation, molar density and volume; the two saturations fill the pores. *)
Theorem c118_storage : forall cells sl sg n x c P, (c < n)%nat ->
  tp_mass cells sl sg n x c P = scale sl sg P * (tp_phi (cells c) * sat P (cells c) (x c) * nu P (cells c) (x c P) * tp_vol (cells c)) /\
  sat Liquid (cells c) (x c) + sat Gas (cells c) (x c) = 1.
Proof. intros. split; [now apply storage_at|unfold sat; ring]. Qed.
Print Assumptions c118_storage.

(** The flux of the gas over a Dirichlet boundary is scaled like the liquid. *)
Theorem c118_gas_dirichlet : forall cells sl sg x r F, tb_bcg F = 1%nat ->
  tp_lambda_boundary sl sg (tp_alpha_boundary cells sl x r F) F (tb_s F) Gas = r (tb_s F) Gas + sl * outflow cells x Gas F.
Proof.
  intros cells sl sg x r F E. unfold tp_lambda_boundary, tp_alpha_boundary, outflow, btype, mobility, sat, kr, mu, rho, nu, dirichlet. rewrite E.
  destruct (tb_bcl F) as [|[|nl]]; cbn [Nat.eqb negb andb]; rewrite ?accp_at, ?Nat.eqb_refl; cbn [phase_eqb andb when]; ring.
Qed.
Print Assumptions c118_gas_dirichlet.
Theorem c118_gas_scale_refuted : exists cells sl sg n bound x c, (forall c, physical (cells c)) /\ (c < n)%nat /\
  tp_residual cells sl sg n [] bound x c Gas <> scale sl sg Gas * cell_balance cells [] bound x Gas c.
Proof.
  exists tp_cells, 1, 2, 1%nat, [mktb 0 1 1 0 1 1 0 0 0 0], (fun _ P => match P with Liquid => 1 | Gas => 1 end), 0%nat.
  split; [apply tp_physical|]. split; [lia|]. unfold tp_residual. cbn [fold_left loop].
  rewrite lambda_boundary_at, alpha_boundary_at. unfold tp_lambda_boundary, tp_alpha_boundary, tp_lambda_volume, cell_balance, outflow, mobility, sat. cbn. lra.
Qed.
Print Assumptions c118_gas_scale_refuted.

(** The parameter interface passes every query on to the implementation, except for the viscosity of the gas. *)
Theorem c118_interface_partial : forall C,
  (forall p, tp_mug C p = tp_mul C p) -> forall cells x P c s, cells c = C -> mobility (fun c => interface (cells c)) x P c s = mobility cells x P c s.
Proof. intros C H cells x P c s E. unfold mobility, kr, mu. rewrite E. destruct P; cbn; [reflexivity|]. now rewrite H. Qed.
Print Assumptions c118_interface_partial.
Theorem c118_interface_viscosity_refuted : exists cells x c s, physical (cells c) /\
  mobility (fun c => interface (cells c)) x Gas c s <> mobility cells x Gas c s.
Proof. exists tp_cells, tp_state, 1%nat, 1. split; [apply tp_physical|]. unfold mobility. cbn. lra. Qed.
Print Assumptions c118_interface_viscosity_refuted.

Example c118_example : (forall c, physical (tp_cells c)) /\
  let F := mktf 0 1 1 10 (-1) in let b := mktb 1 1 10 0 1 0 0 0 0 17 in
  (forall G, In G [F] -> (tf_s G < 2)%nat /\ (tf_n G < 2)%nat) /\ (forall G, In G [b] -> (tb_s G < 2)%nat) /\
  outflow tp_cells tp_state Gas b = 170 /\ outflow tp_cells tp_state Liquid b = 10 * (3 * (25 * 7) * 1) /\
  tp_mass tp_cells 1 1 2 tp_state 0%nat Liquid = 6/5.
Proof.
  split; [apply tp_physical|]. repeat split.
  - destruct H as [<-|[]]; cbn; lia.
  - destruct H as [<-|[]]; cbn; lia.
  - intros G [<-|[]]; cbn; lia.
  - unfold outflow; cbn; ring.
  - unfold outflow, mobility, sat; cbn; field.
  - rewrite storage_at by lia. unfold sat; cbn. field.
Qed.

(** ** C119: the velocity fields *)

(** The normal velocity on a face is the flux of the operator per area: for the liquid if its molar density does not depend on the pressure, for the gas if
    its mass density does not depend on the cell; always at the boundary. *)
Theorem c119_normal_velocity_partial : forall cells x F b, physical (cells (tf_s F)) -> physical (cells (tf_n F)) ->
  ((forall p q, tp_nul (cells (tf_n F)) p = tp_nul (cells (tf_n F)) q) -> tf_area F * vl_normal cells x (Neighbour F) = flux cells x Liquid F) /\
  ((forall p, tp_rhog (cells (tf_s F)) p = tp_rhog (cells (tf_n F)) p) -> tf_area F * vg_normal cells x (Neighbour F) = flux cells x Gas F) /\
  tb_area b * vl_normal cells x (AtBoundary b) = outflow cells x Liquid b /\
  tb_area b * vg_normal cells x (AtBoundary b) = outflow cells x Gas b.
Proof.
  intros cells x F b HS HN. split; [|split; [|apply v_outflow]].
  - intros H. apply vl_flux; auto.
  - intros H. apply vg_flux; auto.
Qed.
Print Assumptions c119_normal_velocity_partial.

Definition tp_comp (g : R) : tpcell :=
  mktp 1 1 (fun _ => 1/2) (fun _ => 1) (fun _ => 1) (fun _ => 1) (fun _ => 1) (fun p => p) (fun _ => 1) (fun _ => 1) (fun _ => g) 1 0 0.
Lemma comp_physical g : physical (tp_comp g).
Proof. split; [cbn; lra|]. split; intros [] ?; cbn; lra. Qed.
(** Liquid at pressure 2 and 1, gas at pressure 3: the velocity of the liquid uses the density at the gas pressure. *)
Theorem c119_liquid_refuted : exists cells x F, (forall c, physical (cells c)) /\ tf_area F * vl_normal cells x (Neighbour F) <> flux cells x Liquid F.
Proof.
  exists (fun _ => tp_comp 1), (fun c P => match P with Gas => 3 | Liquid => match c with 0 => 2 | _ => 1 end end), (mktf 0 1 1 1 0).
  split; [intros; apply comp_physical|]. pose proof eps_pos as He.
  set (x := fun (c : nat) (P : phase) => _). 
  cbn [vl_normal tf_s tf_n tf_area tf_dist tf_gn]. unfold flux, upstream, drive, mobility, mean. cbn [tf_s tf_n tf_area tf_dist tf_gn].
  rewrite havg_harmonic by (cbn; lra). unfold aavg, harmonic, x. cbn.
  replace (1 / 1 * 1 + tp_eps) with (1 + tp_eps) by field.
  replace (2 * (1 + tp_eps) * (1 + tp_eps) / (1 + tp_eps + (1 + tp_eps))) with (1 + tp_eps) by (field; lra). intros H. nra.
Qed.
Print Assumptions c119_liquid_refuted.
(** Gas of different densities in the two cells, under gravity: the velocity of the gas uses the density of the inside cell for both. *)
Theorem c119_gas_refuted : exists cells x F, (forall c, physical (cells c)) /\ tf_area F * vg_normal cells x (Neighbour F) <> flux cells x Gas F.
Proof.
  exists (fun c => match c with 0 => tp_comp 1 | _ => tp_comp 3 end), (fun _ _ => 1), (mktf 0 1 1 1 1).
  split; [intros []; apply comp_physical|]. pose proof eps_pos as He.
  cbn [vg_normal tf_s tf_n tf_area tf_dist tf_gn]. unfold flux, upstream, drive, mobility, mean. cbn [tf_s tf_n tf_area tf_dist tf_gn].
  rewrite havg_harmonic by (cbn; lra). unfold aavg, harmonic. cbn.
  replace (1 / 1 * 1 + tp_eps) with (1 + tp_eps) by field.
  replace (2 * (1 + tp_eps) * (1 + tp_eps) / (1 + tp_eps + (1 + tp_eps))) with (1 + tp_eps) by (field; lra). intros H. nra.
Qed.
Print Assumptions c119_gas_refuted.

(** The field in the cell has the normal velocities on its faces. B maps normals of the reference cube to normals of the cell. *)
Theorem c119_field : forall dim B Binv detB normal len vn,
  (forall v k, (k < dim)%nat -> apply dim Binv (apply dim B v) k = v k) -> detB <> 0 ->
  (forall i, (i < 2 * dim)%nat -> 0 < len i) ->
  (forall i k, (i < 2 * dim)%nat -> (k < dim)%nat -> apply dim B (normalhat i) k = len i * normal i k) ->
  (forall i, (i < 2 * dim)%nat -> inner dim (normal i) (normal i) = 1) ->
  (forall i x, (i < 2 * dim)%nat -> x (i / 2)%nat = (if Nat.even i then 0 else 1) -> inner dim (rt0_field dim B Binv detB normal vn x) (normal i) = vn i) /\
  (forall v x w, (forall i, (i < 2 * dim)%nat -> vn i = inner dim v (normal i)) -> (forall u k, (k < dim)%nat -> apply dim B (apply dim Binv u) k = u k) ->
     inner dim (rt0_field dim B Binv detB normal vn x) w = inner dim v w).
Proof.
  intros dim B Binv detB normal len vn H1 H2 H3 H4 H5. split.
  - intros. now apply (field_normal dim B Binv detB normal len vn).
  - intros. now apply (field_constant dim B Binv detB normal len vn).
Qed.
Print Assumptions c119_field.

(** A rectangle with the sides 2 and 1/3: jacobianInverseTransposed is diag(1/2, 3). *)
Example c119_example : let B : mat := fun k l => if (k =? l)%nat then match k with 0 => 1/2 | _ => 3 end else 0 in
  let Binv : mat := fun k l => if (k =? l)%nat then match k with 0 => 2 | _ => 1/3 end else 0 in
  let len := fun i : nat => match i with 0 | 1 => 1/2 | _ => 3 end in
  (forall v k, (k < 2)%nat -> apply 2 Binv (apply 2 B v) k = v k) /\ 3/2 <> 0 /\ (forall i, (i < 4)%nat -> 0 < len i) /\
  (forall i k, (i < 4)%nat -> (k < 2)%nat -> apply 2 B (normalhat i) k = len i * normalhat i k) /\
  (forall i, (i < 4)%nat -> inner 2 (normalhat i) (normalhat i) = 1) /\
  (* velocity 5 through the right face, 0 through the others: 5/2 in the middle *)
  rt0_field 2 B Binv (3/2) normalhat (fun i => match i with 1 => 5 | _ => 0 end) (fun _ => 1/2) 0%nat = 5/2.
Proof.
  intros B Binv len. repeat split.
  - intros v k Hk. destruct k as [|[|]]; try lia; unfold apply, B, Binv; cbn; field.
  - lra.
  - intros i _. destruct i as [|[|]]; cbn; lra.
  - intros i k Hi Hk. destruct i as [|[|[|[|]]]]; try lia; destruct k as [|[|]]; try lia; unfold apply, B, normalhat, len; cbn; field.
  - intros i Hi. destruct i as [|[|[|[|]]]]; try lia; unfold inner, normalhat; cbn; ring.
  - unfold rt0_field, rt0_coeff, dot, rt0, normalhat, B, Binv. cbn. field.
Qed.
