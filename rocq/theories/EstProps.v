(** C120, C121, C122: the error estimators. *)
From Coq Require Import Lra Lia List.
Import ListNotations.
From Verif Require Import CommonFacts CdModel CdSpec CdProofs FlowProofs EstModel EstSpec EstProofs EstProofs2 EstProofs3.
Local Open Scope R_scope.

(** ** C120: the residual estimator for conforming elements *)

(** The size of a cell is the largest distance of two of its corners. *)
Theorem c120_diameter : forall d n corner, (2 <= n)%nat -> is_diameter d n corner (diameter d n corner).
Proof. exact diameter_ok. Qed.
Print Assumptions c120_diameter.

(** Without reaction the assembled vector holds eta^2 of every cell. *)
Theorem c120_indicator_partial : forall d cells constA n inner bound x,
  tensors_symmetric d cells n inner bound ->
  (forall c p, (c < n)%nat -> In p (ec_pts (cells c)) -> v_c p = 0) ->
  forall c, (c < n)%nat -> fe_estimate d cells constA n inner bound x c = fem_eta2 d cells x constA inner bound c.
Proof.
  intros d cells constA n inner bound x HS H0 c Hc. rewrite fe_at by easy. unfold fem_eta2, vnorm2. f_equal. f_equal. apply lsum_ext.
  intros p Hp. rewrite (H0 c p Hc Hp). ring.
Qed.
Print Assumptions c120_indicator_partial.

(** In general the contribution of the faces is as on paper, and the cell contributes f^2 - (c u)^2 instead of (f - c u)^2. *)
Theorem c120_faces : forall d cells constA n inner bound x, tensors_symmetric d cells n inner bound ->
  forall c, (c < n)%nat -> fe_estimate d cells constA n inner bound x c =
    cell_diam d cells c ^ 2 * lsum (fun p => v_weight p * v_ie p * (v_f p ^ 2 - (v_c p * u_at cells x c p) ^ 2)) (ec_pts (cells c)) +
    fem_faces d cells x constA inner bound c.
Proof. intros. now apply fe_at with (n := n). Qed.
Print Assumptions c120_faces.

(** The indicators do not depend on the cell a face is visited from. *)
Theorem c120_orientation : forall d cells constA n l1 F l2 bound x, tensors_symmetric d cells n (l1 ++ F :: l2) bound ->
  forall c, (c < n)%nat -> fe_estimate d cells constA n (l1 ++ F :: l2) bound x c = fe_estimate d cells constA n (l1 ++ reverse F :: l2) bound x c.
Proof.
  intros. rewrite fe_at by easy. rewrite fe_at by (auto; now apply sym_reverse). f_equal. apply fem_faces_reverse.
Qed.
Print Assumptions c120_orientation.

(** Without reaction the squared indicators are not negative. *)
Theorem c120_nonnegative_partial : forall d cells constA n inner bound x,
  grid_ok cells n inner bound -> weights_nonneg cells n inner bound -> tensors_symmetric d cells n inner bound ->
  (forall c p, (c < n)%nat -> In p (ec_pts (cells c)) -> v_c p = 0) ->
  forall c, (c < n)%nat -> 0 <= fe_estimate d cells constA n inner bound x c.
Proof.
  intros d cells constA n inner bound x G W HS H0 c Hc. rewrite c120_indicator_partial by easy. unfold fem_eta2.
  apply Rplus_le_le_0_compat; [|now apply fem_faces_nonneg with (n := n)].
  apply Rmult_le_pos; [apply sq_nonneg | apply vnorm2_nonneg; intros; eapply (proj1 W); eauto].
Qed.
Print Assumptions c120_nonnegative_partial.

(** FINDING: convectiondiffusionfem.hh 423: with reaction, and no source, the squared indicator of a cell is negative, so its root and the
    root of the global estimate do not exist. The unit interval with u = 1, c = 1, f = 0. *)
Definition one_point : vpoint := mkvp 1 1 (fun _ => 1) (fun _ _ => 0) (fun _ => 1) (fun _ _ => 0) (fun k l => if (k =? l)%nat then 1 else 0) (fun _ _ => 1) (fun _ => 0) 1 0.
Definition unit_cell (p : vpoint) : escell := mkes 1 1 2 (fun i k => if (k =? 0)%nat then INR i else 0) (fun k l => if (k =? l)%nat then 1 else 0) [p].
Lemma unit_diam d p c : (0 < d)%nat -> cell_diam d (fun _ => unit_cell p) c = 1.
Proof.
  intros Hd. unfold cell_diam, unit_cell, diameter. cbn [ec_corners ec_corner loop Nat.sub Nat.add]. cbv zeta.
  rewrite (two_norm_dist d (fun c => if (c =? 0)%nat then INR 1 else 0) (fun c => if (c =? 0)%nat then INR 0 else 0)).
  assert (dist d (fun c => if (c =? 0)%nat then INR 1 else 0) (fun c => if (c =? 0)%nat then INR 0 else 0) = 1) as ->.
  { unfold dist. rewrite (rsum_ext d _ (fun i => if (i =? 0)%nat then 1 else 0)) by (intros i _; destruct (i =? 0)%nat; cbn; ring).
    rewrite (rsum_pick d (fun _ => 1)) by easy. apply sqrt_1. }
  apply Rmax_right. lra.
Qed.
Theorem c120_negative_refuted : exists d cells constA n inner bound x c,
  grid_ok cells n inner bound /\ weights_pos cells n inner bound /\ tensors_symmetric d cells n inner bound /\ (c < n)%nat /\
  fe_estimate d cells constA n inner bound x c < 0 /\ 0 < fem_eta2 d cells x constA inner bound c.
Proof.
  exists 1%nat, (fun _ => unit_cell one_point), true, 1%nat, [], [], (fun _ _ => 1), 0%nat.
  assert (HS : tensors_symmetric 1 (fun _ => unit_cell one_point) 1 [] []).
  { split; [|split; intros F p []]. intros c i j Hi Hj. cbn. rewrite Nat.eqb_sym. reflexivity. }
  split; [|split; [|split; [exact HS|split; [lia|split]]]].
  - split; [intros; cbn; lia | split; intros F []].
  - split; [|split; intros F p []]. intros c p Hc [<- | []]. cbn. lra.
  - rewrite fe_at by (try exact HS; lia). unfold fem_faces. rewrite unit_diam by lia. cbn. unfold u_at, fun_at. cbn. lra.
  - unfold fem_eta2, fem_faces. rewrite unit_diam by lia. cbn. unfold u_at, fun_at. cbn. lra.
Qed.
Print Assumptions c120_negative_refuted.

(** ** C121: the indicator for discontinuous Galerkin methods *)

(** The assembled vector holds eta^2 of every cell. *)
Theorem c121_indicator : forall d cells gamma n inner bound x eps,
  d = 2%nat \/ d = 3%nat -> tensors_symmetric d cells n inner bound -> (forall c, least_diag d (ec_A (cells c)) (eps c)) ->
  forall c, (c < n)%nat -> dgi_estimate d cells gamma n inner bound x c = dg_eta2 d cells x gamma eps inner bound c.
Proof. intros. now apply dgi_at. Qed.
Print Assumptions c121_indicator.

(** The squared indicators are not negative. *)
Theorem c121_nonnegative : forall d cells gamma n inner bound x eps,
  d = 2%nat \/ d = 3%nat -> tensors_symmetric d cells n inner bound -> (forall c, least_diag d (ec_A (cells c)) (eps c)) ->
  grid_ok cells n inner bound -> weights_nonneg cells n inner bound -> 0 <= gamma -> (forall c, (c < n)%nat -> 0 < eps c) ->
  forall c, (c < n)%nat -> 0 <= dgi_estimate d cells gamma n inner bound x c.
Proof.
  intros. rewrite (c121_indicator d cells gamma n inner bound x eps) by easy. now apply dg_eta2_nonneg with (n := n).
Qed.
Print Assumptions c121_nonnegative.

(** They all vanish exactly if the equation holds in the cells, solution and flux are continuous over the faces and the Dirichlet values are met. *)
Theorem c121_zero : forall d cells gamma n inner bound x eps,
  d = 2%nat \/ d = 3%nat -> tensors_symmetric d cells n inner bound -> (forall c, least_diag d (ec_A (cells c)) (eps c)) ->
  grid_ok cells n inner bound -> weights_pos cells n inner bound -> 0 <= gamma -> (forall c, (c < n)%nat -> 0 < eps c) ->
  (forall c, (c < n)%nat -> 0 < cell_diam d cells c /\ (1 <= ec_order (cells c))%nat) ->
  (forall F, In F inner -> 0 < face_diam d F) -> (forall F, In F bound -> 0 < bound_diam d F) ->
  (forall c, (c < n)%nat -> dgi_estimate d cells gamma n inner bound x c = 0) <->
  (forall c p, (c < n)%nat -> In p (ec_pts (cells c)) -> residual d cells x c p = 0) /\
  (forall F p, In F inner -> In p (ef_pts F) -> dg_flux_jump d cells x F p = 0 /\ u_jump cells x F p = 0) /\
  (forall F p, In F bound -> eb_bc F = Dirichlet -> In p (eb_pts F) -> u_mismatch cells x F p = 0).
Proof.
  intros d cells gamma n inner bound x eps Hd HS He G W Hg Hp Hh Hf Hb.
  rewrite <- (dg_eta2_zero d cells gamma x n inner bound eps) by easy.
  split; intros H c Hc; specialize (H c Hc); [rewrite <- (c121_indicator d cells gamma n inner bound x eps) | rewrite (c121_indicator d cells gamma n inner bound x eps)]; easy.
Qed.
Print Assumptions c121_zero.

(** They do not depend on the cell a face is visited from. *)
Theorem c121_orientation : forall d cells gamma n l1 F l2 bound x, d = 2%nat \/ d = 3%nat -> tensors_symmetric d cells n (l1 ++ F :: l2) bound ->
  forall c, (c < n)%nat -> dgi_estimate d cells gamma n (l1 ++ F :: l2) bound x c = dgi_estimate d cells gamma n (l1 ++ reverse F :: l2) bound x c.
Proof.
  intros d cells gamma n l1 F l2 bound x Hd HS c Hc.
  rewrite (c121_indicator d cells gamma n (l1 ++ F :: l2) bound x (fun c => small_diag d (ec_A (cells c)))) by (auto; intros; now apply small_diag_ok).
  rewrite (c121_indicator d cells gamma n (l1 ++ reverse F :: l2) bound x (fun c => small_diag d (ec_A (cells c)))) by (auto using sym_reverse; intros; now apply small_diag_ok).
  apply dg_eta2_reverse.
Qed.
Print Assumptions c121_orientation.

(** Two cells of size 1 side by side with u = 1 and u = 3, no flux; the face has size 2 and the Dirichlet value on the left is 0. *)
Definition two_cells (c : nat) : escell := unit_cell (mkvp 1 1 (fun _ => 1) (fun _ _ => 0) (fun _ => 1) (fun _ _ => 0) (fun k l => if (k =? l)%nat then 1 else 0) (fun _ _ => 1) (fun _ => 0) 0 5).
Definition face_pt (g : R) : fpoint := mkfp 2 1 (fun k => if (k =? 0)%nat then 1 else 0) (fun _ => 1) (fun _ => 1) (fun _ => 1) (fun _ => 1) (fun _ _ => 0) (fun _ _ => 0) (fun _ _ => 0) (fun _ _ => 0)
  (fun _ _ => 1) (fun _ _ => 1) (fun _ _ => 1) (fun _ _ => 1) (fun _ => 0) Dirichlet 0 0 g.
Definition a_face : esface := mkef 0 1 (fun k => if (k =? 0)%nat then 1 else 0) 2 (fun i k => if (k =? 0)%nat then INR i else 0) [face_pt 0].
Definition a_bound : esbound := mkeb 0 Dirichlet (fun k => if (k =? 0)%nat then -1 else 0) 2 (fun i k => if (k =? 0)%nat then INR i else 0) [face_pt 0].
Definition two_values (c : nat) : vec := fun _ => match c with O => 1 | _ => 3 end.
Example c121_example : grid_ok two_cells 2 [a_face] [a_bound] /\ weights_pos two_cells 2 [a_face] [a_bound] /\ tensors_symmetric 2 two_cells 2 [a_face] [a_bound] /\
  (forall c, least_diag 2 (ec_A (two_cells c)) 1) /\ (forall c, 0 < cell_diam 2 two_cells c) /\ 0 < face_diam 2 a_face /\
  dgi_estimate 2 two_cells 7 2 [a_face] [a_bound] two_values 0%nat = 25 + (7 + 1) / 2 * 8 + (7 + 1) * 2 /\
  dgi_estimate 2 two_cells 7 2 [a_face] [a_bound] two_values 1%nat = 25 + (7 + 1) / 2 * 8.
Proof.
  assert (D : forall c, cell_diam 2 two_cells c = 1) by (intros; apply (unit_diam 2 _ c); lia).
  assert (HS : tensors_symmetric 2 two_cells 2 [a_face] [a_bound]).
  { split; [|split]; [intros c i j Hi Hj; cbn; rewrite Nat.eqb_sym; reflexivity | intros F p [<- | []] [<- | []]; split; intros i j _ _; reflexivity | intros F p [<- | []] [<- | []] i j _ _; reflexivity]. }
  assert (HE : forall c, least_diag 2 (ec_A (two_cells c)) 1).
  { intros c. split; [intros k Hk; cbn; rewrite Nat.eqb_refl; lra | exists 0%nat; split; [lia|reflexivity]]. }
  assert (FD : face_diam 2 a_face = 1) by exact (D 0%nat). assert (BD : bound_diam 2 a_bound = 1) by exact (D 0%nat).
  split; [|split; [|split; [exact HS|split; [exact HE|split; [|split; [|split]]]]]].
  - split; [|split]; [intros c _; cbn; lia | intros F [<- | []]; cbn; lia | intros F [<- | []]; cbn; lia].
  - split; [|split]; [intros c p _ [<- | []]; cbn; lra | intros F p [<- | []] [<- | []]; cbn; lra | intros F p [<- | []] [<- | []]; cbn; lra].
  - intros c. rewrite D. lra.
  - rewrite FD. lra.
  - rewrite (c121_indicator 2 two_cells 7 2 [a_face] [a_bound] two_values (fun _ => 1)) by (auto; lia). unfold dg_eta2. rewrite D. cbn [lsum]. rewrite FD, BD. cbn.
    unfold vnorm2, fnorm2, residual, u_at, u_in, u_out, u_jump, u_mismatch, dg_flux_jump, normal_flux, grad_in, grad_out, grad_u, fun_at, grad_at, grads, inner, apply, two_values. cbn. field.
  - rewrite (c121_indicator 2 two_cells 7 2 [a_face] [a_bound] two_values (fun _ => 1)) by (auto; lia). unfold dg_eta2. rewrite D. cbn [lsum]. rewrite FD, BD. cbn.
    unfold vnorm2, fnorm2, residual, u_at, u_in, u_out, u_jump, u_mismatch, dg_flux_jump, normal_flux, grad_in, grad_out, grad_u, fun_at, grad_at, grads, inner, apply, two_values. cbn. field.
Qed.
Example c120_example : grid_ok two_cells 2 [a_face] [a_bound] /\ tensors_symmetric 2 two_cells 2 [a_face] [a_bound] /\
  (forall c p, (c < 2)%nat -> In p (ec_pts (two_cells c)) -> v_c p = 0) /\ fe_estimate 2 two_cells true 2 [a_face] [a_bound] two_values 1%nat = 25.
Proof.
  destruct c121_example as (G & _ & HS & _). split; [exact G|split; [exact HS|split; [intros c p _ [<- | []]; reflexivity|]]].
  rewrite fe_at by (auto; lia). assert (D : forall c, cell_diam 2 two_cells c = 1) by (intros; apply (unit_diam 2 _ c); lia). unfold fem_faces. rewrite !D. cbn.
  unfold fnorm2, flux_jump, normal_flux, grad_in, grad_out, grad_at, grads, inner, apply, u_at, fun_at, two_values. cbn. field.
Qed.

(** ** C122: the temporal estimators *)

(** The assembled vector holds the squared temporal indicators: the size of the jump, and the deviation of the data from their mean over the step by Simpson's rule. *)
Theorem c122_first : forall t dt cells n x t0 c, (c < n)%nat -> ts_r (te1_estimate t dt cells n x t0) c = te1_eta2 t dt (cells c) (x c).
Proof. intros. now apply te1_at. Qed.
Print Assumptions c122_first.
Theorem c122_second : forall d t dt cells n bound x t0 c, (c < n)%nat -> ts_r (te2_estimate d t dt cells n bound x t0) c =
  te2_eta2 d t dt (cells c) (x c) +
  lsum (fun b => when (c =? tbd_c b)%nat match tbd_bc b with
                 | Neumann => (tc_h (cells (tbd_c b)) + dt ^ 2 / tc_h (cells (tbd_c b))) * dt * lsum (flux_change t dt) (tbd_pts b) | _ => 0 end) bound.
Proof. intros. now apply te2_at. Qed.
Print Assumptions c122_second.

(** The first estimator is not negative, and zero exactly if the solution did not change and the source is the same at the beginning, the middle and the end of the step. *)
Theorem c122_first_zero : forall t dt cells n x t0 c, (c < n)%nat -> 0 < dt -> 0 < tc_h (cells c) ->
  (forall p, In p (tc_pts (cells c)) -> 0 < t_weight p * t_ie p) ->
  0 <= ts_r (te1_estimate t dt cells n x t0) c /\
  (ts_r (te1_estimate t dt cells n x t0) c = 0 <-> forall p, In p (tc_pts (cells c)) ->
     jump_at (cells c) (x c) p = 0 /\ t_f p t = t_f p (t + dt / 2) /\ t_f p (t + dt) = t_f p (t + dt / 2)).
Proof.
  intros t dt cells n x t0 c Hc Hdt Hh W. rewrite te1_at by easy. unfold te1_eta2.
  assert (A : 0 < tc_h (cells c) ^ 2 / dt) by (apply Rdiv_lt_0_compat; [now apply pow_lt|easy]).
  assert (B : 0 < tc_h (cells c) ^ 2 * dt) by (apply Rmult_lt_0_compat; [now apply pow_lt|easy]).
  assert (N : forall g, (forall p, 0 <= g p) -> 0 <= tnorm2 (tc_pts (cells c)) g).
  { intros g Hg. apply lsum_nonneg. intros p Hp. apply Rmult_le_pos; [left; now apply W | apply Hg]. }
  assert (Z : forall g, (forall p, 0 <= g p) -> tnorm2 (tc_pts (cells c)) g = 0 <-> forall p, In p (tc_pts (cells c)) -> g p = 0).
  { intros g Hg. unfold tnorm2. rewrite lsum_zero by (intros p Hp; apply Rmult_le_pos; [left; now apply W | apply Hg]).
    split; intros H p Hp; specialize (H p Hp); specialize (W p Hp); [now apply pos_zero in H | now apply pos_zero]. }
  assert (J : forall p, 0 <= jump_at (cells c) (x c) p ^ 2) by (intros; apply sq_nonneg).
  assert (K : forall p : tpt, 0 <= variation (t_f p) t dt) by (intros; apply variation_nonneg).
  split; [apply Rplus_le_le_0_compat; apply Rmult_le_pos; auto; lra|].
  rewrite plus_zero by (apply Rmult_le_pos; auto; lra). rewrite !pos_zero by easy. rewrite !Z by easy.
  split.
  - intros (H1 & H2) p Hp. split; [apply sq_zero; now apply H1 | apply variation_zero; now apply H2].
  - intros H. split; intros p Hp; [apply sq_zero; now apply H | apply variation_zero; now apply H].
Qed.
Print Assumptions c122_first_zero.

(** The second one is zero for a solution that does not change and data that do not depend on the time, and never negative. *)
Theorem c122_second_zero : forall d t dt cells n bound x t0 c, (c < n)%nat -> 0 < dt -> (forall c, 0 < tc_h (cells c)) ->
  (forall p, In p (tc_pts (cells c)) -> 0 <= t_weight p * t_ie p) -> (forall b p, In b bound -> In p (tbd_pts b) -> 0 <= tb_weight p * tb_ie p) ->
  0 <= ts_r (te2_estimate d t dt cells n bound x t0) c /\
  ((forall i, x c i = 0) -> (forall s s' i, tc_interp (cells c) s i = tc_interp (cells c) s' i) -> (forall b p s s', In b bound -> In p (tbd_pts b) -> tb_j p s = tb_j p s') ->
   ts_r (te2_estimate d t dt cells n bound x t0) c = 0).
Proof.
  intros d t dt cells n bound x t0 c Hc Hdt Hh W WB. rewrite te2_at by easy. split.
  - apply Rplus_le_le_0_compat.
    + unfold te2_eta2. apply Rplus_le_le_0_compat; apply Rmult_le_pos; try lra; try (left; now apply pow_lt); apply lsum_nonneg; intros p Hp; apply Rmult_le_pos; auto.
      * apply rsum_nonneg. intros. apply Rle_0_sqr.
      * apply rsum_nonneg. intros. apply variation_nonneg.
    + apply lsum_nonneg. intros b Hb. apply when_nonneg. destruct (tbd_bc b); try lra. apply Rmult_le_pos.
      * apply Rmult_le_pos; [|lra]. specialize (Hh (tbd_c b)). apply Rplus_le_le_0_compat; [lra|]. apply div_nonneg; [apply sq_nonneg | lra].
      * apply lsum_nonneg. intros p Hp. apply Rmult_le_pos; [now apply (WB b)|].
        pose proof (sq_nonneg (tb_j p t - tb_j p (t + dt / 2))). pose proof (sq_nonneg (tb_j p (t + dt) - tb_j p (t + dt / 2))). lra.
  - intros Hx Hi Hj.
    assert (E : te2_eta2 d t dt (cells c) (x c) = 0).
    { unfold te2_eta2. assert (E1 : tnorm2 (tc_pts (cells c)) (fun p => inner d (jump_grad d (cells c) (x c) p) (jump_grad d (cells c) (x c) p)) = 0).
      { transitivity (lsum (fun _ : tpt => 0) (tc_pts (cells c))); [|apply lsum_0]. apply lsum_ext. intros p _.
        assert (E2 : forall k, jump_grad d (cells c) (x c) p k = 0). { intros k. unfold jump_grad, grad_at. rewrite (rsum_ext _ _ (fun _ => 0)) by (intros; rewrite Hx; ring). apply rsum_0. }
        unfold inner. rewrite (rsum_ext _ _ (fun _ => 0)) by (intros; rewrite E2; ring). rewrite rsum_0. ring. }
      assert (E3 : tnorm2 (tc_pts (cells c)) (fun p => rsum d (fun k => variation (fun s => source_grad d (cells c) p s k) t dt)) = 0).
      { transitivity (lsum (fun _ : tpt => 0) (tc_pts (cells c))); [|apply lsum_0]. apply lsum_ext. intros p _.
        rewrite (rsum_ext _ _ (fun _ => 0)); [rewrite rsum_0; ring|]. intros k _. apply variation_zero.
        assert (E4 : forall s s', source_grad d (cells c) p s k = source_grad d (cells c) p s' k). { intros. unfold source_grad, grad_at. apply rsum_ext. intros i _. now rewrite (Hi s s'). }
        split; apply E4. }
      rewrite E1, E3. ring. }
    rewrite E. transitivity (0 + lsum (fun _ : tbound => 0) bound); [|rewrite lsum_0; ring]. f_equal. apply lsum_ext. intros b Hb. apply when_zero. intros _.
    destruct (tbd_bc b); try reflexivity. transitivity ((tc_h (cells (tbd_c b)) + dt ^ 2 / tc_h (cells (tbd_c b))) * dt * lsum (fun _ : tbp => 0) (tbd_pts b)); [|rewrite lsum_0; ring].
    f_equal. apply lsum_ext. intros p Hp. unfold flux_change. rewrite (Hj b p t (t + dt / 2) Hb Hp), (Hj b p (t + dt) (t + dt / 2) Hb Hp). field.
Qed.
Print Assumptions c122_second_zero.

(** Whatever the time of the parameter object was, the assembly leaves it at the end of the step. *)
Theorem c122_time : forall d t dt cells n bound x t0,
  ((exists c, (c < n)%nat /\ tc_pts (cells c) <> []) -> ts_time (te1_estimate t dt cells n x t0) = t + dt) /\
  ((0 < n)%nat -> ts_time (te2_estimate d t dt cells n bound x t0) = t + dt).
Proof. intros. split; [apply te1_time | apply te2_time]. Qed.
Print Assumptions c122_time.

Example c122_example : let p := mktp 1 2 (fun _ => 1) (fun _ _ => 0) (fun _ _ => 1) (fun s => s) in
  let C := mktc 1 3 [p] (fun s _ => s) in
  0 < t_weight p * t_ie p /\
  ts_r (te1_estimate 0 6 (fun _ => C) 1 (fun _ _ => 5) 17) 0%nat = 9 / 6 * (2 * 25) + 9 * 6 * (2 * 3) /\ ts_time (te1_estimate 0 6 (fun _ => C) 1 (fun _ _ => 5) 17) = 6.
Proof.
  cbn zeta. split; [cbn; lra|split].
  - rewrite te1_at by lia. unfold te1_eta2, tnorm2, jump_at, fun_at, variation, simpson. cbn. field.
  - destruct (c122_time 1 0 6 (fun _ => mktc 1 3 [mktp 1 2 (fun _ => 1) (fun _ _ => 0) (fun _ _ => 1) (fun s => s)] (fun s _ => s)) 1 [] (fun _ _ => 5) 17) as (H & _).
    rewrite H; [lra|]. exists 0%nat. split; [lia|discriminate].
Qed.
