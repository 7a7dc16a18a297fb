(** Theorems about the convection-diffusion local operators. *)
From Verif Require Import Common CommonFacts CdModel CdSpec CdProofs CdProofs2 CdProofs3.
From Coq Require Import Reals Lra Lia.
Open Scope R_scope.

(** ** C87: the conforming operator *)
(** The residual is the weak form: tested with any coefficient vector y, it is the quadrature sum of
    (A grad u) . grad v - u b . grad v + (c u - f) v. *)
Theorem c87_volume_weak_form : forall d n (constA : bool) Ac pts x y r,
  rsum n (fun i => y i * fem_alpha_volume d n constA Ac pts x r i) =
  rsum n (fun i => y i * r i) + lsum (fun p => let G := grads d (v_jac p) (v_js p) in
    weak_integrand d (if constA then Ac else v_A p) (v_b p) (v_c p) (v_f p) (fun_at n x (v_phi p)) (grad_at n x G) (fun_at n y (v_phi p)) (grad_at n y G)
    * (v_weight p * v_ie p)) pts.
Proof.
  intros. rewrite (rsum_ext n _ (fun i => y i * r i + lsum (fun p => y i * fem_val d constA Ac n p x i) pts)).
  - rewrite rsum_plus, rsum_lsum. f_equal. apply lsum_ext. intros p _. rewrite fem_val_form. reflexivity.
  - intros i Hi. rewrite fem_alpha_at, lsum_scal by auto. lra.
Qed.
Print Assumptions c87_volume_weak_form.

(** The matrix is the exact derivative of the residual. *)
Theorem c87_volume_jacobian : forall d n (constA : bool) Ac pts r,
  derivative n n (fem_jacobian_volume d n constA Ac pts zerom) (fun x => fem_alpha_volume d n constA Ac pts x r).
Proof.
  intros. apply (derivative_points n n _ _ r pts (fun p x i => fem_val d constA Ac n p x i) (fem_jval d constA Ac)).
  - intros. now apply fem_alpha_at.
  - intros. rewrite fem_jac_at by auto. unfold zerom. lra.
  - intros. apply fem_val_plus.
Qed.
Print Assumptions c87_volume_jacobian.
(** Assembly accumulates. *)
Theorem c87_volume_accumulates : forall d n (constA : bool) Ac pts m i j, (i < n)%nat -> (j < n)%nat ->
  fem_jacobian_volume d n constA Ac pts m i j = m i j + fem_jacobian_volume d n constA Ac pts zerom i j.
Proof. intros. rewrite !fem_jac_at by auto. unfold zerom. lra. Qed.
Print Assumptions c87_volume_accumulates.

Theorem c87_boundary_weak_form : forall d n bctype pts x y r,
  rsum n (fun i => y i * fem_alpha_boundary d n bctype pts x r i) =
  rsum n (fun i => y i * r i) + lsum (fun p => match bctype with
    | Neumann => f_j p * fun_at n y (phi_s p)
    | Outflow => (inner d (f_b p) (f_normal p) * fun_at n x (phi_s p) + f_o p) * fun_at n y (phi_s p)
    | _ => 0 end * (f_weight p * f_ie p)) pts.
Proof.
  intros. rewrite (rsum_ext n _ (fun i => y i * r i + lsum (fun p => y i * femb_val d n bctype p x i) pts)).
  - rewrite rsum_plus, rsum_lsum. f_equal. apply lsum_ext. intros p _. destruct bctype; cbn [femb_val].
    + rewrite (rsum_ext n _ (fun _ => 0)) by (intros; lra). rewrite rsum_0. lra.
    + rewrite (rsum_ext n _ (fun i => (y i * phi_s p i) * (f_j p * (f_weight p * f_ie p)))) by (intros; lra). rewrite rsum_scal_r. unfold fun_at. lra.
    + set (u := fun_at n x (phi_s p)).
      rewrite (rsum_ext n _ (fun i => (y i * phi_s p i) * ((inner d (f_b p) (f_normal p) * u + f_o p) * (f_weight p * f_ie p)))) by (intros; lra). rewrite rsum_scal_r. unfold fun_at. lra.
    + rewrite (rsum_ext n _ (fun _ => 0)) by (intros; lra). rewrite rsum_0. lra.
  - intros i Hi. rewrite femb_at, lsum_scal by auto. lra.
Qed.
Print Assumptions c87_boundary_weak_form.

(** The boundary matrix is the derivative of the boundary residual for Dirichlet, Neumann and Outflow faces. *)
Theorem c87_boundary_jacobian_partial : forall d n bctype pts r, bctype <> NoBC ->
  derivative n n (fem_jacobian_boundary d n bctype pts zerom) (fun x => fem_alpha_boundary d n bctype pts x r).
Proof.
  intros d n bctype pts r H. apply (derivative_points n n _ _ r pts (fun p x i => femb_val d n bctype p x i) (femb_jval d bctype)).
  - intros. now apply femb_at.
  - intros. rewrite femb_jac_at by auto. unfold zerom. lra.
  - intros. now apply femb_plus.
Qed.
Print Assumptions c87_boundary_jacobian_partial.

(** A one-dimensional point with one basis function *)
Definition one_v : vec := fun _ => 1.
Definition one_m : mat := fun _ _ => 1.
Definition ex_fp (t : bc) : fpoint := mkfp 1 1 one_v one_v one_v one_v one_v (fun _ => one_v) (fun _ => one_v) (fun _ => one_v) (fun _ => one_v)
  one_m one_m one_m one_m one_v t 0 0 0.
(** On a face of type None the matrix contains the outflow term, the residual contains nothing. *)
Theorem c87_boundary_refuted : exists d n pts,
  ~ derivative n n (fem_jacobian_boundary d n NoBC pts zerom) (fun x => fem_alpha_boundary d n NoBC pts x zerov).
Proof.
  exists 1%nat, 1%nat, [ex_fp NoBC]. intros H. specialize (H zerov one_v 0%nat ltac:(lia)). revert H.
  cbn. unfold zerov, zerom, macc, one_v. cbn. unfold dot, loop. cbn. lra.
Qed.
Print Assumptions c87_boundary_refuted.
Example c87_cases : Outflow <> NoBC /\ fem_jacobian_boundary 1 1 Outflow [ex_fp Outflow] zerom 0%nat 0%nat = 1.
Proof. split; [discriminate|]. cbn. unfold zerom, macc, one_v, dot, loop. cbn. lra. Qed.

(** ** C88: structure of the conforming operator *)
Theorem c88_symmetric : forall d n (constA : bool) Ac pts,
  (forall p, In p pts -> symmetric d (if constA then Ac else v_A p) /\ forall k, v_b p k = 0) ->
  symmetric n (fem_jacobian_volume d n constA Ac pts zerom).
Proof.
  intros d n constA Ac pts H i j Hi Hj. rewrite !fem_jac_at by auto. f_equal. apply lsum_ext. intros p Hp. destruct (H p Hp) as [S B].
  unfold fem_jval. rewrite (apply_sym d (vT constA Ac p) (vG d p i)) by exact S.
  assert (forall v, inner d (v_b p) v = 0) as Z. { intros v. unfold inner. rewrite (rsum_ext d _ (fun _ => 0)); [apply rsum_0|]. intros. rewrite B. lra. }
  rewrite !Z. lra.
Qed.
Print Assumptions c88_symmetric.

Theorem c88_nonnegative : forall d n (constA : bool) Ac pts x,
  (forall p, In p pts -> psd d (if constA then Ac else v_A p) /\ 0 <= v_c p /\ 0 <= v_weight p * v_ie p /\ forall k, v_b p k = 0) ->
  0 <= rsum n (fun i => x i * rsum n (fun j => fem_jacobian_volume d n constA Ac pts zerom i j * x j)).
Proof.
  intros d n constA Ac pts x H.
  rewrite (rsum_ext n _ (fun i => lsum (fun p => x i * rsum n (fun j => fem_jval d constA Ac p i j * x j)) pts)).
  - rewrite rsum_lsum. apply lsum_nonneg. intros p Hp. destruct (H p Hp) as (S & C & W & B). rewrite jval_form.
    assert (inner d (v_b p) (grad_at n x (vG d p)) = 0) as ->. { unfold inner. rewrite (rsum_ext d _ (fun _ => 0)); [apply rsum_0|]. intros. rewrite B. lra. }
    apply Rmult_le_pos; auto. specialize (S (grad_at n x (vG d p))). fold (vT constA Ac p) in *.
    assert (0 <= v_c p * fun_at n x (v_phi p) * fun_at n x (v_phi p)) by (rewrite Rmult_assoc; apply Rmult_le_pos; auto; apply Rle_0_sqr).
    change (if constA then Ac else v_A p) with (vT constA Ac p) in S. lra.
  - intros i Hi. rewrite (lsum_rsum_mul n _ (fem_jval d constA Ac) pts) by (auto; intros; rewrite fem_jac_at by auto; unfold zerom; lra). now rewrite lsum_scal.
Qed.
Print Assumptions c88_nonnegative.

(** Where the basis functions sum up to one, the residuals of a cell sum up to the integral of c u - f: the flux terms cancel. *)
Theorem c88_conservative : forall d n (constA : bool) Ac pts x,
  (forall p, In p pts -> unity n (v_phi p) (v_js p)) ->
  rsum n (fem_alpha_volume d n constA Ac pts x zerov) = lsum (fun p => (v_c p * fun_at n x (v_phi p) - v_f p) * (v_weight p * v_ie p)) pts.
Proof.
  intros d n constA Ac pts x H. rewrite rsum_ones, c87_volume_weak_form.
  rewrite (rsum_ext n _ (fun _ => 0)) by (unfold zerov; intros; lra). rewrite rsum_0, Rplus_0_l. apply lsum_ext. intros p Hp.
  destruct (H p Hp) as [U1 U2]. cbv zeta. unfold weak_integrand. rewrite !inner_ones by auto. rewrite fun_ones, U1. lra.
Qed.
Print Assumptions c88_conservative.
Theorem c88_boundary_conservative : forall d n pts x,
  (forall p, In p pts -> unity n (phi_s p) (js_s p)) ->
  rsum n (fem_alpha_boundary d n Neumann pts x zerov) = lsum (fun p => f_j p * (f_weight p * f_ie p)) pts /\
  rsum n (fem_alpha_boundary d n Outflow pts x zerov) = lsum (fun p => (inner d (f_b p) (f_normal p) * fun_at n x (phi_s p) + f_o p) * (f_weight p * f_ie p)) pts.
Proof.
  intros d n pts x H. split; rewrite rsum_ones, c87_boundary_weak_form;
    (rewrite (rsum_ext n _ (fun _ => 0)) by (unfold zerov; intros; lra)); rewrite rsum_0, Rplus_0_l; apply lsum_ext; intros p Hp;
    destruct (H p Hp) as [U1 U2]; rewrite fun_ones, U1; lra.
Qed.
Print Assumptions c88_boundary_conservative.
(** Two basis functions in one dimension *)
Definition ex_vp : vpoint := mkvp 1 1 (fun i => if (i =? 0)%nat then / 4 else 3 * / 4) (fun i _ => if (i =? 0)%nat then -1 else 1)
  (fun i => if (i =? 0)%nat then / 4 else 3 * / 4) (fun i _ => if (i =? 0)%nat then -1 else 1) one_m one_m zerov 1 1.
Example c88_case : (forall p, In p [ex_vp] -> unity 2 (v_phi p) (v_js p)) /\
  (forall p, In p [ex_vp] -> symmetric 1 (v_A p) /\ forall k, v_b p k = 0) /\
  (forall p, In p [ex_vp] -> psd 1 (v_A p) /\ 0 <= v_c p /\ 0 <= v_weight p * v_ie p /\ forall k, v_b p k = 0).
Proof.
  repeat split; intros; destruct H as [<-|[]]; cbn; unfold one_m, zerov; repeat split; intros; cbn; try lra.
  intros x. unfold inner, apply. cbn. assert (0 <= x 0%nat * x 0%nat) by apply Rle_0_sqr. lra.
Qed.

(** ** C89: Jacobians of the discontinuous operator *)
Theorem c89_volume_weak_form : forall d nu nv (constA : bool) Ac pts x y r,
  rsum nv (fun i => y i * dg_lambda_volume nv pts (dg_alpha_volume d nu nv constA Ac pts x r) i) =
  rsum nv (fun i => y i * r i) + lsum (fun p =>
    weak_integrand d (if constA then Ac else v_A p) (v_b p) (v_c p) (v_f p) (fun_at nu x (v_phi p)) (grad_at nu x (grads d (v_jac p) (v_js p)))
      (fun_at nv y (v_psi p)) (grad_at nv y (grads d (v_jac p) (v_jsv p))) * (v_weight p * v_ie p)) pts.
Proof.
  intros. rewrite (rsum_ext nv _ (fun i => y i * r i + lsum (fun p => y i * (dg_val d constA Ac nu p x i - v_f p * v_psi p i * (v_weight p * v_ie p))) pts)).
  - rewrite rsum_plus, rsum_lsum. f_equal. apply lsum_ext. intros p _.
    rewrite (rsum_ext nv _ (fun i => y i * dg_val d constA Ac nu p x i - (y i * v_psi p i) * (v_f p * (v_weight p * v_ie p)))) by (intros; lra).
    rewrite rsum_minus, rsum_scal_r, dg_val_form. fold (fun_at nv y (v_psi p)). unfold weak_integrand. fold (vG d p) (vGv d p). unfold vT, v_tensor. lra.
  - intros i Hi. unfold dg_lambda_volume. rewrite (fold_acc _ (fun p i => - v_f p * v_psi p i * (v_weight p * v_ie p)) nv); [|intros; cbv zeta; rewrite loop_acc; now ltbs | auto].
    rewrite dg_alpha_at by auto. rewrite lsum_scal. rewrite (lsum_ext (fun p => dg_val d constA Ac nu p x i - v_f p * v_psi p i * (v_weight p * v_ie p))
      (fun p => dg_val d constA Ac nu p x i + - v_f p * v_psi p i * (v_weight p * v_ie p))) by (intros; lra). rewrite lsum_plus. lra.
Qed.
Print Assumptions c89_volume_weak_form.

Lemma dg_volume_jac d n constA Ac p x i : galerkin n n p -> (i < n)%nat -> dg_val d constA Ac n p x i = rsum n (fun j => fem_jval d constA Ac p i j * x j).
Proof.
  intros G Hi. rewrite galerkin_val by auto. rewrite jval_sum. unfold fem_val. lra.
Qed.
Theorem c89_volume_jacobian : forall d n (constA : bool) Ac pts r, (forall p, In p pts -> galerkin n n p) ->
  derivative n n (dg_jacobian_volume d n constA Ac pts zerom) (fun x => dg_alpha_volume d n n constA Ac pts x r) /\
  forall x i, (i < n)%nat -> dg_jacobian_apply_volume d n n constA Ac pts x zerov i = rsum n (fun j => dg_jacobian_volume d n constA Ac pts zerom i j * x j).
Proof.
  intros d n constA Ac pts r H. split.
  - apply (derivative_points n n _ _ r pts (fun p x i => dg_val d constA Ac n p x i) (fem_jval d constA Ac)).
    + intros. now apply dg_alpha_at.
    + intros. unfold dg_jacobian_volume. rewrite fem_jac_at by auto. unfold zerom. lra.
    + intros p x y i Hp Hi. rewrite !galerkin_val, fem_val_plus by auto. lra.
  - intros x i Hi. unfold dg_jacobian_apply_volume. rewrite dg_alpha_at by auto. unfold zerov. rewrite Rplus_0_l.
    rewrite (lsum_rsum_mul n _ (fem_jval d constA Ac) pts) by (auto; intros; unfold dg_jacobian_volume; rewrite fem_jac_at by auto; unfold zerom; lra).
    apply lsum_ext. intros p Hp. apply dg_volume_jac; auto.
Qed.
Print Assumptions c89_volume_jacobian.

(** The four blocks of a face are the partial derivatives of the two residuals, and applying the Jacobian is multiplying with them. *)
Definition blocks_derive nus nun (M : mat * mat * mat * mat) (r : vec -> vec -> vec * vec) : Prop :=
  let '(ss, sn, ns, nn) := M in
  forall xs xn ys yn,
  (forall i, (i < nus)%nat -> fst (r (plusv xs ys) (plusv xn yn)) i = fst (r xs xn) i + rsum nus (fun j => ss i j * ys j) + rsum nun (fun j => sn i j * yn j)) /\
  (forall i, (i < nun)%nat -> snd (r (plusv xs ys) (plusv xn yn)) i = snd (r xs xn) i + rsum nus (fun j => ns i j * ys j) + rsum nun (fun j => nn i j * yn j)).
Lemma zero_fun n phi : fun_at n zerov phi = 0.
Proof. unfold fun_at, zerov. rewrite (rsum_ext n _ (fun _ => 0)) by (intros; lra). apply rsum_0. Qed.
Lemma zero_grad d n a G : inner d a (grad_at n zerov G) = 0.
Proof. rewrite inner_grad. unfold zerov. rewrite (rsum_ext n _ (fun _ => 0)) by (intros; lra). apply rsum_0. Qed.
Theorem c89_skeleton_jacobian : forall d nus nun P F pts r_s r_n,
  (forall p, In p pts -> fgalerkin nus (phi_s p) (psi_s p) (js_s p) (jsv_s p) /\ fgalerkin nun (phi_n p) (psi_n p) (js_n p) (jsv_n p)) ->
  blocks_derive nus nun (dg_jacobian_skeleton d nus nun P F pts (zerom, zerom, zerom, zerom)) (fun xs xn => dg_alpha_skeleton d nus nun nus nun P F pts xs xn (r_s, r_n)).
Proof.
  intros d nus nun P F pts r_s r_n H. pose proof (jsk_at d P F nus nun pts zerom zerom zerom zerom) as J. cbv zeta in J.
  destruct (dg_jacobian_skeleton d nus nun P F pts (zerom, zerom, zerom, zerom)) as [[[ss sn] ns] nn]. unfold q1, q2, q3, q4 in J. cbn [fst snd] in J.
  destruct J as (J1 & J2 & J3 & J4). intros xs xn ys yn.
  destruct (sk_at d P F nus nun nus nun pts (plusv xs ys) (plusv xn yn) r_s r_n) as (A1 & A2).
  destruct (sk_at d P F nus nun nus nun pts xs xn r_s r_n) as (B1 & B2).
  assert (forall n (M : mat) (jv : fpoint -> nat -> nat -> R) i y, (forall j, (j < n)%nat -> M i j = zerom i j + lsum (fun p => jv p i j) pts) ->
    rsum n (fun j => M i j * y j) = lsum (fun p => rsum n (fun j => jv p i j * y j)) pts) as L.
  { intros n M jv i y HM. rewrite <- rsum_lsum. apply rsum_ext. intros j Hj. rewrite HM by auto. unfold zerom. rewrite Rplus_0_l, Rmult_comm, <- lsum_scal. apply lsum_ext. intros; lra. }
  split; intros i Hi.
  - rewrite A1, B1 by auto. rewrite (L nus ss (j_ss d P F)), (L nun sn (j_sn d P F)) by (intros; auto).
    rewrite (lsum_ext _ (fun p => sk_s d P F nus nun p xs xn i + rsum nus (fun j => j_ss d P F p i j * ys j) + rsum nun (fun j => j_sn d P F p i j * yn j)))
      by (intros; apply sk_s_plus; auto; now apply H). rewrite !lsum_plus. lra.
  - rewrite A2, B2 by auto. rewrite (L nus ns (j_ns d P F)), (L nun nn (j_nn d P F)) by (intros; auto).
    rewrite (lsum_ext _ (fun p => sk_n d P F nus nun p xs xn i + rsum nus (fun j => j_ns d P F p i j * ys j) + rsum nun (fun j => j_nn d P F p i j * yn j)))
      by (intros; apply sk_n_plus; auto; now apply H). rewrite !lsum_plus. lra.
Qed.
Print Assumptions c89_skeleton_jacobian.

Theorem c89_skeleton_apply : forall d nus nun P F pts xs xn,
  (forall p, In p pts -> fgalerkin nus (phi_s p) (psi_s p) (js_s p) (jsv_s p) /\ fgalerkin nun (phi_n p) (psi_n p) (js_n p) (jsv_n p)) ->
  let '(ss, sn, ns, nn) := dg_jacobian_skeleton d nus nun P F pts (zerom, zerom, zerom, zerom) in
  let (y_s, y_n) := dg_jacobian_apply_skeleton d nus nun nus nun P F pts xs xn (zerov, zerov) in
  (forall i, (i < nus)%nat -> y_s i = rsum nus (fun j => ss i j * xs j) + rsum nun (fun j => sn i j * xn j)) /\
  (forall i, (i < nun)%nat -> y_n i = rsum nus (fun j => ns i j * xs j) + rsum nun (fun j => nn i j * xn j)).
Proof.
  intros d nus nun P F pts xs xn H. pose proof (c89_skeleton_jacobian d nus nun P F pts zerov zerov H) as D. unfold blocks_derive in D.
  destruct (dg_jacobian_skeleton d nus nun P F pts (zerom, zerom, zerom, zerom)) as [[[ss sn] ns] nn].
  specialize (D zerov zerov xs xn). unfold dg_jacobian_apply_skeleton.
  destruct (sk_at d P F nus nun nus nun pts xs xn zerov zerov) as (A1 & A2).
  destruct (sk_at d P F nus nun nus nun pts zerov zerov zerov zerov) as (B1 & B2).
  destruct (sk_at d P F nus nun nus nun pts (plusv zerov xs) (plusv zerov xn) zerov zerov) as (C1 & C2).
  assert (forall x : vec, plusv zerov x = fun i => 0 + x i) as PZ by reflexivity.
  assert (forall n x phi, fun_at n (plusv zerov x) phi = fun_at n x phi) as Z1 by (intros; rewrite fun_plus, zero_fun; lra).
  assert (forall n a x G, inner d a (grad_at n (plusv zerov x) G) = inner d a (grad_at n x G)) as Z2 by (intros; rewrite inner_grad_plus, zero_grad; lra).
  assert (forall p i, sk_s d P F nus nun p (plusv zerov xs) (plusv zerov xn) i = sk_s d P F nus nun p xs xn i) as E1.
  { intros. unfold sk_s, flux. cbv zeta. now rewrite !Z1, !Z2. }
  assert (forall p i, sk_n d P F nus nun p (plusv zerov xs) (plusv zerov xn) i = sk_n d P F nus nun p xs xn i) as E2.
  { intros. unfold sk_n, flux. cbv zeta. now rewrite !Z1, !Z2. }
  assert (forall p i, sk_s d P F nus nun p zerov zerov i = 0) as F1.
  { intros. unfold sk_s, flux. cbv zeta. rewrite !zero_fun, !zero_grad. lra. }
  assert (forall p i, sk_n d P F nus nun p zerov zerov i = 0) as F2.
  { intros. unfold sk_n, flux. cbv zeta. rewrite !zero_fun, !zero_grad. lra. }
  destruct D as [D1 D2].
  destruct (dg_alpha_skeleton d nus nun nus nun P F pts xs xn (zerov, zerov)) as [y_s y_n]. cbn [fst snd] in A1, A2.
  split; intros i Hi.
  - specialize (D1 i Hi). rewrite C1, B1 in D1 by auto. rewrite A1 by auto. unfold zerov in *.
    rewrite (lsum_ext _ (fun p => sk_s d P F nus nun p xs xn i)) in D1 by (intros; apply E1).
    rewrite (lsum_ext (fun p => sk_s d P F nus nun p (fun _ => 0) (fun _ => 0) i) (fun _ => 0)) in D1 by (intros; apply F1). rewrite lsum_0 in D1. lra.
  - specialize (D2 i Hi). rewrite C2, B2 in D2 by auto. rewrite A2 by auto. unfold zerov in *.
    rewrite (lsum_ext _ (fun p => sk_n d P F nus nun p xs xn i)) in D2 by (intros; apply E2).
    rewrite (lsum_ext (fun p => sk_n d P F nus nun p (fun _ => 0) (fun _ => 0) i) (fun _ => 0)) in D2 by (intros; apply F2). rewrite lsum_0 in D2. lra.
Qed.
Print Assumptions c89_skeleton_apply.

(** On the boundary the residual, the matrix and the application fail together, in exactly the inflow case, and otherwise agree. *)
Theorem c89_boundary_jacobian : forall d n P F pts,
  (forall p, In p pts -> fgalerkin n (phi_s p) (psi_s p) (js_s p) (jsv_s p)) ->
  (Exists (inflow d) pts -> forall x r m,
     dg_residual_boundary d n n P F pts x false r = Throw /\ dg_residual_boundary d n n P F pts x true r = Throw /\ dg_jacobian_boundary d n P F pts m = Throw) /\
  (~ Exists (inflow d) pts -> exists M, dg_jacobian_boundary d n P F pts zerom = Ok M /\
     forall r, exists (f g : vec -> vec), (forall x, dg_residual_boundary d n n P F pts x false r = Ok (f x)) /\ derivative n n M f /\
       (forall x, dg_residual_boundary d n n P F pts x true zerov = Ok (g x)) /\ forall x i, (i < n)%nat -> g x i = rsum n (fun j => M i j * x j)).
Proof.
  intros d n P F pts G. split.
  - intros E x r m. repeat split; [now apply bd_at | now apply bd_at | now apply bj_at].
  - intros E. destruct (bj_at d P F n pts zerom) as [_ (M & HM & EM)]; auto. exists M. split; [exact HM|]. intros r.
    set (get := fun (o : res vec) => match o with Ok v => v | _ => zerov end).
    exists (fun x => get (dg_residual_boundary d n n P F pts x false r)), (fun x => get (dg_residual_boundary d n n P F pts x true zerov)).
    assert (forall ja x r, exists r', dg_residual_boundary d n n P F pts x ja r = Ok r' /\ forall i, (i < n)%nat -> r' i = r i + lsum (fun p => bd_val d P F ja n p x i) pts) as H.
    { intros ja x r0. now apply bd_at. }
    assert (forall ja x r, dg_residual_boundary d n n P F pts x ja r = Ok (get (dg_residual_boundary d n n P F pts x ja r))) as O.
    { intros ja x r0. destruct (H ja x r0) as (r' & -> & _). reflexivity. }
    assert (forall ja x r i, (i < n)%nat -> get (dg_residual_boundary d n n P F pts x ja r) i = r i + lsum (fun p => bd_val d P F ja n p x i) pts) as V.
    { intros ja x r0 i Hi. destruct (H ja x r0) as (r' & -> & E'). now apply E'. }
    repeat split; auto.
    + apply (derivative_points n n M _ r pts (fun p x i => bd_val d P F false n p x i) (bd_jval d P F)).
      * intros. now apply V.
      * intros. rewrite EM by auto. unfold zerom. lra.
      * intros p x y i Hp Hi. pose proof (G p Hp) as Gp.
        destruct (bj_sum d P F false n p (plusv x y) i Gp Hi) as [A1 A2]. destruct (bj_sum d P F false n p x i Gp Hi) as [B1 B2].
        rewrite A2, A1, B2, B1. 
        rewrite (rsum_ext n (fun j => bd_jval d P F p i j * plusv x y j) (fun j => bd_jval d P F p i j * x j + bd_jval d P F p i j * y j)) by (intros; unfold plusv; lra).
        rewrite rsum_plus. lra.
    + intros x i Hi. rewrite V by auto. unfold zerov. rewrite Rplus_0_l.
      rewrite (lsum_rsum_mul n M (bd_jval d P F) pts) by (auto; intros; rewrite EM by auto; unfold zerom; lra).
      apply lsum_ext. intros p Hp. apply (bj_sum d P F true n p x i); auto.
Qed.
Print Assumptions c89_boundary_jacobian.
Lemma ex_inner a : inner 1 (fun _ => a) one_v = a.
Proof. unfold inner, one_v. cbn. lra. Qed.
Example c89_case : fgalerkin 1 (phi_s (ex_fp Outflow)) (psi_s (ex_fp Outflow)) (js_s (ex_fp Outflow)) (jsv_s (ex_fp Outflow)) /\ ~ Exists (inflow 1) [ex_fp Outflow] /\
  galerkin 2 2 ex_vp.
Proof.
  repeat split; auto. intros H. inversion H as [? ? [_ I]|? ? I]; [|inversion I]. revert I. cbn. unfold inner. cbn. unfold one_v, eps'.
  assert (0 < / 10 ^ 30) by (apply Rinv_0_lt_compat, pow_lt; lra). cbn in *. lra.
Qed.

(** ** C90: interior faces of the discontinuous operator *)
(** Tested with any coefficient vectors, the two residuals of a face are the interior penalty form. *)
Theorem c90_weak_form : forall d nus nun nvs nvn P F pts xs xn ys yn r_s r_n,
  let r := dg_alpha_skeleton d nus nun nvs nvn P F pts xs xn (r_s, r_n) in
  rsum nvs (fun i => ys i * fst r i) + rsum nvn (fun i => yn i * snd r i) =
  rsum nvs (fun i => ys i * r_s i) + rsum nvn (fun i => yn i * r_n i) +
  lsum (fun p => ip_integrand d P F p (fun_at nus xs (phi_s p)) (fun_at nun xn (phi_n p)) (grad_at nus xs (grads d (jac_s p) (js_s p))) (grad_at nun xn (grads d (jac_n p) (js_n p)))
    (fun_at nvs ys (psi_s p)) (fun_at nvn yn (psi_n p)) (grad_at nvs ys (grads d (jac_s p) (jsv_s p))) (grad_at nvn yn (grads d (jac_n p) (jsv_n p)))
    * (f_weight p * f_ie p)) pts.
Proof.
  intros d nus nun nvs nvn P F pts xs xn ys yn r_s r_n r. destruct (sk_at d P F nus nun nvs nvn pts xs xn r_s r_n) as [A1 A2]. fold r in A1, A2.
  rewrite (rsum_ext nvs (fun i => ys i * fst r i) (fun i => ys i * r_s i + lsum (fun p => ys i * sk_s d P F nus nun p xs xn i) pts)) by (intros; rewrite A1, lsum_scal by auto; lra).
  rewrite (rsum_ext nvn (fun i => yn i * snd r i) (fun i => yn i * r_n i + lsum (fun p => yn i * sk_n d P F nus nun p xs xn i) pts)) by (intros; rewrite A2, lsum_scal by auto; lra).
  rewrite !rsum_plus, !rsum_lsum.
  transitivity (rsum nvs (fun i => ys i * r_s i) + rsum nvn (fun i => yn i * r_n i)
    + lsum (fun p => rsum nvs (fun i => ys i * sk_s d P F nus nun p xs xn i) + rsum nvn (fun i => yn i * sk_n d P F nus nun p xs xn i)) pts); [rewrite lsum_plus; lra|].
  f_equal. apply lsum_ext. intros p _. apply sk_form.
Qed.
Print Assumptions c90_weak_form.

Lemma rsum_zero n (y : vec) : rsum n (fun i => y i * zerov i) = 0.
Proof. rewrite (rsum_ext n _ (fun _ => 0)) by (unfold zerov; intros; lra). apply rsum_0. Qed.

(** What leaves one cell enters the other one. *)
Theorem c90_conservative : forall d nus nun nvs nvn P F pts xs xn,
  (forall p, In p pts -> unity nvs (psi_s p) (jsv_s p) /\ unity nvn (psi_n p) (jsv_n p)) ->
  let r := dg_alpha_skeleton d nus nun nvs nvn P F pts xs xn (zerov, zerov) in
  rsum nvs (fst r) + rsum nvn (snd r) = 0.
Proof.
  intros d nus nun nvs nvn P F pts xs xn H r. rewrite (rsum_ones nvs (fst r)), (rsum_ones nvn (snd r)).
  unfold r. rewrite c90_weak_form, !rsum_zero. rewrite (lsum_ext _ (fun _ => 0)); [rewrite lsum_0; lra|].
  intros p Hp. destruct (H p Hp) as [[U1 U2] [V1 V2]]. unfold ip_integrand. rewrite !fun_ones, U1, V1.
  rewrite !(inner_ones d nvs), !(inner_ones d nvn) by auto. lra.
Qed.
Print Assumptions c90_conservative.

(** The face seen from the other cell gives the same residuals. *)
Lemma ip_flip d P F p :
  (forall k, ip_An_s d P (flip_face F) (flip_point p) k = opp (ip_An_n d P F p) k) /\
  (forall k, ip_An_n d P (flip_face F) (flip_point p) k = opp (ip_An_s d P F p) k) /\
  ip_w_s d P (flip_face F) (flip_point p) = ip_w_n d P F p /\ ip_w_n d P (flip_face F) (flip_point p) = ip_w_s d P F p /\
  ip_gamma d P (flip_face F) (flip_point p) = ip_gamma d P F p.
Proof.
  assert (forall A v k, apply d A (opp v) k = opp (apply d A v) k) as EA.
  { intros. unfold apply, opp. rewrite <- rsum_opp. apply rsum_ext. intros; lra. }
  assert (ip_normal P (flip_face F) (flip_point p) = opp (ip_normal P F p)) as EN by (unfold ip_normal; destruct (dg_constA P); reflexivity).
  assert (forall k, ip_An_s d P (flip_face F) (flip_point p) k = opp (ip_An_n d P F p) k) as E1.
  { intros. unfold ip_An_s, ip_An_n. rewrite EN, EA. reflexivity. }
  assert (forall k, ip_An_n d P (flip_face F) (flip_point p) k = opp (ip_An_s d P F p) k) as E2.
  { intros. unfold ip_An_s, ip_An_n. rewrite EN, EA. reflexivity. }
  assert (ip_perm_s d P (flip_face F) (flip_point p) = ip_perm_n d P F p) as P1.
  { unfold ip_perm_s, ip_perm_n. rewrite (inner_ext d _ _ (opp (ip_An_n d P F p)) (opp (ip_normal P F p))); [rewrite inner_opp_l, inner_opp_r; lra | intros; apply E1 | intros; now rewrite EN]. }
  assert (ip_perm_n d P (flip_face F) (flip_point p) = ip_perm_s d P F p) as P2.
  { unfold ip_perm_s, ip_perm_n. rewrite (inner_ext d _ _ (opp (ip_An_s d P F p)) (opp (ip_normal P F p))); [rewrite inner_opp_l, inner_opp_r; lra | intros; apply E2 | intros; now rewrite EN]. }
  assert (ip_den d P (flip_face F) (flip_point p) = ip_den d P F p) as D by (unfold ip_den; rewrite P1, P2; lra).
  repeat split; auto.
  - unfold ip_w_s, ip_w_n. now rewrite P2, D.
  - unfold ip_w_s, ip_w_n. now rewrite P1, D.
  - unfold ip_gamma. rewrite P1, P2, D. cbn [flip_face vol_s vol_n vol_f order_s order_n]. rewrite (Rmin_comm (vol_n F)), (Nat.max_comm (order_n F)). destruct (dg_weights P); auto.
    do 4 f_equal. lra.
Qed.
Theorem c90_orientation : forall d nus nun nvs nvn P F pts xs xn r_s r_n i,
  let r := dg_alpha_skeleton d nus nun nvs nvn P F pts xs xn (r_s, r_n) in
  let q := dg_alpha_skeleton d nun nus nvn nvs P (flip_face F) (map flip_point pts) xn xs (r_n, r_s) in
  ((i < nvs)%nat -> snd q i = fst r i) /\ ((i < nvn)%nat -> fst q i = snd r i).
Proof.
  intros d nus nun nvs nvn P F pts xs xn r_s r_n i r q.
  destruct (sk_at d P F nus nun nvs nvn pts xs xn r_s r_n) as [A1 A2]. fold r in A1, A2.
  destruct (sk_at d P (flip_face F) nun nus nvn nvs (map flip_point pts) xn xs r_n r_s) as [B1 B2]. fold q in B1, B2.
  assert (forall (f : fpoint -> R), lsum f (map flip_point pts) = lsum (fun p => f (flip_point p)) pts) as L.
  { intros f. clear. induction pts as [|p pts IH]; cbn; [reflexivity|]. now rewrite IH. }
  assert (forall p us un gs gn, flux d P (flip_face F) (flip_point p) un us gn gs = - flux d P F p us un gs gn) as FL.
  { intros. rewrite !flux_eq. unfold ip_flux. destruct (ip_flip d P F p) as (E1 & E2 & -> & -> & ->).
    rewrite (inner_ext d (ip_An_s d P (flip_face F) (flip_point p)) gn (opp (ip_An_n d P F p)) gn) by auto.
    rewrite (inner_ext d (ip_An_n d P (flip_face F) (flip_point p)) gs (opp (ip_An_s d P F p)) gs) by auto. rewrite !inner_opp_l.
    cbn [flip_point f_b f_normal]. rewrite inner_opp_r. unfold upwind_flux.
    destruct (Rle_dec 0 (inner d (f_b p) (f_normal p))) as [H|H], (Rle_dec 0 (- inner d (f_b p) (f_normal p))) as [K|K]; try lra.
    assert (inner d (f_b p) (f_normal p) = 0) as -> by lra. lra. }
  split; intros Hi.
  - rewrite A1, B2, L by auto. f_equal. apply lsum_ext. intros p _. unfold sk_n, sk_s. cbv zeta.
    change (phi_s (flip_point p)) with (phi_n p). change (phi_n (flip_point p)) with (phi_s p).
    change (sG d (flip_point p)) with (nG d p). change (nG d (flip_point p)) with (sG d p).
    rewrite FL, An_s_eq, An_n_eq. destruct (coeffs_eq d P (flip_face F) (flip_point p)) as (_ & _ & _ & -> & _). destruct (coeffs_eq d P F p) as (_ & _ & -> & _ & _).
    destruct (ip_flip d P F p) as (_ & E2 & _ & -> & _).
    rewrite (inner_ext d (ip_An_n d P (flip_face F) (flip_point p)) _ (opp (ip_An_s d P F p)) (sGv d p i)) by auto. rewrite inner_opp_l.
    change (psi_n (flip_point p)) with (psi_s p). change (fac (flip_point p)) with (fac p). lra.
  - rewrite A2, B1, L by auto. f_equal. apply lsum_ext. intros p _. unfold sk_n, sk_s. cbv zeta.
    change (phi_s (flip_point p)) with (phi_n p). change (phi_n (flip_point p)) with (phi_s p).
    change (sG d (flip_point p)) with (nG d p). change (nG d (flip_point p)) with (sG d p).
    rewrite FL, An_s_eq, An_n_eq. destruct (coeffs_eq d P (flip_face F) (flip_point p)) as (_ & _ & -> & _ & _). destruct (coeffs_eq d P F p) as (_ & _ & _ & -> & _).
    destruct (ip_flip d P F p) as (E1 & _ & -> & _ & _).
    rewrite (inner_ext d (ip_An_s d P (flip_face F) (flip_point p)) _ (opp (ip_An_n d P F p)) (nGv d p i)) by auto. rewrite inner_opp_l.
    change (psi_s (flip_point p)) with (psi_n p). change (fac (flip_point p)) with (fac p). lra.
Qed.
Print Assumptions c90_orientation.

(** Without convection the symmetric method gives a symmetric matrix of the face. *)
Theorem c90_symmetric : forall d nus nun P F pts, dg_method P = SIPG -> (forall p, In p pts -> inner d (f_b p) (f_normal p) = 0) ->
  let '(ss, sn, ns, nn) := dg_jacobian_skeleton d nus nun P F pts (zerom, zerom, zerom, zerom) in
  symmetric nus ss /\ symmetric nun nn /\ forall i j, (i < nus)%nat -> (j < nun)%nat -> sn i j = ns j i.
Proof.
  intros d nus nun P F pts HP H. pose proof (jsk_at d P F nus nun pts zerom zerom zerom zerom) as J. cbv zeta in J.
  destruct (dg_jacobian_skeleton d nus nun P F pts (zerom, zerom, zerom, zerom)) as [[[ss sn] ns] nn]. unfold q1, q2, q3, q4 in J. cbn [fst snd] in J.
  destruct J as (J1 & J2 & J3 & J4). assert (theta P = -1) as T by (unfold theta; now rewrite HP).
  repeat split.
  - intros i j Hi Hj. rewrite !J1 by auto. f_equal. apply lsum_ext. intros p Hp. unfold j_ss. cbv zeta. unfold nflux. rewrite H, T by auto. lra.
  - intros i j Hi Hj. rewrite !J4 by auto. f_equal. apply lsum_ext. intros p Hp. unfold j_nn. cbv zeta. unfold nflux. rewrite H, T by auto. lra.
  - intros i j Hi Hj. rewrite J2, J3 by auto. f_equal. apply lsum_ext. intros p Hp. unfold j_sn, j_ns. cbv zeta. unfold nflux. rewrite H, T by auto. lra.
Qed.
Print Assumptions c90_symmetric.

(** The nonsymmetric method: energy of a face. Diffusion contributes the penalty term only, upwinding half of the squared jump. *)
Theorem c90_energy : forall d nus nun P F pts xs xn, dg_method P = NIPG ->
  (forall p, In p pts -> fgalerkin nus (phi_s p) (psi_s p) (js_s p) (jsv_s p) /\ fgalerkin nun (phi_n p) (psi_n p) (js_n p) (jsv_n p)) ->
  let r := dg_alpha_skeleton d nus nun nus nun P F pts xs xn (zerov, zerov) in
  rsum nus (fun i => xs i * fst r i) + rsum nun (fun i => xn i * snd r i) =
  lsum (fun p => let us := fun_at nus xs (phi_s p) in let un := fun_at nun xn (phi_n p) in let q := inner d (f_b p) (f_normal p) in
    (ip_gamma d P F p * (us - un) ^ 2 + / 2 * Rabs q * (us - un) ^ 2 + / 2 * q * (us ^ 2 - un ^ 2)) * (f_weight p * f_ie p)) pts.
Proof.
  intros d nus nun P F pts xs xn HP H r. unfold r. rewrite c90_weak_form, !rsum_zero, !Rplus_0_l. apply lsum_ext. intros p Hp. cbv zeta.
  destruct (H p Hp) as [G1 G2].
  assert (forall n (x phi psi : vec) js jsv, fgalerkin n phi psi js jsv -> fun_at n x psi = fun_at n x phi) as E1.
  { intros n x phi psi js jsv G. apply rsum_ext. intros i Hi. destruct (G i Hi) as [-> _]. reflexivity. }
  assert (forall n a (x phi psi : vec) J js jsv, fgalerkin n phi psi js jsv -> inner d a (grad_at n x (grads d J jsv)) = inner d a (grad_at n x (grads d J js))) as E2.
  { intros n a x phi psi J js jsv G. rewrite !inner_grad. apply rsum_ext. intros i Hi. f_equal. apply inner_ext; auto. intros. apply apply_ext. intros. now destruct (G i Hi) as [_ ->]. }
  unfold ip_integrand. rewrite (E1 nus xs _ _ _ _ G1), (E1 nun xn _ _ _ _ G2), !(E2 nus _ xs _ _ _ _ _ G1), !(E2 nun _ xn _ _ _ _ _ G2).
  assert (theta P = 1) as -> by (unfold theta; now rewrite HP). unfold ip_flux.
  set (us := fun_at nus xs (phi_s p)). set (un := fun_at nun xn (phi_n p)). set (q := inner d (f_b p) (f_normal p)).
  unfold upwind_flux. destruct (Rle_dec 0 q) as [Q|Q].
  - rewrite Rabs_pos_eq by auto. cbn [pow]. lra.
  - rewrite Rabs_left by lra. cbn [pow]. lra.
Qed.
Print Assumptions c90_energy.

(** Consistency: a function without jump whose normal diffusive flux agrees on both sides feels neither penalty nor method.
    Both residuals are the exact flux, when averages are not weighted with the permeability. *)
Theorem c90_consistent_partial : forall d nus nun nvs nvn P F pts xs xn, dg_weights P = false ->
  (forall p, In p pts -> fun_at nus xs (phi_s p) = fun_at nun xn (phi_n p) /\
     inner d (ip_An_s d P F p) (grad_at nus xs (grads d (jac_s p) (js_s p))) = inner d (ip_An_n d P F p) (grad_at nun xn (grads d (jac_n p) (js_n p)))) ->
  let r := dg_alpha_skeleton d nus nun nvs nvn P F pts xs xn (zerov, zerov) in
  let exact := fun p => inner d (f_b p) (f_normal p) * fun_at nus xs (phi_s p) - inner d (ip_An_s d P F p) (grad_at nus xs (grads d (jac_s p) (js_s p))) in
  (forall i, (i < nvs)%nat -> fst r i = lsum (fun p => exact p * psi_s p i * (f_weight p * f_ie p)) pts) /\
  (forall i, (i < nvn)%nat -> snd r i = lsum (fun p => - exact p * psi_n p i * (f_weight p * f_ie p)) pts).
Proof.
  intros d nus nun nvs nvn P F pts xs xn W H r exact. destruct (sk_at d P F nus nun nvs nvn pts xs xn zerov zerov) as [A1 A2]. fold r in A1, A2.
  assert (forall p, In p pts -> flux d P F p (fun_at nus xs (phi_s p)) (fun_at nun xn (phi_n p)) (grad_at nus xs (sG d p)) (grad_at nun xn (nG d p)) = exact p) as E.
  { intros p Hp. destruct (H p Hp) as [H1 H2]. rewrite flux_eq. unfold ip_flux, ip_w_s, ip_w_n, exact. rewrite W. unfold sG, nG. rewrite <- H2, <- H1.
    unfold upwind_flux. destruct (Rle_dec 0 (inner d (f_b p) (f_normal p))); lra. }
  split; intros i Hi.
  - rewrite A1 by auto. unfold zerov at 1. rewrite Rplus_0_l. apply lsum_ext. intros p Hp. unfold sk_s. cbv zeta. rewrite E by auto.
    destruct (H p Hp) as [-> _]. unfold fac. lra.
  - rewrite A2 by auto. unfold zerov at 1. rewrite Rplus_0_l. apply lsum_ext. intros p Hp. unfold sk_n. cbv zeta. rewrite E by auto.
    destruct (H p Hp) as [-> _]. unfold fac. lra.
Qed.
Print Assumptions c90_consistent_partial.

(** With weights, the average of the diffusive flux is too small by the factor (ks + kn) / (ks + kn + 1e-20) for the normal permeabilities ks and kn. *)
Theorem c90_weighted : forall d nus nun nvs nvn P F pts xs xn, dg_weights P = true ->
  (forall p, In p pts -> fun_at nus xs (phi_s p) = fun_at nun xn (phi_n p) /\
     inner d (ip_An_s d P F p) (grad_at nus xs (grads d (jac_s p) (js_s p))) = inner d (ip_An_n d P F p) (grad_at nun xn (grads d (jac_n p) (js_n p)))) ->
  let r := dg_alpha_skeleton d nus nun nvs nvn P F pts xs xn (zerov, zerov) in
  forall i, (i < nvs)%nat -> fst r i = lsum (fun p =>
    (inner d (f_b p) (f_normal p) * fun_at nus xs (phi_s p)
     - (ip_perm_s d P F p + ip_perm_n d P F p) / (ip_perm_s d P F p + ip_perm_n d P F p + eps) * inner d (ip_An_s d P F p) (grad_at nus xs (grads d (jac_s p) (js_s p))))
    * psi_s p i * (f_weight p * f_ie p)) pts.
Proof.
  intros d nus nun nvs nvn P F pts xs xn W H r i Hi. destruct (sk_at d P F nus nun nvs nvn pts xs xn zerov zerov) as [A1 A2]. fold r in A1, A2.
  rewrite A1 by auto. unfold zerov at 1. rewrite Rplus_0_l. apply lsum_ext. intros p Hp. unfold sk_s. cbv zeta. rewrite flux_eq.
  destruct (H p Hp) as [H1 H2]. unfold ip_flux, ip_w_s, ip_w_n. rewrite W. unfold sG, nG. rewrite <- H2, <- H1. unfold fac, ip_den.
  unfold upwind_flux, Rdiv. destruct (Rle_dec 0 (inner d (f_b p) (f_normal p))); lra.
Qed.
Print Assumptions c90_weighted.

(** The function x in two cells meeting at 0, with the permeability eps / 2 in both: half of the flux is lost. *)
Definition ex_lin (A : mat) : fpoint := mkfp 1 1 one_v zerov zerov one_v one_v (fun _ => one_v) (fun _ => one_v) (fun _ => zerov) (fun _ => zerov)
  one_m one_m A A zerov NoBC 0 0 0.
Definition ex_face (A : mat) : face := mkface one_v 1 1 1 A A 1 1.
Definition ex_A : mat := fun _ _ => eps / 2.
Theorem c90_consistent_refuted : exists d n P F p x, dg_weights P = true /\ 0 < dg_alpha P /\
  fun_at n x (phi_s p) = fun_at n x (phi_n p) /\
  inner d (ip_An_s d P F p) (grad_at n x (grads d (jac_s p) (js_s p))) = inner d (ip_An_n d P F p) (grad_at n x (grads d (jac_n p) (js_n p))) /\
  0 < ip_perm_s d P F p /\ 0 < ip_perm_n d P F p /\
  let exact := (inner d (f_b p) (f_normal p) * fun_at n x (phi_s p) - inner d (ip_An_s d P F p) (grad_at n x (grads d (jac_s p) (js_s p)))) * psi_s p 0%nat * (f_weight p * f_ie p) in
  exact <> 0 /\ fst (dg_alpha_skeleton d n n n n P F [p] x x (zerov, zerov)) 0%nat = exact / 2.
Proof.
  exists 1%nat, 1%nat, (mkdg NIPG true 1 false), (ex_face ex_A), (ex_lin ex_A), one_v.
  assert (0 < eps) as E by (apply Rinv_0_lt_compat, pow_lt; lra).
  assert (ip_perm_s 1 (mkdg NIPG true 1 false) (ex_face ex_A) (ex_lin ex_A) = eps / 2) as P1 by (unfold ip_perm_s, inner, ip_An_s, apply, ip_normal; cbn; unfold one_v, ex_A; lra).
  assert (ip_perm_n 1 (mkdg NIPG true 1 false) (ex_face ex_A) (ex_lin ex_A) = eps / 2) as P2 by (unfold ip_perm_n, inner, ip_An_n, apply, ip_normal; cbn; unfold one_v, ex_A; lra).
  assert (inner 1 (ip_An_s 1 (mkdg NIPG true 1 false) (ex_face ex_A) (ex_lin ex_A)) (grad_at 1 one_v (grads 1 (jac_s (ex_lin ex_A)) (js_s (ex_lin ex_A)))) = eps / 2) as F1
    by (unfold inner, ip_An_s, apply, ip_normal, grad_at, grads, apply; cbn; unfold one_v, one_m, ex_A; lra).
  assert (inner 1 (ip_An_n 1 (mkdg NIPG true 1 false) (ex_face ex_A) (ex_lin ex_A)) (grad_at 1 one_v (grads 1 (jac_n (ex_lin ex_A)) (js_n (ex_lin ex_A)))) = eps / 2) as F2
    by (unfold inner, ip_An_n, apply, ip_normal, grad_at, grads, apply; cbn; unfold one_v, one_m, ex_A; lra).
  split; [reflexivity|]. split; [cbn; lra|]. split; [reflexivity|]. split; [now rewrite F1, F2|]. rewrite P1, P2. split; [lra|]. split; [lra|].
  cbv zeta. rewrite F1.
  assert (inner 1 (f_b (ex_lin ex_A)) (f_normal (ex_lin ex_A)) = 0) as B by (unfold inner; cbn; unfold zerov, one_v; lra).
  rewrite B. change (psi_s (ex_lin ex_A) 0%nat) with 1. change (f_weight (ex_lin ex_A)) with 1. change (f_ie (ex_lin ex_A)) with 1. split; [lra|].
  rewrite c90_weighted; [| reflexivity | intros p [<-|[]]; split; [reflexivity | now rewrite F1, F2] | lia].
  cbn [lsum]. rewrite P1, P2, F1, B. change (psi_s (ex_lin ex_A) 0%nat) with 1. change (f_weight (ex_lin ex_A)) with 1. change (f_ie (ex_lin ex_A)) with 1. field. lra.
Qed.
Print Assumptions c90_consistent_refuted.
Example c90_case : unity 1 (psi_s (ex_lin one_m)) (jsv_s (ex_lin one_m)) /\ fun_at 1 one_v (phi_s (ex_lin one_m)) = fun_at 1 one_v (phi_n (ex_lin one_m)) /\
  inner 1 (ip_An_s 1 (mkdg NIPG false 1 false) (ex_face one_m) (ex_lin one_m)) (grad_at 1 one_v (grads 1 (jac_s (ex_lin one_m)) (js_s (ex_lin one_m)))) =
  inner 1 (ip_An_n 1 (mkdg NIPG false 1 false) (ex_face one_m) (ex_lin one_m)) (grad_at 1 one_v (grads 1 (jac_n (ex_lin one_m)) (js_n (ex_lin one_m)))).
Proof. repeat split; cbn; unfold one_v, zerov; intros; cbn; lra. Qed.

(** ** C91: boundary faces of the discontinuous operator *)
(** Tested with any coefficient vector, the residual is the weak boundary form; an outflow point where the flow enters is an exception. *)
Theorem c91_weak_form : forall d nu nv P F pts x y r,
  (Exists (inflow d) pts <-> dg_residual_boundary d nu nv P F pts x false r = Throw) /\
  (~ Exists (inflow d) pts -> exists r', dg_residual_boundary d nu nv P F pts x false r = Ok r' /\
     rsum nv (fun i => y i * r' i) = rsum nv (fun i => y i * r i) + lsum (fun p =>
       ipb_integrand d P F p (fun_at nu x (phi_s p)) (grad_at nu x (grads d (jac_s p) (js_s p))) (fun_at nv y (psi_s p)) (grad_at nv y (grads d (jac_s p) (jsv_s p)))
       * (f_weight p * f_ie p)) pts).
Proof.
  intros d nu nv P F pts x y r. destruct (bd_at d P F nu nv false pts x r) as [A1 A2]. split; [split; [exact A1|]|].
  - intros E. destruct (Exists_dec (inflow d) pts) as [H|H]; [|exact H|].
    + intros p. destruct (f_bc p) eqn:B; try (right; intros [? ?]; congruence).
      destruct (Rlt_dec (inner d (f_b p) (f_normal p)) (- eps')); [left; now split | right; intros [? ?]; contradiction].
    + destruct (A2 H) as (r' & E' & _). congruence.
  - intros H. destruct (A2 H) as (r' & E' & V). exists r'. split; [exact E'|].
    rewrite (rsum_ext nv _ (fun i => y i * r i + lsum (fun p => y i * bd_val d P F false nu p x i) pts)) by (intros; rewrite V, lsum_scal by auto; lra).
    rewrite rsum_plus, rsum_lsum. f_equal. apply lsum_ext. intros p _. rewrite bd_form. reflexivity.
Qed.
Print Assumptions c91_weak_form.

(** A function that takes the Dirichlet values feels neither penalty nor method: the residual is its exact flux. *)
Theorem c91_consistent : forall d nu nv P F pts x r,
  (forall p, In p pts -> f_bc p = Dirichlet /\ fun_at nu x (phi_s p) = f_g p) ->
  exists r', dg_residual_boundary d nu nv P F pts x false r = Ok r' /\
  forall i, (i < nv)%nat -> r' i = r i + lsum (fun p =>
    (inner d (f_b p) (f_normal p) * f_g p - inner d (ip_An_s d P F p) (grad_at nu x (grads d (jac_s p) (js_s p)))) * psi_s p i * (f_weight p * f_ie p)) pts.
Proof.
  intros d nu nv P F pts x r H. destruct (bd_at d P F nu nv false pts x r) as [_ A2].
  destruct A2 as (r' & E & V). { intros HE. apply Exists_exists in HE. destruct HE as (p & Hp & B & _). destruct (H p Hp). congruence. }
  exists r'. split; [exact E|]. intros i Hi. rewrite V by auto. f_equal. apply lsum_ext. intros p Hp. destruct (H p Hp) as [B G].
  unfold bd_val, ipb_integrand. cbn [data]. rewrite B, G. unfold upwind_flux, fac. fold (sG d p). destruct (Rle_dec 0 (inner d (f_b p) (f_normal p))); lra.
Qed.
Print Assumptions c91_consistent.

(** Dirichlet boundary without convection: the symmetric method gives a symmetric matrix, and the nonsymmetric one a boundary energy
    of the penalty term only, for homogeneous values. *)
Theorem c91_symmetric : forall d n P F pts, dg_method P = SIPG -> (forall p, In p pts -> f_bc p = Dirichlet /\ inner d (f_b p) (f_normal p) = 0) ->
  exists M, dg_jacobian_boundary d n P F pts zerom = Ok M /\ symmetric n M.
Proof.
  intros d n P F pts HP H. destruct (bj_at d P F n pts zerom) as [_ A]. 
  destruct A as (M & E & V). { intros HE. apply Exists_exists in HE. destruct HE as (p & Hp & B & _). destruct (H p Hp). congruence. }
  exists M. split; [exact E|]. intros i j Hi Hj. rewrite !V by auto. f_equal. apply lsum_ext. intros p Hp. destruct (H p Hp) as [B N].
  unfold bd_jval. rewrite B. unfold nflux. rewrite N. cbv zeta. assert (theta P = -1) as -> by (unfold theta; now rewrite HP).
  unfold upwind_flux. destruct (Rle_dec 0 0); lra.
Qed.
Print Assumptions c91_symmetric.
Theorem c91_energy : forall d n P F pts x, dg_method P = NIPG ->
  (forall p, In p pts -> f_bc p = Dirichlet /\ f_g p = 0 /\ fgalerkin n (phi_s p) (psi_s p) (js_s p) (jsv_s p)) ->
  exists r, dg_residual_boundary d n n P F pts x false zerov = Ok r /\
  rsum n (fun i => x i * r i) = lsum (fun p => (ipb_gamma d P F p + Rmax 0 (inner d (f_b p) (f_normal p))) * fun_at n x (phi_s p) ^ 2 * (f_weight p * f_ie p)) pts.
Proof.
  intros d n P F pts x HP H. destruct (c91_weak_form d n n P F pts x x zerov) as [_ A].
  destruct A as (r & E & V). { intros HE. apply Exists_exists in HE. destruct HE as (p & Hp & B & _). destruct (H p Hp). congruence. }
  exists r. split; [exact E|]. rewrite V, rsum_zero, Rplus_0_l. apply lsum_ext. intros p Hp. destruct (H p Hp) as (B & G0 & G).
  unfold ipb_integrand. rewrite B, G0. assert (theta P = 1) as -> by (unfold theta; now rewrite HP).
  assert (fun_at n x (psi_s p) = fun_at n x (phi_s p)) as ->. { apply rsum_ext. intros i Hi. destruct (G i Hi) as [-> _]. reflexivity. }
  assert (inner d (ip_An_s d P F p) (grad_at n x (grads d (jac_s p) (jsv_s p))) = inner d (ip_An_s d P F p) (grad_at n x (grads d (jac_s p) (js_s p)))) as ->.
  { rewrite !inner_grad. apply rsum_ext. intros i Hi. f_equal. apply inner_ext; auto. intros. apply apply_ext. intros. now destruct (G i Hi) as [_ ->]. }
  unfold upwind_flux. destruct (Rle_dec 0 (inner d (f_b p) (f_normal p))) as [Q|Q]; [rewrite Rmax_right by lra | rewrite Rmax_left by lra]; cbn [pow]; lra.
Qed.
Print Assumptions c91_energy.
Example c91_case : f_bc (ex_fp Dirichlet) = Dirichlet /\ f_g (ex_fp Dirichlet) = 0 /\ fun_at 1 zerov (phi_s (ex_fp Dirichlet)) = f_g (ex_fp Dirichlet) /\
  fgalerkin 1 (phi_s (ex_fp Dirichlet)) (psi_s (ex_fp Dirichlet)) (js_s (ex_fp Dirichlet)) (jsv_s (ex_fp Dirichlet)).
Proof. repeat split; auto. cbn. unfold zerov. lra. Qed.
