(** Closed formulas for the convection-diffusion operators and exactness of the Jacobians. *)
From Verif Require Import Common CommonFacts CdModel CdSpec CdProofs.
From Coq Require Import Reals Lra Lia.
Open Scope R_scope.

Ltac ltbs := repeat match goal with H : (?k < ?n)%nat |- context [(?k <? ?n)%nat] => assert ((k <? n)%nat = true) as -> by (apply Nat.ltb_lt; exact H) end; cbn [andb].

(** From points to sums *)
Lemma derivative_points {P} n m (M : mat) (r : vec -> vec) (r0 : vec) (pts : list P) (val : P -> vec -> nat -> R) (jval : P -> nat -> nat -> R) :
  (forall x i, (i < m)%nat -> r x i = r0 i + lsum (fun p => val p x i) pts) ->
  (forall i j, (i < m)%nat -> (j < n)%nat -> M i j = lsum (fun p => jval p i j) pts) ->
  (forall p x y i, In p pts -> (i < m)%nat -> val p (plusv x y) i = val p x i + rsum n (fun j => jval p i j * y j)) ->
  derivative n m M r.
Proof.
  intros Hr HM Hv x y i Hi. rewrite !Hr by auto.
  rewrite (lsum_ext _ (fun p => val p x i + rsum n (fun j => jval p i j * y j))) by (intros; apply Hv; auto).
  rewrite lsum_plus, <- rsum_lsum. rewrite <- Rplus_assoc. f_equal. apply rsum_ext. intros j Hj. rewrite HM by auto.
  transitivity (y j * lsum (fun p => jval p i j) pts); [|lra]. rewrite <- lsum_scal. apply lsum_ext. intros; lra.
Qed.

(** ** Volume *)
Section volume.
  Variables (d : nat) (constA : bool) (Ac : mat).
  Definition vG (p : vpoint) := grads d (v_jac p) (v_js p).
  Definition vGv (p : vpoint) := grads d (v_jac p) (v_jsv p).
  Definition vT (p : vpoint) := v_tensor constA Ac p.
  Definition fem_val n p x i := (inner d (apply d (vT p) (grad_at n x (vG p))) (vG p i) - fun_at n x (v_phi p) * inner d (v_b p) (vG p i)
    + (v_c p * fun_at n x (v_phi p) - v_f p) * v_phi p i) * (v_weight p * v_ie p).
  Definition fem_jval p i j := (inner d (apply d (vT p) (vG p j)) (vG p i) - v_phi p j * inner d (v_b p) (vG p i) + v_c p * v_phi p j * v_phi p i) * (v_weight p * v_ie p).
  Definition dg_val n p x i := (inner d (apply d (vT p) (grad_at n x (vG p))) (vGv p i) - fun_at n x (v_phi p) * inner d (v_b p) (vGv p i)
    + v_c p * fun_at n x (v_phi p) * v_psi p i) * (v_weight p * v_ie p).

  Lemma fem_alpha_at n pts x r i : (i < n)%nat -> fem_alpha_volume d n constA Ac pts x r i = r i + lsum (fun p => fem_val n p x i) pts.
  Proof.
    unfold fem_alpha_volume. revert r i. apply (fold_acc _ (fun p i => fem_val n p x i)). clear. intros r p k Hk. cbv zeta. rewrite loop_acc. ltbs.
    rewrite dot_mv_eval, (dot_grads d (v_b p)), eval_u_sum. unfold fem_val, vG, vT.
    rewrite (inner_ext d _ (mv d (v_jac p) (v_js p k)) _ (grads d (v_jac p) (v_js p) k) (fun _ _ => eq_refl) (fun l _ => grads_mv _ _ _ _ l)). reflexivity.
  Qed.
  Lemma dg_alpha_at nu nv pts x r i : (i < nv)%nat -> dg_alpha_volume d nu nv constA Ac pts x r i = r i + lsum (fun p => dg_val nu p x i) pts.
  Proof.
    unfold dg_alpha_volume. revert r i. apply (fold_acc _ (fun p i => dg_val nu p x i)). clear. intros r p k Hk. cbv zeta. rewrite loop_acc. ltbs.
    rewrite dot_mv_eval, (dot_grads d (v_b p)), eval_u_sum. unfold dg_val, vG, vGv, vT.
    rewrite (inner_ext d _ (mv d (v_jac p) (v_jsv p k)) _ (grads d (v_jac p) (v_jsv p) k) (fun _ _ => eq_refl) (fun l _ => grads_mv _ _ _ _ l)). reflexivity.
  Qed.
  Lemma fem_jac_at n pts m i j : (i < n)%nat -> (j < n)%nat -> fem_jacobian_volume d n constA Ac pts m i j = m i j + lsum (fun p => fem_jval p i j) pts.
  Proof.
    unfold fem_jacobian_volume. intros Hi Hj. apply (fold_macc _ fem_jval pts n n); auto. clear. intros m p k l Hk Hl. cbv zeta.
    rewrite (loop_macc n n _ (fun i j => fem_jval p i j)); [now ltbs|].
    clear. intros i j m k l. rewrite macc_at. destruct ((k =? i) && (l =? j))%nat; [|reflexivity]. f_equal. unfold fem_jval, vG, vT. 
    rewrite (dot_grads d (v_b p)). rewrite <- dot_mv_grads. f_equal. f_equal. f_equal. rewrite !dot_sum. apply inner_ext; auto. intros; apply mv_sum.
  Qed.
  Lemma fem_val_plus n p x y i : fem_val n p (plusv x y) i = fem_val n p x i + rsum n (fun j => fem_jval p i j * y j).
  Proof.
    unfold fem_val, fem_jval. rewrite inner_apply_plus, fun_plus.
    rewrite (rsum_ext n _ (fun j => (y j * inner d (apply d (vT p) (vG p j)) (vG p i)) * (v_weight p * v_ie p)
      + (y j * v_phi p j) * ((v_c p * v_phi p i - inner d (v_b p) (vG p i)) * (v_weight p * v_ie p)))) by (intros; lra).
    rewrite rsum_plus, !rsum_scal_r, <- inner_apply_grad. fold (fun_at n y (v_phi p)). lra.
  Qed.
  Lemma galerkin_val n p x i : galerkin n n p -> (i < n)%nat -> dg_val n p x i = fem_val n p x i + v_f p * v_phi p i * (v_weight p * v_ie p).
  Proof.
    intros (_ & H) Hi. destruct (H i Hi) as [E1 E2]. unfold dg_val, fem_val. rewrite E1.
    assert (forall k, vGv p i k = vG p i k) as E by (intros k; unfold vGv, vG, grads; apply apply_ext; intros; apply E2).
    rewrite (inner_ext d _ (vGv p i) _ (vG p i) (fun _ _ => eq_refl) (fun k _ => E k)).
    rewrite (inner_ext d (v_b p) (vGv p i) _ (vG p i) (fun _ _ => eq_refl) (fun k _ => E k)). lra.
  Qed.
  (** Tested with the function y *)
  Lemma fem_val_form n p x y : rsum n (fun i => y i * fem_val n p x i) =
    (inner d (apply d (vT p) (grad_at n x (vG p))) (grad_at n y (vG p)) - fun_at n x (v_phi p) * inner d (v_b p) (grad_at n y (vG p))
      + (v_c p * fun_at n x (v_phi p) - v_f p) * fun_at n y (v_phi p)) * (v_weight p * v_ie p).
  Proof.
    rewrite !inner_grad. unfold fem_val. set (u := fun_at n x (v_phi p)). unfold fun_at.
    rewrite <- (rsum_scal n u), <- (rsum_scal n (v_c p * u - _)), <- rsum_minus, <- rsum_plus, <- rsum_scal_r.
    apply rsum_ext. intros. cbv beta. lra.
  Qed.
  Lemma dg_val_form nu nv p x y : rsum nv (fun i => y i * dg_val nu p x i) =
    (inner d (apply d (vT p) (grad_at nu x (vG p))) (grad_at nv y (vGv p)) - fun_at nu x (v_phi p) * inner d (v_b p) (grad_at nv y (vGv p))
      + v_c p * fun_at nu x (v_phi p) * fun_at nv y (v_psi p)) * (v_weight p * v_ie p).
  Proof.
    rewrite !inner_grad. unfold dg_val. set (u := fun_at nu x (v_phi p)). unfold fun_at.
    rewrite <- (rsum_scal nv u), <- (rsum_scal nv (v_c p * u)), <- rsum_minus, <- rsum_plus, <- rsum_scal_r.
    apply rsum_ext. intros. cbv beta. lra.
  Qed.
End volume.

(** ** FEM boundary *)
Definition femb_val d n bctype p x i := match bctype with
  | Neumann => f_j p * phi_s p i * (f_weight p * f_ie p)
  | Outflow => (inner d (f_b p) (f_normal p) * fun_at n x (phi_s p) + f_o p) * phi_s p i * (f_weight p * f_ie p)
  | _ => 0 end.
Definition femb_jval d bctype p i j := match bctype with
  | Outflow | NoBC => inner d (f_b p) (f_normal p) * phi_s p j * phi_s p i * (f_weight p * f_ie p)
  | _ => 0 end.
Lemma femb_at d n bctype pts x r i : (i < n)%nat -> fem_alpha_boundary d n bctype pts x r i = r i + lsum (fun p => femb_val d n bctype p x i) pts.
Proof.
  intros Hi. destruct bctype; cbn [fem_alpha_boundary femb_val].
  - rewrite lsum_0. lra.
  - revert r i Hi. apply (fold_acc _ (fun p i => femb_val d n Neumann p x i)). intros r p k Hk. cbv zeta. rewrite loop_acc. now ltbs.
  - revert r i Hi. apply (fold_acc _ (fun p i => femb_val d n Outflow p x i)). intros r p k Hk. cbv zeta. rewrite loop_acc. ltbs. now rewrite dot_sum, eval_u_sum.
  - revert r i Hi. apply (fold_acc _ (fun p i => femb_val d n NoBC p x i)). intros r p k Hk. cbv zeta. cbn [femb_val]. lra.
Qed.
Lemma femb_jac_at d n bctype pts m i j : (i < n)%nat -> (j < n)%nat -> fem_jacobian_boundary d n bctype pts m i j = m i j + lsum (fun p => femb_jval d bctype p i j) pts.
Proof.
  intros Hi Hj. 
  assert (forall q, fold_left (fun m p => loop n (fun j m => loop n (fun i m => macc m i j (dot d (f_b p) (f_normal p) * phi_s p j * phi_s p i * (f_weight p * f_ie p))) m) m) q m i j
    = m i j + lsum (fun p => inner d (f_b p) (f_normal p) * phi_s p j * phi_s p i * (f_weight p * f_ie p)) q) as H.
  { intros q. apply (fold_macc _ (fun p i j => inner d (f_b p) (f_normal p) * phi_s p j * phi_s p i * (f_weight p * f_ie p)) q n n); auto.
    clear. intros m p k l Hk Hl. rewrite (loop_macc n n _ (fun i j => inner d (f_b p) (f_normal p) * phi_s p j * phi_s p i * (f_weight p * f_ie p))); [now ltbs|].
    clear. intros i j m k l. rewrite macc_at, dot_sum. reflexivity. }
  destruct bctype; cbn [fem_jacobian_boundary femb_jval]; try (rewrite lsum_0; lra); apply H.
Qed.
Lemma femb_plus d n bctype p x y i : bctype <> NoBC -> femb_val d n bctype p (plusv x y) i = femb_val d n bctype p x i + rsum n (fun j => femb_jval d bctype p i j * y j).
Proof.
  intros H. destruct bctype; cbn [femb_val femb_jval]; try contradiction.
  - rewrite (rsum_ext n _ (fun _ => 0)) by (intros; lra). rewrite rsum_0. lra.
  - rewrite (rsum_ext n _ (fun _ => 0)) by (intros; lra). rewrite rsum_0. lra.
  - rewrite (rsum_ext n _ (fun j => y j * phi_s p j * (inner d (f_b p) (f_normal p) * phi_s p i * (f_weight p * f_ie p)))) by (intros; lra).
    rewrite rsum_scal_r. fold (fun_at n y (phi_s p)). rewrite fun_plus. lra.
Qed.

(** ** DG faces *)
Section skeleton.
  Variables (d : nat) (P : dgparam) (F : face).
  Definition sG (p : fpoint) := grads d (jac_s p) (js_s p).
  Definition nG (p : fpoint) := grads d (jac_n p) (js_n p).
  Definition sGv (p : fpoint) := grads d (jac_s p) (jsv_s p).
  Definition nGv (p : fpoint) := grads d (jac_n p) (jsv_n p).
  Definition nflux (p : fpoint) := inner d (f_b p) (f_normal p).
  Definition fac (p : fpoint) := f_weight p * f_ie p.
  (** numerical flux and jump *)
  Definition flux (p : fpoint) (us un : R) (gs gn : vec) :=
    let C := coeffs d P F p in
    (fst (upwind (nflux p)) * us + snd (upwind (nflux p)) * un) * nflux p - (omega_s C * inner d (An_s C) gs + omega_n C * inner d (An_n C) gn) + penalty C * (us - un).
  Definition sk_s nus nun p xs xn i :=
    let C := coeffs d P F p in
    let us := fun_at nus xs (phi_s p) in let un := fun_at nun xn (phi_n p) in
    (flux p us un (grad_at nus xs (sG p)) (grad_at nun xn (nG p)) * psi_s p i
     + theta P * (us - un) * omega_s C * inner d (An_s C) (sGv p i)) * fac p.
  Definition sk_n nus nun p xs xn i :=
    let C := coeffs d P F p in
    let us := fun_at nus xs (phi_s p) in let un := fun_at nun xn (phi_n p) in
    (- flux p us un (grad_at nus xs (sG p)) (grad_at nun xn (nG p)) * psi_n p i
     + theta P * (us - un) * omega_n C * inner d (An_n C) (nGv p i)) * fac p.
  Definition j_ss p i j := let C := coeffs d P F p in
    ((fst (upwind (nflux p)) * phi_s p j * nflux p - omega_s C * inner d (An_s C) (sG p j) + penalty C * phi_s p j) * phi_s p i
     + theta P * phi_s p j * omega_s C * inner d (An_s C) (sG p i)) * fac p.
  Definition j_sn p i j := let C := coeffs d P F p in
    ((snd (upwind (nflux p)) * phi_n p j * nflux p - omega_n C * inner d (An_n C) (nG p j) - penalty C * phi_n p j) * phi_s p i
     - theta P * phi_n p j * omega_s C * inner d (An_s C) (sG p i)) * fac p.
  Definition j_ns p i j := let C := coeffs d P F p in
    (- (fst (upwind (nflux p)) * phi_s p j * nflux p - omega_s C * inner d (An_s C) (sG p j) + penalty C * phi_s p j) * phi_n p i
     + theta P * phi_s p j * omega_n C * inner d (An_n C) (nG p i)) * fac p.
  Definition j_nn p i j := let C := coeffs d P F p in
    (- (snd (upwind (nflux p)) * phi_n p j * nflux p - omega_n C * inner d (An_n C) (nG p j) - penalty C * phi_n p j) * phi_n p i
     - theta P * phi_n p j * omega_n C * inner d (An_n C) (nG p i)) * fac p.

  Lemma sk_at nus nun nvs nvn pts xs xn r_s r_n :
    (forall i, (i < nvs)%nat -> fst (dg_alpha_skeleton d nus nun nvs nvn P F pts xs xn (r_s, r_n)) i = r_s i + lsum (fun p => sk_s nus nun p xs xn i) pts) /\
    (forall i, (i < nvn)%nat -> snd (dg_alpha_skeleton d nus nun nvs nvn P F pts xs xn (r_s, r_n)) i = r_n i + lsum (fun p => sk_n nus nun p xs xn i) pts).
  Proof.
    revert r_s r_n. induction pts as [|p pts IH]; intros r_s r_n; [split; intros; cbn; lra|].
    change (dg_alpha_skeleton d nus nun nvs nvn P F (p :: pts) xs xn (r_s, r_n)) with
      (dg_alpha_skeleton d nus nun nvs nvn P F pts xs xn (dg_alpha_skeleton d nus nun nvs nvn P F [p] xs xn (r_s, r_n))).
    assert ((forall i, (i < nvs)%nat -> fst (dg_alpha_skeleton d nus nun nvs nvn P F [p] xs xn (r_s, r_n)) i = r_s i + sk_s nus nun p xs xn i) /\
            (forall i, (i < nvn)%nat -> snd (dg_alpha_skeleton d nus nun nvs nvn P F [p] xs xn (r_s, r_n)) i = r_n i + sk_n nus nun p xs xn i)) as (H1 & H2).
    { unfold dg_alpha_skeleton. cbn [fold_left]. unfold sk_s, sk_n, flux. cbv zeta.
      rewrite (surjective_pairing (upwind (dot d (f_b p) (f_normal p)))). cbn [fst snd]. rewrite !(dot_sum d (f_b p) (f_normal p)). fold (nflux p).
      rewrite !dot_eval, !eval_u_sum.
      split; intros i Hi; rewrite !loop_acc; ltbs; rewrite !dot_grads; fold (sG p) (nG p) (sGv p) (nGv p) (fac p); lra. }
    destruct (dg_alpha_skeleton d nus nun nvs nvn P F [p] xs xn (r_s, r_n)) as [a b]. cbn [fst snd] in H1, H2.
    destruct (IH a b) as (I1 & I2). split; intros i Hi; cbn [lsum].
    - rewrite I1, H1 by auto. lra.
    - rewrite I2, H2 by auto. lra.
  Qed.

  Definition q1 {A B C D} (x : A * B * C * D) : A := fst (fst (fst x)).
  Definition q2 {A B C D} (x : A * B * C * D) : B := snd (fst (fst x)).
  Definition q3 {A B C D} (x : A * B * C * D) : C := snd (fst x).
  Definition q4 {A B C D} (x : A * B * C * D) : D := snd x.

  Lemma jsk_at nus nun pts ss sn ns nn :
    let J := dg_jacobian_skeleton d nus nun P F pts (ss, sn, ns, nn) in
    (forall i j, (i < nus)%nat -> (j < nus)%nat -> q1 J i j = ss i j + lsum (fun p => j_ss p i j) pts) /\
    (forall i j, (i < nus)%nat -> (j < nun)%nat -> q2 J i j = sn i j + lsum (fun p => j_sn p i j) pts) /\
    (forall i j, (i < nun)%nat -> (j < nus)%nat -> q3 J i j = ns i j + lsum (fun p => j_ns p i j) pts) /\
    (forall i j, (i < nun)%nat -> (j < nun)%nat -> q4 J i j = nn i j + lsum (fun p => j_nn p i j) pts).
  Proof.
    revert ss sn ns nn. induction pts as [|p pts IH]; intros ss sn ns nn; [cbn; repeat split; intros; lra|].
    cbv zeta. change (dg_jacobian_skeleton d nus nun P F (p :: pts) (ss, sn, ns, nn)) with
      (dg_jacobian_skeleton d nus nun P F pts (dg_jacobian_skeleton d nus nun P F [p] (ss, sn, ns, nn))).
    assert (let J := dg_jacobian_skeleton d nus nun P F [p] (ss, sn, ns, nn) in
      (forall i j, (i < nus)%nat -> (j < nus)%nat -> q1 J i j = ss i j + j_ss p i j) /\
      (forall i j, (i < nus)%nat -> (j < nun)%nat -> q2 J i j = sn i j + j_sn p i j) /\
      (forall i j, (i < nun)%nat -> (j < nus)%nat -> q3 J i j = ns i j + j_ns p i j) /\
      (forall i j, (i < nun)%nat -> (j < nun)%nat -> q4 J i j = nn i j + j_nn p i j)) as H.
    { unfold dg_jacobian_skeleton. cbn [fold_left]. cbv zeta.
      rewrite (surjective_pairing (upwind (dot d (f_b p) (f_normal p)))). unfold q1, q2, q3, q4. cbn [fst snd].
      repeat split; intros k l Hk Hl.
      - rewrite (loop_macc nus nus _ (j_ss p)); [now ltbs|]. clear. intros i j m k l. rewrite !macc_at.
        destruct ((k =? i) && (l =? j))%nat; [|lra]. unfold j_ss. cbv zeta. rewrite !dot_grads, !dot_sum. fold (sG p) (nG p) (fac p) (nflux p). lra.
      - rewrite (loop_macc nun nus _ (j_sn p)); [now ltbs|]. clear. intros i j m k l. rewrite !macc_at.
        destruct ((k =? i) && (l =? j))%nat; [|lra]. unfold j_sn. cbv zeta. rewrite !dot_grads, !dot_sum. fold (sG p) (nG p) (fac p) (nflux p). lra.
      - rewrite (loop_macc nus nun _ (j_ns p)); [now ltbs|]. clear. intros i j m k l. rewrite !macc_at.
        destruct ((k =? i) && (l =? j))%nat; [|lra]. unfold j_ns. cbv zeta. rewrite !dot_grads, !dot_sum. fold (sG p) (nG p) (fac p) (nflux p). lra.
      - rewrite (loop_macc nun nun _ (j_nn p)); [now ltbs|]. clear. intros i j m k l. rewrite !macc_at.
        destruct ((k =? i) && (l =? j))%nat; [|lra]. unfold j_nn. cbv zeta. rewrite !dot_grads, !dot_sum. fold (sG p) (nG p) (fac p) (nflux p). lra. }
    destruct (dg_jacobian_skeleton d nus nun P F [p] (ss, sn, ns, nn)) as [[[a b] c] e].
    cbv zeta in H. unfold q1, q2, q3, q4 in H. cbn [fst snd] in H. destruct H as (H1 & H2 & H3 & H4).
    destruct (IH a b c e) as (I1 & I2 & I3 & I4). cbn [lsum]. repeat split; intros i j Hi Hj.
    - rewrite I1, H1 by auto. lra.
    - rewrite I2, H2 by auto. lra.
    - rewrite I3, H3 by auto. lra.
    - rewrite I4, H4 by auto. lra.
  Qed.

  Lemma fun_rsum n y phi c : fun_at n y phi * c = rsum n (fun j => y j * phi j * c).
  Proof. unfold fun_at. now rewrite rsum_scal_r. Qed.
  Lemma inner_rsum n a y G c : inner d a (grad_at n y G) * c = rsum n (fun j => y j * inner d a (G j) * c).
  Proof. rewrite inner_grad. now rewrite rsum_scal_r. Qed.

  (** Derivative of a point contribution *)
  Lemma sk_s_plus nus nun p xs xn ys yn i : fgalerkin nus (phi_s p) (psi_s p) (js_s p) (jsv_s p) -> (i < nus)%nat ->
    sk_s nus nun p (plusv xs ys) (plusv xn yn) i = sk_s nus nun p xs xn i + rsum nus (fun j => j_ss p i j * ys j) + rsum nun (fun j => j_sn p i j * yn j).
  Proof.
    intros G Hi. destruct (G i Hi) as [E1 E2].
    assert (inner d (An_s (coeffs d P F p)) (sGv p i) = inner d (An_s (coeffs d P F p)) (sG p i)) as E.
    { apply inner_ext; auto. intros. apply apply_ext. intros. apply E2. }
    unfold sk_s, flux. cbv zeta. rewrite E, E1. set (C := coeffs d P F p) in *. rewrite !fun_plus, !inner_grad_plus.
    assert (rsum nus (fun j => j_ss p i j * ys j) = fun_at nus ys (phi_s p) * (((fst (upwind (nflux p)) * nflux p + penalty C) * phi_s p i + theta P * omega_s C * inner d (An_s C) (sG p i)) * fac p)
      + inner d (An_s C) (grad_at nus ys (sG p)) * (- omega_s C * phi_s p i * fac p)) as ->.
    { rewrite fun_rsum, inner_rsum, <- rsum_plus. apply rsum_ext. intros j _. unfold j_ss. cbv zeta. fold C. lra. }
    assert (rsum nun (fun j => j_sn p i j * yn j) = fun_at nun yn (phi_n p) * (((snd (upwind (nflux p)) * nflux p - penalty C) * phi_s p i - theta P * omega_s C * inner d (An_s C) (sG p i)) * fac p)
      + inner d (An_n C) (grad_at nun yn (nG p)) * (- omega_n C * phi_s p i * fac p)) as ->.
    { rewrite fun_rsum, inner_rsum, <- rsum_plus. apply rsum_ext. intros j _. unfold j_sn. cbv zeta. fold C. lra. }
    lra.
  Qed.
  Lemma sk_n_plus nus nun p xs xn ys yn i : fgalerkin nun (phi_n p) (psi_n p) (js_n p) (jsv_n p) -> (i < nun)%nat ->
    sk_n nus nun p (plusv xs ys) (plusv xn yn) i = sk_n nus nun p xs xn i + rsum nus (fun j => j_ns p i j * ys j) + rsum nun (fun j => j_nn p i j * yn j).
  Proof.
    intros G Hi. destruct (G i Hi) as [E1 E2].
    assert (inner d (An_n (coeffs d P F p)) (nGv p i) = inner d (An_n (coeffs d P F p)) (nG p i)) as E.
    { apply inner_ext; auto. intros. apply apply_ext. intros. apply E2. }
    unfold sk_n, flux. cbv zeta. rewrite E, E1. set (C := coeffs d P F p) in *. rewrite !fun_plus, !inner_grad_plus.
    assert (rsum nus (fun j => j_ns p i j * ys j) = fun_at nus ys (phi_s p) * ((- (fst (upwind (nflux p)) * nflux p + penalty C) * phi_n p i + theta P * omega_n C * inner d (An_n C) (nG p i)) * fac p)
      + inner d (An_s C) (grad_at nus ys (sG p)) * (omega_s C * phi_n p i * fac p)) as ->.
    { rewrite fun_rsum, inner_rsum, <- rsum_plus. apply rsum_ext. intros j _. unfold j_ns. cbv zeta. fold C. lra. }
    assert (rsum nun (fun j => j_nn p i j * yn j) = fun_at nun yn (phi_n p) * ((- (snd (upwind (nflux p)) * nflux p - penalty C) * phi_n p i - theta P * omega_n C * inner d (An_n C) (nG p i)) * fac p)
      + inner d (An_n C) (grad_at nun yn (nG p)) * (omega_n C * phi_n p i * fac p)) as ->.
    { rewrite fun_rsum, inner_rsum, <- rsum_plus. apply rsum_ext. intros j _. unfold j_nn. cbv zeta. fold C. lra. }
    lra.
  Qed.
End skeleton.
