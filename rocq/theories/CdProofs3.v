(** Boundary terms and structure of the convection-diffusion operators. *)
From Verif Require Import Common CommonFacts CdModel CdSpec CdProofs CdProofs2.
From Coq Require Import Reals Lra Lia.
Open Scope R_scope.

Lemma upw q us un : (fst (upwind q) * us + snd (upwind q) * un) * q = upwind_flux q us un.
Proof. unfold upwind, upwind_flux. destruct (Rle_dec 0 q); cbn [fst snd]; lra. Qed.

(** ** The coefficients *)
Section coeffs.
  Variables (d : nat) (P : dgparam) (F : face) (p : fpoint).
  Lemma coeffs_eq : let C := coeffs d P F p in
    (forall k, An_s C k = ip_An_s d P F p k) /\ (forall k, An_n C k = ip_An_n d P F p k) /\
    omega_s C = ip_w_s d P F p /\ omega_n C = ip_w_n d P F p /\ penalty C = ip_gamma d P F p.
  Proof.
    unfold coeffs, weights_of, ip_gamma, ip_w_s, ip_w_n, ip_den. cbv zeta.
    assert (dot d (mv d (if dg_constA P then cA_s F else fA_s p) (if dg_constA P then c_normal F else f_normal p)) (if dg_constA P then c_normal F else f_normal p) = ip_perm_s d P F p) as E1.
    { unfold ip_perm_s. rewrite dot_sum. apply inner_ext; auto. intros. apply mv_sum. }
    assert (dot d (mv d (if dg_constA P then cA_n F else fA_n p) (if dg_constA P then c_normal F else f_normal p)) (if dg_constA P then c_normal F else f_normal p) = ip_perm_n d P F p) as E2.
    { unfold ip_perm_n. rewrite dot_sum. apply inner_ext; auto. intros. apply mv_sum. }
    destruct (dg_weights P); rewrite ?E1, ?E2; cbn [An_s An_n omega_s omega_n penalty]; repeat split; intros; try apply mv_sum.
  Qed.
  Lemma An_s_eq v : inner d (An_s (coeffs d P F p)) v = inner d (ip_An_s d P F p) v.
  Proof. apply inner_ext; auto. intros. apply coeffs_eq. Qed.
  Lemma An_n_eq v : inner d (An_n (coeffs d P F p)) v = inner d (ip_An_n d P F p) v.
  Proof. apply inner_ext; auto. intros. apply coeffs_eq. Qed.
  Lemma flux_eq us un gs gn : flux d P F p us un gs gn = ip_flux d P F p us un gs gn.
  Proof. unfold flux, ip_flux. cbv zeta. rewrite An_s_eq, An_n_eq, upw. destruct coeffs_eq as (_ & _ & -> & -> & ->). reflexivity. Qed.

  Lemma sk_form nus nun nvs nvn xs xn ys yn :
    rsum nvs (fun i => ys i * sk_s d P F nus nun p xs xn i) + rsum nvn (fun i => yn i * sk_n d P F nus nun p xs xn i) =
    ip_integrand d P F p (fun_at nus xs (phi_s p)) (fun_at nun xn (phi_n p)) (grad_at nus xs (sG d p)) (grad_at nun xn (nG d p))
      (fun_at nvs ys (psi_s p)) (fun_at nvn yn (psi_n p)) (grad_at nvs ys (sGv d p)) (grad_at nvn yn (nGv d p)) * fac p.
  Proof.
    unfold ip_integrand. rewrite !(inner_grad d nvs), !(inner_grad d nvn).
    unfold sk_s, sk_n. cbv zeta. rewrite flux_eq. destruct coeffs_eq as (_ & _ & -> & -> & _).
    set (us := fun_at nus xs (phi_s p)). set (un := fun_at nun xn (phi_n p)). set (fl := ip_flux d P F p us un _ _).
    rewrite (rsum_ext nvs _ (fun i => (ys i * psi_s p i) * (fl * fac p) + (ys i * inner d (ip_An_s d P F p) (sGv d p i)) * (theta P * (us - un) * ip_w_s d P F p * fac p)))
      by (intros; rewrite An_s_eq; lra).
    rewrite (rsum_ext nvn _ (fun i => (yn i * psi_n p i) * (- fl * fac p) + (yn i * inner d (ip_An_n d P F p) (nGv d p i)) * (theta P * (us - un) * ip_w_n d P F p * fac p)))
      by (intros; rewrite An_n_eq; lra).
    rewrite !rsum_plus, !rsum_scal_r. fold (fun_at nvs ys (psi_s p)) (fun_at nvn yn (psi_n p)). lra.
  Qed.
End coeffs.

(** Partition of unity *)
Definition ones : vec := fun _ => 1.
Lemma fun_ones n phi : fun_at n ones phi = rsum n phi.
Proof. apply rsum_ext. unfold ones. intros; lra. Qed.
Lemma inner_ones d n a J js : (forall k, rsum n (fun i => js i k) = 0) -> inner d a (grad_at n ones (grads d J js)) = 0.
Proof.
  intros H. unfold inner. rewrite (rsum_ext d _ (fun _ => 0)); [apply rsum_0|]. intros k _.
  unfold grad_at, grads, apply. rewrite (rsum_ext n _ (fun i => rsum d (fun l => J k l * js i l))) by (intros; unfold ones; lra).
  rewrite rsum_swap. rewrite (rsum_ext d _ (fun _ => 0)); [rewrite rsum_0; lra|]. intros l _. rewrite rsum_scal, H. lra.
Qed.
Lemma rsum_ones n f : rsum n f = rsum n (fun i => ones i * f i).
Proof. apply rsum_ext. unfold ones. intros; lra. Qed.

(** ** Jacobians applied to a vector *)
Lemma jval_sum d constA Ac n p x i : rsum n (fun j => fem_jval d constA Ac p i j * x j) =
  (inner d (apply d (vT constA Ac p) (grad_at n x (vG d p))) (vG d p i) - fun_at n x (v_phi p) * inner d (v_b p) (vG d p i) + v_c p * fun_at n x (v_phi p) * v_phi p i) * (v_weight p * v_ie p).
Proof.
  unfold fem_jval.
  rewrite (rsum_ext n _ (fun j => (x j * inner d (apply d (vT constA Ac p) (vG d p j)) (vG d p i)) * (v_weight p * v_ie p)
      + (x j * v_phi p j) * ((v_c p * v_phi p i - inner d (v_b p) (vG d p i)) * (v_weight p * v_ie p)))) by (intros; lra).
  rewrite rsum_plus, !rsum_scal_r, <- inner_apply_grad. fold (fun_at n x (v_phi p)). lra.
Qed.
Lemma jval_form d constA Ac n p x : rsum n (fun i => x i * rsum n (fun j => fem_jval d constA Ac p i j * x j)) =
  (inner d (apply d (vT constA Ac p) (grad_at n x (vG d p))) (grad_at n x (vG d p)) - fun_at n x (v_phi p) * inner d (v_b p) (grad_at n x (vG d p))
    + v_c p * fun_at n x (v_phi p) * fun_at n x (v_phi p)) * (v_weight p * v_ie p).
Proof.
  rewrite !inner_grad. set (u := fun_at n x (v_phi p)). 
  rewrite (rsum_ext n _ (fun i => (x i * inner d (apply d (vT constA Ac p) (grad_at n x (vG d p))) (vG d p i)) * (v_weight p * v_ie p)
     + (x i * inner d (v_b p) (vG d p i)) * (- u * (v_weight p * v_ie p)) + (x i * v_phi p i) * (v_c p * u * (v_weight p * v_ie p)))) by (intros; rewrite jval_sum; fold u; lra).
  rewrite !rsum_plus, !rsum_scal_r. fold (fun_at n x (v_phi p)). fold u. lra.
Qed.
Lemma apply_sym d A x y : symmetric d A -> inner d (apply d A x) y = inner d (apply d A y) x.
Proof.
  intros H. rewrite inner_apply_l. apply inner_ext; auto. intros k Hk. apply rsum_ext. intros l Hl. unfold transp. now rewrite (H k l).
Qed.

Lemma lsum_rsum_mul {P} n (M : mat) (jv : P -> nat -> nat -> R) pts (x : vec) i : (i < n)%nat ->
  (forall j, (j < n)%nat -> M i j = lsum (fun p => jv p i j) pts) -> rsum n (fun j => M i j * x j) = lsum (fun p => rsum n (fun j => jv p i j * x j)) pts.
Proof.
  intros Hi H. rewrite <- rsum_lsum. apply rsum_ext. intros j Hj. rewrite H by auto. rewrite Rmult_comm, <- lsum_scal. apply lsum_ext. intros; lra.
Qed.

(** ** Boundary *)
Section boundary.
  Variables (d : nat) (P : dgparam) (F : face).
  Lemma bcoeffs_eq p : (forall k, fst (bcoeffs d P F p) k = ip_An_s d P F p k) /\ snd (bcoeffs d P F p) = ipb_gamma d P F p.
  Proof.
    unfold bcoeffs. cbv zeta. cbn [fst snd]. split; [intros; apply mv_sum|]. unfold ipb_gamma. do 3 f_equal.
    destruct (dg_weights P); auto. unfold ip_perm_s. rewrite dot_sum. apply inner_ext; auto. intros; apply mv_sum.
  Qed.
  Lemma bAn_eq p v : inner d (fst (bcoeffs d P F p)) v = inner d (ip_An_s d P F p) v.
  Proof. apply inner_ext; auto. intros. apply bcoeffs_eq. Qed.
  Definition data (ja : bool) (p : fpoint) := if ja then homogeneous p else p.
  Definition bd_val (ja : bool) nu p x i :=
    ipb_integrand d P F (data ja p) (fun_at nu x (phi_s p)) (grad_at nu x (sG d p)) (psi_s p i) (sGv d p i) * fac p.
  Lemma bd_step nu nv ja p x r :
    (inflow d p -> dg_residual_boundary d nu nv P F [p] x ja r = Throw) /\
    (~ inflow d p -> exists r', dg_residual_boundary d nu nv P F [p] x ja r = Ok r' /\ forall i, (i < nv)%nat -> r' i = r i + bd_val ja nu p x i).
  Proof.
    unfold dg_residual_boundary, inflow, bd_val, ipb_integrand. cbn [foldM]. destruct (bcoeffs_eq p) as [_ E].
    pose proof (bAn_eq p) as EA. destruct (bcoeffs d P F p) as [An pen]. cbn [fst snd] in E, EA.
    rewrite dot_sum. fold (nflux d p). 
    assert (f_bc (data ja p) = f_bc p) as -> by now destruct ja.
    destruct (f_bc p) eqn:B; cbn [bind].
    - split; [intros [? _]; discriminate|]. intros _.
      rewrite (surjective_pairing (upwind (nflux d p))). cbv zeta. cbn [bind]. eexists. split; [reflexivity|]. intros i Hi.
      rewrite !loop_acc. ltbs. rewrite dot_eval, dot_grads, eval_u_sum, !EA, E. fold (sG d p) (sGv d p) (fac p).
      assert (inner d (f_b (data ja p)) (f_normal (data ja p)) = nflux d p) as -> by now destruct ja.
      assert (ip_An_s d P F (data ja p) = ip_An_s d P F p) as -> by now destruct ja.
      assert (ipb_gamma d P F (data ja p) = ipb_gamma d P F p) as -> by now destruct ja.
      assert ((if ja then 0 else f_g p) = f_g (data ja p)) as -> by now destruct ja.
      rewrite <- upw. cbn [fst snd]. lra.
    - split; [intros [? _]; discriminate|]. intros _. destruct ja; cbn [negb].
      + eexists. split; [reflexivity|]. intros i Hi. cbn. lra.
      + eexists. split; [reflexivity|]. intros i Hi. rewrite loop_acc. ltbs. cbn [data]. unfold fac. lra.
    - destruct (Rlt_dec (nflux d p) (- eps')) as [L|L].
      + split; [reflexivity|]. intros H. exfalso. apply H. now split.
      + split; [intros [_ H]; contradiction|]. intros _. rewrite eval_u_sum.
        assert (inner d (f_b (data ja p)) (f_normal (data ja p)) = nflux d p) as -> by now destruct ja.
        destruct ja; cbn [negb bind]; (eexists; split; [reflexivity|]); intros i Hi; rewrite !loop_acc; ltbs; cbn [data homogeneous f_o]; unfold fac; lra.
    - split; [intros [? _]; discriminate|]. intros _. eexists. split; [reflexivity|]. intros i Hi. lra.
  Qed.
  Lemma bd_app nu nv ja p pts x r : dg_residual_boundary d nu nv P F (p :: pts) x ja r =
    bind (dg_residual_boundary d nu nv P F [p] x ja r) (dg_residual_boundary d nu nv P F pts x ja).
  Proof.
    change (p :: pts) with ([p] ++ pts). unfold dg_residual_boundary at 1. rewrite foldM_app. reflexivity.
  Qed.
  Lemma bd_at nu nv ja pts x r :
    (Exists (inflow d) pts -> dg_residual_boundary d nu nv P F pts x ja r = Throw) /\
    (~ Exists (inflow d) pts -> exists r', dg_residual_boundary d nu nv P F pts x ja r = Ok r' /\
       forall i, (i < nv)%nat -> r' i = r i + lsum (fun p => bd_val ja nu p x i) pts).
  Proof.
    revert r. induction pts as [|p pts IH]; intros r.
    - split; [intros H; inversion H|]. intros _. exists r. split; [reflexivity|]. intros. cbn. lra.
    - rewrite bd_app. destruct (bd_step nu nv ja p x r) as [S1 S2]. split.
      + intros H. destruct (Rlt_dec (inner d (f_b p) (f_normal p)) (- eps')) as [L|L].
        * destruct (f_bc p) eqn:B; try (destruct S2 as (r' & -> & _); [intros [? ?]; congruence|]; cbn [bind]; apply IH; inversion H as [? ? [? ?]|]; [congruence|assumption]).
          rewrite S1 by now split. reflexivity.
        * destruct S2 as (r' & -> & _); [intros [? ?]; contradiction|]. cbn [bind]. apply IH. inversion H as [? ? [? ?]|]; [contradiction|assumption].
      + intros H. destruct S2 as (r' & -> & E); [intros HH; apply H; now left|]. cbn [bind].
        destruct (IH r') as [_ (r'' & -> & E')]; [intros HH; apply H; now right|]. exists r''. split; [reflexivity|].
        intros i Hi. rewrite E', E by auto. cbn [lsum]. lra.
  Qed.
  (** The matrix *)
  Definition bd_jval p i j := let An := ip_An_s d P F p in match f_bc p with
    | Dirichlet => ((upwind_flux (nflux d p) (phi_s p j) 0 - inner d An (sG d p j) + ipb_gamma d P F p * phi_s p j) * phi_s p i + theta P * phi_s p j * inner d An (sG d p i)) * fac p
    | Outflow => nflux d p * phi_s p j * phi_s p i * fac p
    | _ => 0 end.
  Lemma bj_step n p m :
    (inflow d p -> dg_jacobian_boundary d n P F [p] m = Throw) /\
    (~ inflow d p -> exists m', dg_jacobian_boundary d n P F [p] m = Ok m' /\ forall i j, (i < n)%nat -> (j < n)%nat -> m' i j = m i j + bd_jval p i j).
  Proof.
    unfold dg_jacobian_boundary, inflow, bd_jval. cbn [foldM]. destruct (bcoeffs_eq p) as [_ E].
    pose proof (bAn_eq p) as EA. destruct (bcoeffs d P F p) as [An pen]. cbn [fst snd] in E, EA.
    rewrite dot_sum. fold (nflux d p). destruct (f_bc p) eqn:B; cbn [bind].
    - split; [intros [? _]; discriminate|]. intros _. eexists. split; [reflexivity|]. intros i j Hi Hj.
      set (up := if Rle_dec 0 (nflux d p) then 1 else 0).
      rewrite (loop_macc n n _ (fun i j => pen * phi_s p j * phi_s p i * (f_weight p * f_ie p))) by (intros; apply macc_at).
      rewrite (loop_macc n n _ (fun i j => phi_s p j * (f_weight p * f_ie p) * theta P * dot d An (mv d (jac_s p) (js_s p i)))) by (intros; apply macc_at).
      rewrite (loop_macc n n _ (fun i j => - dot d An (mv d (jac_s p) (js_s p j)) * (f_weight p * f_ie p) * phi_s p i)) by (intros; apply macc_at).
      rewrite (loop_macc n n _ (fun i j => up * phi_s p j * nflux d p * (f_weight p * f_ie p) * phi_s p i)) by (intros; apply macc_at).
      ltbs. rewrite !dot_grads, !EA, E. fold (sG d p) (fac p). unfold up, upwind_flux. destruct (Rle_dec 0 (nflux d p)); lra.
    - split; [intros [? _]; discriminate|]. intros _. eexists. split; [reflexivity|]. intros. lra.
    - destruct (Rlt_dec (nflux d p) (- eps')) as [L|L].
      + split; [reflexivity|]. intros H. exfalso. apply H. now split.
      + split; [intros [_ H]; contradiction|]. intros _. eexists. split; [reflexivity|]. intros i j Hi Hj.
        rewrite (loop_macc n n _ (fun i j => phi_s p j * nflux d p * (f_weight p * f_ie p) * phi_s p i)) by (intros; apply macc_at). ltbs. unfold fac. lra.
    - split; [intros [? _]; discriminate|]. intros _. eexists. split; [reflexivity|]. intros. lra.
  Qed.
  Lemma bj_at n pts m :
    (Exists (inflow d) pts -> dg_jacobian_boundary d n P F pts m = Throw) /\
    (~ Exists (inflow d) pts -> exists m', dg_jacobian_boundary d n P F pts m = Ok m' /\
       forall i j, (i < n)%nat -> (j < n)%nat -> m' i j = m i j + lsum (fun p => bd_jval p i j) pts).
  Proof.
    revert m. induction pts as [|p pts IH]; intros r.
    - split; [intros H; inversion H|]. intros _. exists r. split; [reflexivity|]. intros. cbn. lra.
    - assert (dg_jacobian_boundary d n P F (p :: pts) r = bind (dg_jacobian_boundary d n P F [p] r) (dg_jacobian_boundary d n P F pts)) as ->.
      { change (p :: pts) with ([p] ++ pts). unfold dg_jacobian_boundary at 1. rewrite foldM_app. reflexivity. }
      destruct (bj_step n p r) as [S1 S2]. split.
      + intros H. destruct (Rlt_dec (inner d (f_b p) (f_normal p)) (- eps')) as [L|L].
        * destruct (f_bc p) eqn:B; try (destruct S2 as (r' & -> & _); [intros [? ?]; congruence|]; cbn [bind]; apply IH; inversion H as [? ? [? ?]|]; [congruence|assumption]).
          rewrite S1 by now split. reflexivity.
        * destruct S2 as (r' & -> & _); [intros [? ?]; contradiction|]. cbn [bind]. apply IH. inversion H as [? ? [? ?]|]; [contradiction|assumption].
      + intros H. destruct S2 as (r' & -> & E); [intros HH; apply H; now left|]. cbn [bind].
        destruct (IH r') as [_ (r'' & -> & E')]; [intros HH; apply H; now right|]. exists r''. split; [reflexivity|].
        intros i j Hi Hj. rewrite E', E by auto. cbn [lsum]. lra.
  Qed.
  Lemma bj_sum ja n p x i : fgalerkin n (phi_s p) (psi_s p) (js_s p) (jsv_s p) -> (i < n)%nat ->
    bd_val true n p x i = rsum n (fun j => bd_jval p i j * x j) /\
    bd_val ja n p x i = bd_val ja n p zerov i + bd_val true n p x i.
  Proof.
    intros G Hi. destruct (G i Hi) as [E1 E2].
    assert (inner d (ip_An_s d P F p) (sGv d p i) = inner d (ip_An_s d P F p) (sG d p i)) as E.
    { apply inner_ext; auto. intros. apply apply_ext. intros. apply E2. }
    assert (fun_at n zerov (phi_s p) = 0) as Z1. { unfold fun_at, zerov. rewrite (rsum_ext n _ (fun _ => 0)) by (intros; lra). apply rsum_0. }
    assert (inner d (ip_An_s d P F p) (grad_at n zerov (sG d p)) = 0) as Z2.
    { rewrite inner_grad. unfold zerov. rewrite (rsum_ext n _ (fun _ => 0)) by (intros; lra). apply rsum_0. }
    assert (forall q, ip_An_s d P F (data q p) = ip_An_s d P F p) as D1 by now intros [|].
    assert (forall q, ipb_gamma d P F (data q p) = ipb_gamma d P F p) as D2 by now intros [|].
    assert (forall q, inner d (f_b (data q p)) (f_normal (data q p)) = nflux d p) as D3 by now intros [|].
    assert (forall q, f_bc (data q p) = f_bc p) as D4 by now intros [|].
    unfold bd_val, bd_jval, ipb_integrand. rewrite !D1, !D2, !D3, !D4. rewrite E, E1. cbv zeta. split.
    - destruct (f_bc p); cbn [data homogeneous f_g f_j f_o].
      + rewrite (rsum_ext n _ (fun j => (x j * phi_s p j) * (((if Rle_dec 0 (nflux d p) then nflux d p else 0) * phi_s p i + ipb_gamma d P F p * phi_s p i + theta P * inner d (ip_An_s d P F p) (sG d p i)) * fac p)
          + (x j * inner d (ip_An_s d P F p) (sG d p j)) * (- phi_s p i * fac p))).
        * rewrite rsum_plus, !rsum_scal_r, <- inner_grad. fold (fun_at n x (phi_s p)). unfold upwind_flux. destruct (Rle_dec 0 (nflux d p)); lra.
        * intros j _. unfold upwind_flux. destruct (Rle_dec 0 (nflux d p)); lra.
      + rewrite (rsum_ext n _ (fun _ => 0)) by (intros; lra). rewrite rsum_0. lra.
      + rewrite (rsum_ext n _ (fun j => (x j * phi_s p j) * (nflux d p * phi_s p i * fac p))) by (intros; lra).
        rewrite rsum_scal_r. fold (fun_at n x (phi_s p)). lra.
      + rewrite (rsum_ext n _ (fun _ => 0)) by (intros; lra). rewrite rsum_0. lra.
    - rewrite Z1, Z2. destruct (f_bc p); cbn [data homogeneous f_g f_j f_o]; try lra.
      unfold upwind_flux. destruct (Rle_dec 0 (nflux d p)); lra.
  Qed.
  Lemma bd_form nu nv ja p x y : rsum nv (fun i => y i * bd_val ja nu p x i) =
    ipb_integrand d P F (data ja p) (fun_at nu x (phi_s p)) (grad_at nu x (sG d p)) (fun_at nv y (psi_s p)) (grad_at nv y (sGv d p)) * fac p.
  Proof.
    unfold bd_val, ipb_integrand. destruct (f_bc (data ja p)).
    - rewrite (inner_grad d nv). set (u := fun_at nu x (phi_s p)). unfold fun_at.
      set (q := upwind_flux _ _ _ - _ + _). 
      rewrite (rsum_ext nv _ (fun i => (y i * psi_s p i) * (q * fac p) + (y i * inner d (ip_An_s d P F (data ja p)) (sGv d p i)) * (theta P * (u - f_g (data ja p)) * fac p))) by (intros; lra).
      rewrite rsum_plus, !rsum_scal_r. lra.
    - rewrite (rsum_ext nv _ (fun i => (y i * psi_s p i) * (f_j (data ja p) * fac p))) by (intros; lra). rewrite rsum_scal_r. unfold fun_at. lra.
    - set (u := fun_at nu x (phi_s p)). rewrite (rsum_ext nv _ (fun i => (y i * psi_s p i) * ((inner d (f_b (data ja p)) (f_normal (data ja p)) * u + f_o (data ja p)) * fac p))) by (intros; lra).
      rewrite rsum_scal_r. unfold fun_at. lra.
    - rewrite (rsum_ext nv _ (fun _ => 0)) by (intros; lra). rewrite rsum_0. lra.
  Qed.
End boundary.
