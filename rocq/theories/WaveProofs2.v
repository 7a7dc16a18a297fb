(** Residuals, conservation and energy of the wave operators. *)
From Verif Require Import Common CommonFacts CdModel CdSpec CdProofs WaveModel WaveSpec WaveProofs.
From Coq Require Import Reals Lra Lia.
Open Scope R_scope.

(** ** Loops *)
Lemma loop_add n (f : nat -> mat -> mat) (g : nat -> nat -> nat -> R) : (forall k r i j, f k r i j = r i j + g k i j) ->
  forall r i j, loop n f r i j = r i j + rsum n (fun k => g k i j).
Proof. intros H r i j. induction n as [|n IH]; cbn; [ring|]. rewrite H, IH. ring. Qed.
Lemma fold_add {P} (f : mat -> P -> mat) (g : P -> nat -> nat -> R) pts : (forall r p i j, f r p i j = r i j + g p i j) ->
  forall r i j, fold_left f pts r i j = r i j + lsum (fun p => g p i j) pts.
Proof. intros H. induction pts as [|p pts IH]; intros r i j; cbn; [ring|]. rewrite IH, H. ring. Qed.
Lemma rsum_one n (v : nat -> R) j : rsum n (fun k => if (j =? k)%nat then v k else 0) = if (j <? n)%nat then v j else 0.
Proof.
  induction n as [|n IH]; cbn [rsum]; [destruct j; reflexivity|]. rewrite IH.
  destruct (Nat.eqb_spec j n), (Nat.ltb_spec j n), (Nat.ltb_spec j (S n)); subst; try lia; ring.
Qed.
Lemma rsum_if n (b : bool) (v : nat -> R) : rsum n (fun k => if b then v k else 0) = if b then rsum n v else 0.
Proof. destruct b; [reflexivity | apply rsum_0]. Qed.
Lemma eval_state_at n x phi k : eval_state n x phi k = state_at n x phi k.
Proof. unfold eval_state, state_at. now rewrite loop_sum. Qed.
Lemma state_fun n x phi : forall k, eval_state n x phi k = state_at n x phi k. Proof. intros; apply eval_state_at. Qed.

(** adding v i k to all entries (i, k), in either order of the loops *)
Lemma loop_rows m n (v : nat -> nat -> R) r i k : 
  loop m (fun i r => loop n (fun k r => macc r i k (v i k)) r) r i k = r i k + (if ((i <? m) && (k <? n))%nat then v i k else 0).
Proof.
  rewrite (loop_add m _ (fun a i k => if (i =? a)%nat then (if (k <? n)%nat then v a k else 0) else 0)).
  - rewrite rsum_one. destruct (i <? m)%nat; reflexivity.
  - intros a r' i' k'. rewrite (loop_add n _ (fun b i k => if (k =? b)%nat then (if (i =? a)%nat then v a b else 0) else 0)).
    + rewrite rsum_one. destruct (i' =? a)%nat, (k' <? n)%nat; reflexivity.
    + intros b r'' i'' k''. rewrite macc_at. destruct (i'' =? a)%nat, (k'' =? b)%nat; cbn; reflexivity.
Qed.
Lemma loop_cols m n (v : nat -> nat -> R) r i k : 
  loop n (fun k r => loop m (fun i r => macc r i k (v i k)) r) r i k = r i k + (if ((i <? m) && (k <? n))%nat then v i k else 0).
Proof.
  rewrite (loop_add n _ (fun b i k => if (k =? b)%nat then (if (i <? m)%nat then v i b else 0) else 0)).
  - rewrite rsum_one. destruct (i <? m)%nat, (k <? n)%nat; reflexivity.
  - intros b r' i' k'. rewrite (loop_add m _ (fun a i k => if (i =? a)%nat then (if (k =? b)%nat then v a b else 0) else 0)).
    + rewrite rsum_one. destruct (k' =? b)%nat, (i' <? m)%nat; reflexivity.
    + intros a r'' i'' k''. rewrite macc_at. destruct (i'' =? a)%nat, (k'' =? b)%nat; cbn; reflexivity.
Qed.

(** ** Volume residuals *)
Lemma grad_w d p k j : mv d (w_jac p) (w_js p k) j = w_grad d p k j.
Proof. apply grads_mv. Qed.

Lemma acoustics_volume_eq d n c pts x r i k : (i < d + 1)%nat -> (k < n)%nat ->
  acoustics_alpha_volume d n c pts x r i k =
  r i k + lsum (fun p => w_factor p * - acoustics_nflux d c (w_grad d p k) (state_at n x (w_phi p)) i) pts.
Proof.
  intros I K. unfold acoustics_alpha_volume.
  rewrite (fold_add _ (fun p i k => if (k <? n)%nat then w_factor p *
    ((if (i =? 0)%nat then - inner d (momentum (state_at n x (w_phi p))) (w_grad d p k) else 0) +
     (if ((0 <? i) && (i <? d + 1))%nat then - (c * c) * state_at n x (w_phi p) 0%nat * w_grad d p k (i - 1)%nat else 0)) else 0)).
  - f_equal. apply lsum_ext. intros p _. destruct (Nat.ltb_spec k n); [|lia]. f_equal. unfold acoustics_nflux.
    destruct i as [|i]; [change (0 <? 0)%nat with false | change (0 <? S i)%nat with true]; cbn [Nat.eqb andb].
    + ring.
    + destruct (Nat.ltb_spec (S i) (d + 1)); [|lia]. cbn. rewrite Nat.sub_0_r. ring.
  - intros r' p i' k'.
    rewrite (loop_add n _ (fun b i k => if (k =? b)%nat then w_factor p *
      ((if (i =? 0)%nat then - inner d (momentum (state_at n x (w_phi p))) (w_grad d p b) else 0) +
       (if ((0 <? i) && (i <? d + 1))%nat then - (c * c) * state_at n x (w_phi p) 0%nat * w_grad d p b (i - 1)%nat else 0)) else 0)).
    + rewrite rsum_one. reflexivity.
    + intros b r'' i'' k''.
      rewrite (loop_add d _ (fun a i k => if (i - 1 =? a)%nat then (if ((0 <? i) && (k =? b))%nat then w_factor p * (- (c * c) * state_at n x (w_phi p) 0%nat * w_grad d p b a) else 0) else 0)).
      * rewrite (loop_add d _ (fun a i k => if ((i =? 0) && (k =? b))%nat then w_factor p * - (momentum (state_at n x (w_phi p)) a * w_grad d p b a) else 0)).
        -- rewrite rsum_if, rsum_one, rsum_scal, rsum_opp. unfold inner.
           destruct i'' as [|i'']; [change (0 <? 0)%nat with false | change (0 <? S i'')%nat with true]; cbn [Nat.eqb andb Nat.sub].
           ++ destruct (k'' =? b)%nat, (0 <? d)%nat; ring.
           ++ rewrite Nat.sub_0_r. destruct (Nat.ltb_spec i'' d), (Nat.ltb_spec (S i'') (d + 1)), (k'' =? b)%nat; try lia; ring.
        -- intros a r3 i3 k3. rewrite macc_at. f_equal. rewrite grad_w, eval_state_at. unfold momentum, w_factor.
           destruct ((i3 =? 0) && (k3 =? b))%nat; [ring | reflexivity].
      * intros a r3 i3 k3. rewrite macc_at. f_equal. rewrite grad_w, eval_state_at. unfold w_factor.
        destruct i3 as [|i3].
        -- destruct (Nat.eqb_spec 0 (a + 1)); [lia|]. change (0 <? 0)%nat with false. cbn [andb]. destruct (0 - 1 =? a)%nat; reflexivity.
        -- change (0 <? S i3)%nat with true. cbn [Nat.sub andb]. rewrite Nat.sub_0_r. destruct (Nat.eqb_spec (S i3) (a + 1)), (Nat.eqb_spec i3 a), (k3 =? b)%nat; try lia; cbn; ring.
Qed.

Lemma maxwell_flux_row muinv epsinv u i v : (i < 6)%nat ->
  rsum 3 (fun j => maxwell_flux muinv epsinv u i j * v j) =
  if (i <? 3)%nat then - crossp v (fieldB u) i * muinv else crossp v (fieldD u) (i - 3)%nat * epsinv.
Proof. intros I. rewrite sum3. unfold crossp, fieldB, fieldD, Nat.ltb. destruct i as [|[|[|[|[|[|]]]]]]; try lia; cbn; ring. Qed.
Lemma maxwell_volume_eq n eps mu sigma pts x r i k : (i < 6)%nat -> (k < n)%nat ->
  maxwell_alpha_volume n eps mu sigma pts x r i k =
  r i k + lsum (fun p => w_factor p * (- maxwell_nflux eps mu (w_grad 3 p k) (state_at n x (w_phi p)) i +
                                       (if (i <? 3)%nat then sigma / eps * state_at n x (w_phi p) i * w_phi p k else 0))) pts.
Proof.
  intros I K. unfold maxwell_alpha_volume.
  rewrite (fold_add _ (fun p i k => (if ((i <? 6) && (k <? n))%nat then w_factor p *
      - rsum 3 (fun j => maxwell_flux (1 / mu) (1 / eps) (eval_state n x (w_phi p)) i j * w_grad 3 p k j) else 0) +
    (if ((i <? 3) && (k <? n))%nat then w_factor p * (sigma / eps * state_at n x (w_phi p) i * w_phi p k) else 0))).
  - f_equal. apply lsum_ext. intros p _. destruct (Nat.ltb_spec k n); [|lia]. destruct (Nat.ltb_spec i 6); [|lia]. cbn [andb].
    rewrite maxwell_flux_row by auto. unfold maxwell_nflux.
    assert (E : forall v j, crossp v (fieldB (eval_state n x (w_phi p))) j = crossp v (fieldB (state_at n x (w_phi p))) j).
    { intros v j. unfold crossp, fieldB. rewrite !eval_state_at. reflexivity. }
    assert (E' : forall v j, crossp v (fieldD (eval_state n x (w_phi p))) j = crossp v (fieldD (state_at n x (w_phi p))) j).
    { intros v j. unfold crossp, fieldD. rewrite !eval_state_at. reflexivity. }
    rewrite E, E'. destruct (i <? 3)%nat; cbn [andb]; unfold Rdiv; ring.
  - intros r' p i' k'. rewrite loop_rows. 
    rewrite (loop_add 6 _ (fun a i k => if (i =? a)%nat then (if (k <? n)%nat then w_factor p *
      - rsum 3 (fun j => maxwell_flux (1 / mu) (1 / eps) (eval_state n x (w_phi p)) a j * w_grad 3 p k j) else 0) else 0)).
    + rewrite rsum_one. rewrite eval_state_at. unfold w_factor. destruct (i' <? 6)%nat, (i' <? 3)%nat, (k' <? n)%nat; cbn [andb]; ring.
    + intros a r'' i'' k''.
      rewrite (loop_add n _ (fun b i k => if (k =? b)%nat then (if (i =? a)%nat then w_factor p *
        - rsum 3 (fun j => maxwell_flux (1 / mu) (1 / eps) (eval_state n x (w_phi p)) a j * w_grad 3 p b j) else 0) else 0)).
      * rewrite rsum_one. destruct (i'' =? a)%nat, (k'' <? n)%nat; reflexivity.
      * intros b r3 i3 k3.
        rewrite (loop_add 3 _ (fun j i k => if ((i =? a) && (k =? b))%nat then w_factor p * - (maxwell_flux (1 / mu) (1 / eps) (eval_state n x (w_phi p)) a j * w_grad 3 p b j) else 0)).
        -- rewrite rsum_if, rsum_scal, rsum_opp. destruct (i3 =? a)%nat, (k3 =? b)%nat; reflexivity.
        -- intros j r4 i4 k4. rewrite macc_at. rewrite grad_w. unfold w_factor. destruct ((i4 =? a) && (k4 =? b))%nat; ring.
Qed.

Lemma apply_state m A u v i : (forall k, (k < m)%nat -> u k = v k) -> apply m A u i = apply m A v i.
Proof. apply apply_ext. Qed.

(** ** Faces *)
Definition upflux (m : nat) (Ap Am : mat) (u_s u_n : vec) : vec := fun i => apply m Ap u_s i + apply m Am u_n i.
Lemma umv_flux m Ap Am u v i : umv m Am v (umv m Ap u (fun _ => 0)) i = upflux m Ap Am u v i.
Proof. rewrite !umv_sum. unfold upflux. ring. Qed.
Lemma upflux_eval m Ap Am n n' x x' phi phi' i : 
  upflux m Ap Am (eval_state n x phi) (eval_state n' x' phi') i = upflux m Ap Am (state_at n x phi) (state_at n' x' phi') i.
Proof. unfold upflux. f_equal; apply apply_ext; intros; apply eval_state_at. Qed.

Lemma skeleton_eq m ns nn Ap Am pts x_s x_n r_s r_n i k : (i < m)%nat ->
  ((k < ns)%nat -> fst (wave_alpha_skeleton m ns nn Ap Am pts x_s x_n (r_s, r_n)) i k =
    r_s i k + lsum (fun p => wf_factor p * (upflux m Ap Am (state_at ns x_s (wf_phi_s p)) (state_at nn x_n (wf_phi_n p)) i * wf_phi_s p k)) pts) /\
  ((k < nn)%nat -> snd (wave_alpha_skeleton m ns nn Ap Am pts x_s x_n (r_s, r_n)) i k =
    r_n i k + lsum (fun p => wf_factor p * (- upflux m Ap Am (state_at ns x_s (wf_phi_s p)) (state_at nn x_n (wf_phi_n p)) i * wf_phi_n p k)) pts).
Proof.
  intros I. revert r_s r_n. induction pts as [|p pts IH]; intros r_s r_n; [cbn; split; intros; ring|].
  unfold wave_alpha_skeleton. cbn [fold_left lsum].
  match goal with |- context [fold_left ?f pts (?a, ?b)] => change (fold_left f pts (a, b)) with (wave_alpha_skeleton m ns nn Ap Am pts x_s x_n (a, b)); destruct (IH a b) as [IHs IHn] end.
  split; intros K.
  - rewrite (IHs K). rewrite loop_cols. destruct (Nat.ltb_spec i m), (Nat.ltb_spec k ns); try lia. cbn [andb].
    rewrite umv_flux, upflux_eval. unfold wf_factor. ring.
  - rewrite (IHn K). rewrite loop_cols. destruct (Nat.ltb_spec i m), (Nat.ltb_spec k nn); try lia. cbn [andb].
    rewrite umv_flux, upflux_eval. unfold wf_factor. ring.
Qed.
(** the boundary data depend on the state only through its components *)
Definition proper (m : nat) (g : vec -> vec) : Prop := forall u v, (forall i, u i = v i) -> forall i, (i < m)%nat -> g u i = g v i.
Lemma boundary_eq m ns Ap Am pts x r i k : (i < m)%nat -> (k < ns)%nat ->
  wave_alpha_boundary m ns Ap Am pts x r i k =
  r i k + lsum (fun p => wf_factor p * (upflux m Ap Am (eval_state ns x (wf_phi_s p)) (wf_g p (eval_state ns x (wf_phi_s p))) i * wf_phi_s p k)) pts.
Proof.
  intros I K. unfold wave_alpha_boundary.
  rewrite (fold_add _ (fun p i k => if ((i <? m) && (k <? ns))%nat then wf_factor p * (upflux m Ap Am (eval_state ns x (wf_phi_s p)) (wf_g p (eval_state ns x (wf_phi_s p))) i * wf_phi_s p k) else 0)).
  - f_equal. apply lsum_ext. intros p _. destruct (Nat.ltb_spec i m), (Nat.ltb_spec k ns); try lia. reflexivity.
  - intros r' p i' k'. rewrite loop_cols. rewrite umv_flux. unfold wf_factor. destruct ((i' <? m) && (k' <? ns))%nat; [ring | reflexivity].
Qed.
Lemma lambda_eq m n pts r i k : (i < m)%nat -> (k < n)%nat ->
  wave_lambda_volume m n pts r i k = r i k + lsum (fun p => w_factor p * (- w_q p i * w_phi p k)) pts.
Proof.
  intros I K. unfold wave_lambda_volume.
  rewrite (fold_add _ (fun p i k => if ((i <? m) && (k <? n))%nat then w_factor p * (- w_q p i * w_phi p k) else 0)).
  - f_equal. apply lsum_ext. intros p _. destruct (Nat.ltb_spec i m), (Nat.ltb_spec k n); try lia. reflexivity.
  - intros r' p i' k'. rewrite loop_rows. unfold w_factor. destruct ((i' <? m) && (k' <? n))%nat; ring.
Qed.
Lemma mass_eq m n pts x r i k : (i < m)%nat -> (k < n)%nat ->
  wave_mass_volume m n pts x r i k = r i k + lsum (fun p => w_factor p * (state_at n x (w_phi p) i * w_phi p k)) pts.
Proof.
  intros I K. unfold wave_mass_volume.
  rewrite (fold_add _ (fun p i k => if ((i <? m) && (k <? n))%nat then w_factor p * (state_at n x (w_phi p) i * w_phi p k) else 0)).
  - f_equal. apply lsum_ext. intros p _. destruct (Nat.ltb_spec i m), (Nat.ltb_spec k n); try lia. reflexivity.
  - intros r' p i' k'. rewrite loop_rows. rewrite eval_state_at. unfold w_factor. destruct ((i' <? m) && (k' <? n))%nat; ring.
Qed.
Definition tens := nat -> nat -> nat -> nat -> R.
Lemma loop_tadd n (f : nat -> tens -> tens) (g : nat -> tens) : (forall k M a b c d, f k M a b c d = M a b c d + g k a b c d) ->
  forall M a b c d, loop n f M a b c d = M a b c d + rsum n (fun k => g k a b c d).
Proof. intros H M a b c d. induction n as [|n IH]; cbn; [ring|]. rewrite H, IH. ring. Qed.
Lemma fold_tadd {P} (f : tens -> P -> tens) (g : P -> tens) pts : (forall M p a b c d, f M p a b c d = M a b c d + g p a b c d) ->
  forall M a b c d, fold_left f pts M a b c d = M a b c d + lsum (fun p => g p a b c d) pts.
Proof. intros H. induction pts as [|p pts IH]; intros M a b c d; cbn; [ring|]. rewrite IH, H. ring. Qed.
Lemma mass_jacobian_eq m n pts M k i l j : 
  wave_mass_jacobian m n pts M k i l j =
  M k i l j + (if ((k =? l) && (k <? m) && (i <? n) && (j <? n))%nat then lsum (fun p => w_factor p * (w_phi p j * w_phi p i)) pts else 0).
Proof.
  unfold wave_mass_jacobian.
  rewrite (fold_tadd _ (fun p k i l j => if ((k =? l) && (k <? m) && (i <? n) && (j <? n))%nat then w_factor p * (w_phi p j * w_phi p i) else 0)).
  - f_equal. destruct ((k =? l) && (k <? m) && (i <? n) && (j <? n))%nat; [reflexivity | apply lsum_0].
  - intros M' p k' i' l' j'.
    rewrite (loop_tadd m _ (fun a k i l j => if (k =? a)%nat then (if ((k =? l) && (i <? n) && (j <? n))%nat then w_factor p * (w_phi p j * w_phi p i) else 0) else 0)).
    + rewrite rsum_one. destruct (k' =? l')%nat, (k' <? m)%nat, (i' <? n)%nat, (j' <? n)%nat; reflexivity.
    + intros a M2 k2 i2 l2 j2.
      rewrite (loop_tadd n _ (fun b k i l j => if (i =? b)%nat then (if ((k =? a) && (l =? a) && (j <? n))%nat then w_factor p * (w_phi p j * w_phi p b) else 0) else 0)).
      * rewrite rsum_one. destruct (Nat.eqb_spec k2 a), (Nat.eqb_spec l2 a), (Nat.eqb_spec k2 l2), (i2 <? n)%nat, (j2 <? n)%nat; try reflexivity; congruence.
      * intros b M3 k3 i3 l3 j3.
        rewrite (loop_tadd n _ (fun c k i l j => if (j =? c)%nat then (if ((k =? a) && (l =? a) && (i =? b))%nat then w_factor p * (w_phi p c * w_phi p b) else 0) else 0)).
        -- rewrite rsum_one. destruct (k3 =? a)%nat, (l3 =? a)%nat, (i3 =? b)%nat, (j3 <? n)%nat; reflexivity.
        -- intros c M4 k4 i4 l4 j4. unfold tacc, w_factor. destruct (k4 =? a)%nat, (l4 =? a)%nat, (i4 =? b)%nat, (j4 =? c)%nat; cbn; ring.
Qed.
