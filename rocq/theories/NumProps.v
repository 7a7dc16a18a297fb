(** C50-C53: numerical Jacobians, their application, residuals from Jacobians, local matrices. *)
From Coq Require Import FunctionalExtensionality Lra.
From Verif Require Import CommonFacts NumModel EngineSpec EngineProofs EngineProofs3 NumSpec NumProofs NumProofs2 NumProofs3.
Local Open Scope R_scope.

Ltac lits := repeat match goal with
  | |- context [(?a <? ?b)%nat] => let v := eval vm_compute in (a <? b)%nat in change (a <? b)%nat with v
  | |- context [(?a =? ?b)%nat] => let v := eval vm_compute in (a =? b)%nat in change (a =? b)%nat with v
  end; cbn [andb].

(** ** C50 *)
(** For a term that is affine in the coefficients the numerical Jacobian adds exactly weight times the matrix of the
    term, whatever the step width, and touches no entry outside the block of the bound spaces. *)
Theorem c50_exact : forall eps alpha m n w x a K b,
  0 < eps -> affine m n alpha K b ->
  block_added m n a (num_jacobian eps alpha m n w x a) (fun i j => w * K i j).
Proof.
  intros eps alpha m n w x a K b He HA i j. rewrite num_jacobian_val.
  destruct (Nat.ltb_spec i m); cbn [andb]; auto. destruct (Nat.ltb_spec j n); auto.
  now rewrite (forward_affine eps m n alpha K b).
Qed.
Print Assumptions c50_exact.

Theorem c50_skeleton_exact : forall eps alpha ms mn ns nn w xs xn K b0 a b c d,
  0 < eps -> affine2 ms mn ns nn alpha K b0 ->
  let '((a', b'), (c', d')) := num_jacobian_skeleton eps alpha ms mn ns nn w xs xn ((a, b), (c, d)) in
  block_added ms ns a a' (fun i j => w * fst (fst K) i j) /\ block_added ms nn b b' (fun i j => w * snd (fst K) i j) /\
  block_added mn ns c c' (fun i j => w * fst (snd K) i j) /\ block_added mn nn d d' (fun i j => w * snd (snd K) i j).
Proof. exact num_skeleton_affine. Qed.
Print Assumptions c50_skeleton_exact.

(** For a nonlinear term whose partial derivative d varies by at most L per unit of distance, the entry is off by at
    most weight * L * (step width). *)
Theorem c50_accuracy : forall eps alpha m n w x i j (d : R -> R) L,
  0 < eps -> (i < m)%nat -> (j < n)%nat ->
  (forall h, 0 <= h <= eps * (1 + Rabs (x j)) -> derivable_pt_lim (fun s => alpha (shifted x j s) i) h (d h)) ->
  (forall h, 0 <= h <= eps * (1 + Rabs (x j)) -> Rabs (d h - d 0) <= L * h) ->
  Rabs (num_jacobian eps alpha m n w x mzero i j - w * d 0) <= Rabs w * (L * (eps * (1 + Rabs (x j)))).
Proof.
  intros eps alpha m n w x i j d L He Hi Hj HD HL. rewrite num_jacobian_val.
  destruct (Nat.ltb_spec i m); [|lia]. destruct (Nat.ltb_spec j n); [|lia]. cbn [andb]. unfold mzero.
  replace (0 + w * forward eps alpha x j i - w * d 0) with (w * (forward eps alpha x j i - d 0)) by ring.
  rewrite Rabs_mult. apply Rmult_le_compat_l; [apply Rabs_pos|].
  exact (forward_error eps alpha x i j d L He HD HL).
Qed.
Print Assumptions c50_accuracy.

(** Assembled over a grid: for operators with affine terms the matrix assembled from numerical local Jacobians is the
    derivative of the assembled residual. *)
Theorem c50_assembled : forall eps N G L e cells a s s' x z g,
  0 < eps -> dofs_below N G -> locally_affine G L ->
  derivable_pt_lim (fun h => assemble_residual 0 G L e cells a s (along x z h) vzero g) 0
                   (mv N (assemble_jacobian G L (num_jterms eps G L) e cells a s' x mzero) z g).
Proof. intros. apply assembled_derivative; auto. now apply num_local_derivatives. Qed.
Print Assumptions c50_assembled.

(** A 2x2 affine term, and a quadratic one with a computed error. *)
Definition shear : vec -> vec := fun u i => match i with 0%nat => 3 + u 0%nat + 2 * u 1%nat | _ => u 1%nat end.
Definition shear_k : mat := fun i j => match i, j with 0%nat, 0%nat => 1 | 0%nat, 1%nat => 2 | 1%nat, 1%nat => 1 | _, _ => 0 end.
Definition shear_b : vec := fun i => match i with 0%nat => 3 | _ => 0 end.
Definition sq : vec -> vec := fun u i => u 0%nat * u 0%nat.
Example c50_meets : affine 2 2 shear shear_k shear_b /\
  num_jacobian (1/10) shear 2 2 5 (fun _ => 7) mzero 0%nat 1%nat = 10 /\
  num_jacobian (1/10) sq 1 1 1 (fun _ => 1) mzero 0%nat 0%nat = 2 + 1/5.
Proof.
  split; [|split].
  - intros x i Hi. destruct i as [|[|i]]; [| |lia]; unfold shear, shear_k, shear_b; cbn [nsum]; ring.
  - rewrite num_jacobian_val. unfold forward, shifted, step_width, shear, mzero.
    lits. rewrite !(Rabs_right 7) by lra. field.
  - rewrite num_jacobian_val. unfold forward, shifted, step_width, sq, mzero.
    lits. rewrite !(Rabs_right 1) by lra. field.
Qed.

(** ** C51 *)
(** Volume terms (also the post-skeleton ones): applying is multiplying with the numerical Jacobian, for every term,
    linearisation point, direction and weight. *)
Theorem c51_volume : forall eps alpha m n w x z y,
  coefs_added m y (num_apply eps alpha m n w x z y) (mv n (num_jacobian eps alpha m n w x mzero) z).
Proof.
  intros eps alpha m n w x z y i. rewrite num_apply_val. destruct (Nat.ltb_spec i m) as [H|]; auto.
  f_equal. apply nsum_ext. intros j Hj. rewrite num_jacobian_val.
  destruct (Nat.ltb_spec i m); [|lia]. destruct (Nat.ltb_spec j n); [|lia]. cbn [andb]. unfold mzero. ring.
Qed.
Print Assumptions c51_volume.
(** The version for linear operators. *)
Corollary c51_volume_linear : forall eps alpha m n w x y,
  coefs_added m y (num_apply_linear eps alpha m n w x y) (mv n (num_jacobian eps alpha m n w x mzero) x).
Proof. intros. apply c51_volume. Qed.
Print Assumptions c51_volume_linear.

(** Skeleton terms, in the variant for linear problems (direction = linearisation point). *)
Theorem c51_skeleton_linear : forall eps alpha ms mn ns nn w xs xn ys yn,
  let '((ss, sn), (ns', nn')) := num_jacobian_skeleton eps alpha ms mn ns nn w xs xn ((mzero, mzero), (mzero, mzero)) in
  let '(ys', yn') := num_apply_skeleton_linear eps alpha ms mn ns nn w xs xn (ys, yn) in
  coefs_added ms ys ys' (fun i => mv ns ss xs i + mv nn sn xn i) /\
  coefs_added mn yn yn' (fun i => mv ns ns' xs i + mv nn nn' xn i).
Proof.
  intros eps alpha ms mn ns nn w xs xn ys yn.
  pose proof (num_skeleton_val eps alpha ms mn ns nn w xs xn mzero mzero mzero mzero) as V.
  destruct (num_jacobian_skeleton _ _ _ _ _ _ _ _ _ _) as ((ss, sn), (ns', nn')). destruct V as (V1 & V2 & V3 & V4).
  pose proof (num_apply_faces_val eps alpha ms mn ns nn w xs xn xs xs xn xn ys yn) as A.
  unfold num_apply_skeleton_linear. destruct (num_apply_faces _ _ _ _ _ _ _ _ _ _ _ _ _ _) as (ys', yn').
  destruct A as [A1 A2].
  assert (T : forall m n (B : mat) (f : nat -> vec) v i, (i < m)%nat -> block_added m n mzero B (fun i j => w * f j i) ->
    mv n B v i = w * nsum n (fun j => f j i * v j)).
  { intros m n B f v i Hi HB. unfold mv. rewrite <- nsum_scal. apply nsum_ext. intros j Hj. rewrite HB.
    destruct (Nat.ltb_spec i m); [|lia]. destruct (Nat.ltb_spec j n); [|lia]. cbn [andb]. unfold mzero. ring. }
  split; intros i; [rewrite A1|rewrite A2].
  - destruct (Nat.ltb_spec i ms); auto. rewrite (T _ _ _ _ xs i H V1), (T _ _ _ _ xn i H V2). ring.
  - destruct (Nat.ltb_spec i mn); auto. rewrite (T _ _ _ _ xs i H V3), (T _ _ _ _ xn i H V4). ring.
Qed.
Print Assumptions c51_skeleton_linear.

(** Boundary terms: only for weight one and direction = linearisation point. *)
Theorem c51_boundary_partial : forall eps alpha m n x y,
  coefs_added m y (num_apply_boundary_linear eps alpha m n 1 x y) (mv n (num_jacobian eps alpha m n 1 x mzero) x).
Proof. intros. apply (c51_volume eps alpha m n 1 x x y). Qed.
Print Assumptions c51_boundary_partial.

(** In the nonlinear skeleton variant the rows of the outside cell are multiplied with the linearisation point. *)
Theorem c51_skeleton_refuted : exists eps alpha K xs zs xn zn,
  0 < eps /\ affine2 1 1 1 1 alpha K (vzero, vzero) /\
  snd (num_apply_skeleton eps alpha 1 1 1 1 1 xs zs xn zn (vzero, vzero)) 0%nat <>
  fst (snd K) 0%nat 0%nat * zs 0%nat + snd (snd K) 0%nat 0%nat * zn 0%nat.
Proof.
  exists 1, (fun us _ => (vzero, fun _ => us 0%nat)), ((mzero, mzero), (fun _ _ => 1, mzero)), vzero, (fun _ => 1), vzero, vzero.
  split; [lra|]. split.
  - intros xs xn i. split; intros Hi; cbn; unfold vzero, mzero; ring.
  - pose proof (num_apply_faces_val 1 (fun us _ => (vzero, fun _ => us 0%nat)) 1 1 1 1 1 vzero vzero (fun _ => 1) vzero vzero vzero vzero vzero) as A.
    unfold num_apply_skeleton. destruct (num_apply_faces _ _ _ _ _ _ _ _ _ _ _ _ _ _) as (ys', yn').
    destruct A as [_ A]. cbn [snd fst]. rewrite A. cbn [nsum]. lits. unfold vzero, mzero. lra.
Qed.
Print Assumptions c51_skeleton_refuted.

(** In the nonlinear boundary variant the direction is not used at all. *)
Theorem c51_boundary_refuted : exists eps alpha K x z,
  0 < eps /\ affine 1 1 alpha K vzero /\
  num_apply_boundary eps alpha 1 1 1 x z vzero 0%nat <> K 0%nat 0%nat * z 0%nat.
Proof.
  exists 1, (fun u => u), (fun _ _ => 1), vzero, (fun _ => 1). split; [lra|]. split.
  - intros x i Hi. assert (i = 0%nat) by lia. subst. cbn. unfold vzero. ring.
  - unfold num_apply_boundary. rewrite num_apply_boundary_val. cbn [nsum]. lits. unfold vzero. lra.
Qed.
Print Assumptions c51_boundary_refuted.

(** Both boundary variants ignore the accumulation weight, which is the time step factor in instationary problems. *)
Theorem c51_boundary_weight_refuted : exists eps alpha K x w,
  0 < eps /\ affine 1 1 alpha K vzero /\
  num_apply_boundary_linear eps alpha 1 1 w x vzero 0%nat <> w * (K 0%nat 0%nat * x 0%nat).
Proof.
  exists 1, (fun u => u), (fun _ _ => 1), (fun _ => 1), 2. split; [lra|].
  assert (A : affine 1 1 (fun u => u) (fun _ _ => 1) vzero).
  { intros x i Hi. assert (i = 0%nat) by lia. subst. cbn. unfold vzero. ring. }
  split; [exact A|].
  rewrite num_apply_boundary_val. cbn [nsum]. lits.
  rewrite (forward_affine 1 1 1 _ _ _ (fun _ => 1) 0%nat 0%nat ltac:(lra) A) by lia. unfold vzero. lra.
Qed.
Print Assumptions c51_boundary_weight_refuted.

Example c51_meets : num_apply (1/10) shear 2 2 5 (fun _ => 7) (fun j => INR j + 1) vzero 0%nat = 25.
Proof.
  rewrite num_apply_val. unfold forward, shifted, step_width, shear, vzero.
  cbn [nsum INR]. lits. rewrite !(Rabs_right 7) by lra. field.
Qed.

(** ** C52 *)
(** alpha computed from jacobian: r += weight * K x with K the sum of the accumulated entries. *)
Theorem c52_volume : forall jac w x r,
  entries_in (length r) (length x) (jac x) ->
  exists r', jb_alpha_volume jac w x r = Ok r' /\ times_added w (entry_sum (jac x)) x r r'.
Proof. exact jb_volume_ok. Qed.
Print Assumptions c52_volume.

Theorem c52_skeleton : forall jac ws wn xs xn rs rn,
  let e := jac xs xn in
  entries_in (length rs) (length xs) (e_ss e) -> entries_in (length rs) (length xn) (e_sn e) ->
  entries_in (length rn) (length xs) (e_ns e) -> entries_in (length rn) (length xn) (e_nn e) ->
  exists rs' rn', jb_alpha_skeleton jac ws wn xs xn rs rn = Ok (rs', rn') /\
    length rs' = length rs /\ length rn' = length rn /\
    (forall i, (i < length rs)%nat -> nth i rs' 0 = nth i rs 0 +
       ws * (nsum (length xs) (fun j => entry_sum (e_ss e) i j * nth j xs 0) + nsum (length xn) (fun j => entry_sum (e_sn e) i j * nth j xn 0))) /\
    (forall i, (i < length rn)%nat -> nth i rn' 0 = nth i rn 0 +
       wn * (nsum (length xs) (fun j => entry_sum (e_ns e) i j * nth j xs 0) + nsum (length xn) (fun j => entry_sum (e_nn e) i j * nth j xn 0))).
Proof. exact jb_skeleton_ok. Qed.
Print Assumptions c52_skeleton.

(** Boundary: only if trial and test space have the same local size, because the sizes are swapped. *)
Theorem c52_boundary_partial : forall jac w x r,
  length r = length x -> entries_in (length r) (length x) (jac x) ->
  exists r', jb_alpha_boundary jac w x r = Ok r' /\ times_added w (entry_sum (jac x)) x r r'.
Proof. exact jb_boundary_ok. Qed.
Print Assumptions c52_boundary_partial.

(** With two test functions and one trial function the entry of the second row is written outside the matrix. *)
Theorem c52_boundary_refuted : exists jac x r,
  entries_in (length r) (length x) (jac x) /\ jb_alpha_boundary jac 1 x r = UB.
Proof.
  exists (fun _ => [((1, 0)%nat, 1)]), [1], [0; 0]. split.
  - intros e He. in_cases He. subst. cbn. lia.
  - reflexivity.
Qed.
Print Assumptions c52_boundary_refuted.

Example c52_meets : entries_in 2 3 [((1, 2)%nat, 4); ((0, 1)%nat, 2); ((1, 2)%nat, 1)] /\
  exists r, jb_alpha_volume (fun _ => [((1, 2)%nat, 4); ((0, 1)%nat, 2); ((1, 2)%nat, 1)]) 2 [7; 3; 1] [0; 1] = Ok r /\
    nth 0 r 0 = 12 /\ nth 1 r 0 = 11.
Proof.
  assert (H : entries_in 2 3 [((1, 2)%nat, 4); ((0, 1)%nat, 2); ((1, 2)%nat, 1)]).
  { intros e He. in_cases He; subst; cbn; lia. }
  split; [exact H|].
  destruct (jb_volume_ok (fun _ => [((1, 2)%nat, 4); ((0, 1)%nat, 2); ((1, 2)%nat, 1)]) 2 [7; 3; 1] [0; 1] H) as (r & E & L & V).
  exists r. split; [exact E|]. split.
  - rewrite (V 0%nat) by (cbn; lia). cbn. ring.
  - rewrite (V 1%nat) by (cbn; lia). cbn. ring.
Qed.

(** ** C53 *)
(** Accumulating entries changes exactly those entries; no two positions share storage. *)
Theorem c53_accumulate : forall w l a, lmat_ok a -> entries_in (lrows a) (lcols a) l ->
  exists a', foldM (laccumulate w) l a = Ok a' /\ lmat_ok a' /\ lrows a' = lrows a /\ lcols a' = lcols a /\
    forall i j, (i < lrows a)%nat -> (j < lcols a)%nat -> entry a' i j = entry a i j + w * entry_sum l i j.
Proof. exact entries_ok. Qed.
Print Assumptions c53_accumulate.

Theorem c53_usmv : forall alpha a x y, lmat_ok a -> length x = lcols a -> length y = lrows a ->
  exists y', usmv alpha a x y = Ok y' /\ times_added alpha (entry a) x y y'.
Proof.
  intros alpha a x y W Lx Ly. destruct (usmv_ok alpha a x y W) as (y' & E & L & V); [lia|lia|].
  exists y'. split; [exact E|]. split; [exact L|]. intros i Hi. rewrite V.
  destruct (Nat.ltb_spec i (lrows a)); [|lia]. now rewrite Lx.
Qed.
Print Assumptions c53_usmv.

(** Resizing gives a matrix of the wanted size.  If the number of rows stays, the entries of the columns kept stay and new
    columns are zero; in all cases filling then sets all entries. *)
Theorem c53_resize : forall a r c, 
  lmat_ok (lresize a r c) /\ lrows (lresize a r c) = r /\ lcols (lresize a r c) = c /\
  (lmat_ok a -> lrows a = r -> forall i j, (i < r)%nat -> (j < c)%nat ->
     entry (lresize a r c) i j = if (j <? lcols a)%nat then entry a i j else 0) /\
  (forall t i j, (i < r)%nat -> (j < c)%nat -> entry (lfill (lresize a r c) t) i j = t).
Proof.
  intros a r c. assert (W : lmat_ok (lresize a r c)).
  { unfold lmat_ok, lresize. cbn [lrows lcols ldata]. rewrite firstn_length, app_length, repeat_length. lia. }
  split; [exact W|]. split; [reflexivity|]. split; [reflexivity|]. split.
  - intros Wa E i j Hi Hj. unfold entry, lresize. cbn [lrows ldata]. unfold lmat_ok in Wa. rewrite E in *.
    assert (B : (j * r + i < r * c)%nat) by nia.
    assert (F : forall l : list R, nth (j * r + i) (firstn (r * c) l) 0 = nth (j * r + i) l 0).
    { intro l. rewrite <- (firstn_skipn (r * c) l) at 2. destruct (Nat.le_gt_cases (length l) (j * r + i)) as [K|K].
      - rewrite !nth_overflow; [reflexivity|rewrite firstn_skipn; exact K|rewrite firstn_length; lia].
      - rewrite app_nth1; [reflexivity|]. rewrite firstn_length. lia. }
    rewrite F.
    destruct (Nat.ltb_spec j (lcols a)) as [H|H].
    + rewrite app_nth1 by nia. reflexivity.
    + rewrite app_nth2 by nia. apply nth_repeat.
  - intros t i j Hi Hj. unfold entry, lfill. cbn [lrows ldata]. unfold lmat_ok in W. rewrite W. cbn [lresize lrows lcols].
    assert (B : (j * r + i < r * c)%nat) by nia.
    rewrite (nth_indep _ _ t) by now rewrite repeat_length. apply nth_repeat.
Qed.
Print Assumptions c53_resize.

(** With another number of rows the entries move to other positions. *)
Theorem c53_resize_rows_refuted : exists a, lmat_ok a /\ entry a 0 1 = 3 /\
  entry (lresize a 3 2) 0 1 = 4 /\ entry (lresize a 3 2) 2 0 = 3.
Proof. exists (mklmat 2 2 [1; 2; 3; 4]). repeat split. Qed.
Print Assumptions c53_resize_rows_refuted.

(** Scaling and filling. *)
Theorem c53_scale_fill : forall a t, lmat_ok a ->
  lmat_ok (lscale a t) /\ lmat_ok (lfill a t) /\
  forall i j, (i < lrows a)%nat -> (j < lcols a)%nat ->
    entry (lscale a t) i j = t * entry a i j /\ entry (lfill a t) i j = t.
Proof.
  intros a t W. unfold lmat_ok in *. split; [cbn; now rewrite map_length|]. split; [cbn; now rewrite repeat_length|].
  intros i j Hi Hj. unfold entry. cbn [lrows ldata lscale lfill]. 
  assert (B : (j * lrows a + i < length (ldata a))%nat) by (rewrite W; nia).
  split.
  - rewrite (nth_indep _ _ (t * 0)) by now rewrite map_length. apply (map_nth (fun v => t * v)).
  - rewrite (nth_indep _ _ t) by now rewrite repeat_length. apply nth_repeat.
Qed.
Print Assumptions c53_scale_fill.

(** Iterating from begin visits every position once, row by row, and ends at end; decrement undoes increment. *)
Theorem c53_iteration : forall a,
  map (fun k => steps k (it_next a) it_begin) (seq 0 (lrows a * lcols a)) = positions (lrows a) (lcols a) /\
  steps (lrows a * lcols a) (it_next a) it_begin = it_end a /\
  (forall k, (k < lrows a * lcols a)%nat -> steps k (it_next a) it_begin <> it_end a) /\
  forall p, In p (positions (lrows a) (lcols a)) -> it_prev a (it_next a p) = p.
Proof.
  intros a. split; [|split; [|split]].
  - apply nth_ext with (d := (0, 0)%nat) (d' := (0, 0)%nat); rewrite map_length, seq_length.
    + now rewrite positions_length.
    + intros k Hk. rewrite (nth_indep _ _ (steps 0 (it_next a) it_begin)) by (rewrite map_length, seq_length; lia).
      rewrite (map_nth (fun k => steps k (it_next a) it_begin)). rewrite seq_nth by assumption. now apply iteration.
  - apply iteration_end.
  - intros k Hk. rewrite iteration by assumption. intros E.
    assert (I : In (it_end a) (positions (lrows a) (lcols a))) by (rewrite <- E; apply nth_In; now rewrite positions_length).
    unfold it_end in I. destruct (Nat.ltb_spec 0 (lcols a)); [|nia].
    apply in_flat_map in I as (i & Hi & I). apply in_map_iff in I as (j & Ej & _). apply in_seq in Hi. injection Ej. lia.
  - intros p Hp. apply next_prev. apply in_flat_map in Hp as (i & _ & I). apply in_map_iff in I as (j & <- & Hj).
    apply in_seq in Hj. cbn. lia.
Qed.
Print Assumptions c53_iteration.

(** Accumulating into a diagonal matrix changes exactly the addressed diagonal entries. *)
Theorem c53_diagonal_accumulate : forall w l a, (forall e, In e l -> fst e < length (ddata a))%nat ->
  exists a', foldM (daccumulate w) l a = Ok a' /\ drows a' = drows a /\ dcols a' = dcols a /\ length (ddata a') = length (ddata a) /\
    forall i, (i < length (ddata a))%nat -> dget a' i i = Ok (nth i (ddata a) 0 + w * lsum (fun e => if (fst e =? i)%nat then snd e else 0) l).
Proof.
  intros w. induction l as [|[k v] l IH]; intros a H; cbn [foldM].
  - exists a. repeat split. intros i Hi. unfold dget. destruct (nth_error (ddata a) i) eqn:E; [|apply nth_error_None in E; lia].
    rewrite (nth_error_nth _ _ _ E). f_equal. cbn. ring.
  - assert (Hk : (k < length (ddata a))%nat) by apply (H (k, v) (or_introl eq_refl)).
    unfold daccumulate at 1, dget at 1. destruct (nth_error (ddata a) k) as [o|] eqn:E; [|apply nth_error_None in E; lia].
    cbn [bind]. unfold rset. destruct (Nat.ltb_spec k (length (ddata a))); [|lia]. cbn [bind].
    destruct (IH (mkdmat (drows a) (dcols a) (upd k (o + w * v) (ddata a)))) as (a' & F & R1 & R2 & R3 & V).
    { cbn [ddata]. rewrite upd_length. intros e He. apply H. now right. }
    cbn [ddata drows dcols] in *. rewrite upd_length in *. exists a'. repeat split; auto. intros i Hi. rewrite V by exact Hi. f_equal.
    unfold lsum in *. cbn [map fst snd]. cbn. 
    destruct (Nat.eqb_spec k i) as [->|N].
    + rewrite (nth_error_nth _ _ _ (upd_nth_error_same _ _ _ Hi)), (nth_error_nth _ _ _ E). cbn. ring.
    + replace (nth i (upd k (o + w * v) (ddata a)) 0) with (nth i (ddata a) 0); [cbn; ring|].
      destruct (nth_error (ddata a) i) as [x|] eqn:Ei; [|apply nth_error_None in Ei; lia].
      rewrite (nth_error_nth _ _ _ Ei). symmetry. apply nth_error_nth. rewrite upd_nth_error_other; auto.
Qed.
Print Assumptions c53_diagonal_accumulate.
Example c53_diagonal_meets : let a := dmat_new 2 1 in ddata a = [1; 1] /\
  exists a', foldM (daccumulate 2) [(1%nat, 3); (1%nat, 4)] a = Ok a' /\ dget a' 1 1 = Ok 15 /\ dget a' 0 0 = Ok 1.
Proof. cbn. split; [reflexivity|]. eexists. split; [reflexivity|]. cbn. split; [f_equal; ring|reflexivity]. Qed.

(** The diagonal matrix multiplies wrongly in a release build (a debug build stops at the assertion). *)
Theorem c53_diagonal_refuted : exists a x y, ddata a = [1; 1] /\ x = [1; 1] /\ y = [0; 0] /\
  (forall y', dusmv 1 a x y = Ok y' -> nth 0 y' 0 = 2) /\ dusmv 1 a x y <> UB /\ dusmv 1 a x y <> Throw /\
  dget_checked a 0 1 = UB.
Proof.
  exists (mkdmat 2 2 [1; 1]), [1; 1], [0; 0]. repeat (split; [reflexivity|]).
  split; [intros y' Ey; cbn in Ey; injection Ey as <-; cbn; ring|].
  split; [discriminate|split; [discriminate|reflexivity]].
Qed.
Print Assumptions c53_diagonal_refuted.

Example c53_meets : let a := lmat_new 2 3 0 in lmat_ok a /\
  (exists b, foldM (laccumulate 2) [((1, 2)%nat, 4); ((0, 0)%nat, 1)] a = Ok b /\ entry b 1 2 = 8 /\ entry b 0 1 = 0) /\
  positions 2 3 = [(0, 0); (0, 1); (0, 2); (1, 0); (1, 1); (1, 2)]%nat.
Proof.
  cbv zeta. split; [apply lmat_new_ok|]. split; [|reflexivity].
  destruct (entries_ok 2 [((1, 2)%nat, 4); ((0, 0)%nat, 1)] (lmat_new 2 3 0)) as (b & E & _ & _ & _ & V).
  - apply lmat_new_ok.
  - intros e He. in_cases He; subst; cbn; lia.
  - exists b. split; [exact E|]. rewrite !V by (cbn; lia). rewrite !lmat_new_entry by lia. cbn. split; ring.
Qed.
