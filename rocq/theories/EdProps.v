(** C124 - C127: electrodynamics, curls and cross products, Darcy velocities of finite element solutions, functionals. *)
From Verif Require Import Common CommonFacts CdModel CdSpec CdProofs CdProps FlowProofs TpProofs EdModel EdSpec EdProofs.
From Coq Require Import Reals Lra Lia.
Open Scope R_scope.
Local Arguments rsum : simpl never.

(** ** C124: the operators of electrodynamics *)
(** The residual of T is the integral of epsilon u . N_i, that of S the integral of 1/mu curl u . curl N_i, times the weight of the residual; the DOFs of other spaces in
    the same container are left alone. *)
Theorem c124_residual : forall dim n off rows cols w pts x r, (dim = 2 \/ dim = 3)%nat -> (off + n <= cols)%nat ->
  (forall i, (i < n)%nat -> (off + i < rows)%nat ->
     ed_T_alpha dim n off rows cols w pts x r (off + i)%nat = r (off + i)%nat + w * form_T dim n pts (part off x) (unit i) /\
     ed_S_alpha dim n off rows cols w pts x r (off + i)%nat = r (off + i)%nat + w * form_S dim n pts (part off x) (unit i)) /\
  (forall k, (k < rows)%nat -> (k < off \/ off + n <= k)%nat -> ed_T_alpha dim n off rows cols w pts x r k = r k /\ ed_S_alpha dim n off rows cols w pts x r k = r k).
Proof.
  intros dim n off rows cols w pts x r Hd Hc. unfold ed_T_alpha, ed_S_alpha.
  assert (ET : forall k, (k < rows)%nat -> jacobian_based_alpha rows cols (fun w m => ed_T_jacobian dim n off w pts m) w x r k =
    r k + (if hit off n k then w * lsum (fun p => rsum n (fun j => val_T dim p (k - off)%nat j * part off x j)) pts else 0)).
  { intros k Hk. rewrite <- gen_alpha_at with (rows := rows) (cols := cols) by easy. unfold jacobian_based_alpha. now rewrite T_gen. }
  assert (ES : forall k, (k < rows)%nat -> jacobian_based_alpha rows cols (fun w m => ed_S_jacobian dim n off w pts m) w x r k =
    r k + (if hit off n k then w * lsum (fun p => rsum n (fun j => val_S dim p (k - off)%nat j * part off x j)) pts else 0)).
  { intros k Hk. rewrite <- gen_alpha_at with (rows := rows) (cols := cols) by easy. unfold jacobian_based_alpha. now rewrite S_gen. }
  split.
  - intros i Hi Hr. rewrite ET, ES by easy. replace (off + i - off)%nat with i by lia.
    assert (hit off n (off + i) = true) as -> by (unfold hit; lia). now rewrite T_sum, S_sum.
  - intros k Hk H. rewrite ET, ES by easy. assert (hit off n k = false) as -> by (unfold hit; lia). split; ring.
Qed.
Print Assumptions c124_residual.

(** The matrices have the bilinear forms as entries ... *)
Theorem c124_matrix : forall dim n off w pts m i j, (dim = 2 \/ dim = 3)%nat -> (i < n)%nat -> (j < n)%nat ->
  ed_T_jacobian dim n off w pts m (off + i)%nat (off + j)%nat = m (off + i)%nat (off + j)%nat + w * form_T dim n pts (unit j) (unit i) /\
  ed_S_jacobian dim n off w pts m (off + i)%nat (off + j)%nat = m (off + i)%nat (off + j)%nat + w * form_S dim n pts (unit j) (unit i).
Proof.
  intros dim n off w pts m i j Hd Hi Hj. rewrite T_gen, S_gen, !gen_jacobian_at by easy.
  assert (hit off n (off + i) = true) as -> by (unfold hit; lia). assert (hit off n (off + j) = true) as -> by (unfold hit; lia).
  replace (off + i - off)%nat with i by lia. replace (off + j - off)%nat with j by lia. rewrite <- (T_entry dim n pts i j), <- (S_entry dim n pts i j) by easy. split; reflexivity.
Qed.
Print Assumptions c124_matrix.

(** ... and are the derivatives of the residuals, for every weight. *)
Theorem c124_derivative : forall dim n rows cols w pts r, (dim = 2 \/ dim = 3)%nat -> (n <= rows)%nat -> (n <= cols)%nat ->
  derivative n n (ed_T_jacobian dim n 0 w pts zerom) (fun x => ed_T_alpha dim n 0 rows cols w pts x r) /\
  derivative n n (ed_S_jacobian dim n 0 w pts zerom) (fun x => ed_S_alpha dim n 0 rows cols w pts x r).
Proof.
  intros dim n rows cols w pts r Hd Hr Hc.
  assert (L : forall val x delta i, (i < n)%nat -> lsum (fun p => rsum n (fun j => val p i j * part 0 (plusv x delta) j)) pts =
    lsum (fun p => rsum n (fun j => val p i j * part 0 x j)) pts + rsum n (fun j => lsum (fun p : epoint => val p i j) pts * delta j)).
  { intros val x delta i Hi. rewrite (rsum_ext n (fun j => _ * delta j) (fun j => lsum (fun p => delta j * val p i j) pts)) by (intros; rewrite lsum_scal; ring).
    rewrite rsum_lsum, <- lsum_plus. apply lsum_ext. intros p _. rewrite <- rsum_plus. apply rsum_ext. intros j _. unfold part, plusv. cbn. ring. }
  split; intros x delta i Hi.
  - destruct (c124_residual dim n 0 rows cols w pts (plusv x delta) r Hd Hc) as [A _]. destruct (c124_residual dim n 0 rows cols w pts x r Hd Hc) as [B _].
    destruct (A i Hi) as [A1 _]; [lia|]. destruct (B i Hi) as [B1 _]; [lia|]. cbn [Nat.add] in A1, B1. rewrite A1, B1. rewrite <- !T_sum, L by easy.
    rewrite Rmult_plus_distr_l, <- Rplus_assoc. f_equal. rewrite <- rsum_scal. apply rsum_ext. intros j Hj.
    destruct (c124_matrix dim n 0 w pts zerom i j Hd Hi Hj) as [M _]. cbn [Nat.add] in M. rewrite M, <- T_entry by easy. unfold zerom. ring.
  - destruct (c124_residual dim n 0 rows cols w pts (plusv x delta) r Hd Hc) as [A _]. destruct (c124_residual dim n 0 rows cols w pts x r Hd Hc) as [B _].
    destruct (A i Hi) as [_ A1]; [lia|]. destruct (B i Hi) as [_ B1]; [lia|]. cbn [Nat.add] in A1, B1. rewrite A1, B1. rewrite <- !S_sum, L by easy.
    rewrite Rmult_plus_distr_l, <- Rplus_assoc. f_equal. rewrite <- rsum_scal. apply rsum_ext. intros j Hj.
    destruct (c124_matrix dim n 0 w pts zerom i j Hd Hi Hj) as [_ M]. cbn [Nat.add] in M. rewrite M, <- S_entry by easy. unfold zerom. ring.
Qed.
Print Assumptions c124_derivative.

(** Both matrices are symmetric. *)
Theorem c124_symmetric : forall dim n w pts, (dim = 2 \/ dim = 3)%nat ->
  symmetric n (ed_T_jacobian dim n 0 w pts zerom) /\ symmetric n (ed_S_jacobian dim n 0 w pts zerom).
Proof.
  intros dim n w pts Hd. split; intros i j Hi Hj; destruct (c124_matrix dim n 0 w pts zerom i j Hd Hi Hj) as [A B]; destruct (c124_matrix dim n 0 w pts zerom j i Hd Hj Hi) as [C D];
    cbn [Nat.add] in *; [rewrite A, C, form_T_sym|rewrite B, D, form_S_sym]; reflexivity.
Qed.
Print Assumptions c124_symmetric.

(** The energies are nonnegative. With positive quadrature weights, that of T vanishes for fields that vanish in the quadrature points only, that of S for fields whose
    curl vanishes there. *)
Theorem c124_energy : forall dim n pts x, (forall p, In p pts -> 0 < e_weight p /\ 0 < e_ie p /\ 0 < e_mat p) ->
  0 <= form_T dim n pts x x /\ 0 <= form_S dim n pts x x /\
  (form_T dim n pts x x = 0 -> forall p k, In p pts -> (k < dim)%nat -> value_at n x (e_phi p) k = 0) /\
  (form_S dim n pts x x = 0 -> forall p k, In p pts -> (k < 3)%nat -> curl_of dim (jacobian_at n x (e_J p)) k = 0).
Proof.
  intros dim n pts x H.
  assert (FT : forall p, In p pts -> 0 < e_weight p * e_ie p * e_mat p).
  { intros p Hp. destruct (H p Hp) as (A & B & C). repeat apply Rmult_lt_0_compat; easy. }
  assert (FS : forall p, In p pts -> 0 < e_weight p * e_ie p * / e_mat p).
  { intros p Hp. destruct (H p Hp) as (A & B & C). repeat apply Rmult_lt_0_compat; try easy. now apply Rinv_0_lt_compat. }
  assert (NT : forall p, In p pts -> 0 <= e_weight p * e_ie p * e_mat p * inner dim (value_at n x (e_phi p)) (value_at n x (e_phi p))).
  { intros p Hp. apply Rmult_le_pos; [left; now apply FT|apply inner_sq]. }
  assert (NS : forall p, In p pts -> 0 <= e_weight p * e_ie p * / e_mat p * inner 3 (curl_of dim (jacobian_at n x (e_J p))) (curl_of dim (jacobian_at n x (e_J p)))).
  { intros p Hp. apply Rmult_le_pos; [left; now apply FS|apply inner_sq]. }
  split; [now apply lsum_nonneg|]. split; [now apply lsum_nonneg|]. split; intros E p k Hp Hk.
  - pose proof (lsum_pos0 _ _ NT E p Hp) as Z. apply Rmult_integral in Z as [Z|Z]; [pose proof (FT p Hp); lra|]. now apply (inner_sq0 dim (value_at n x (e_phi p)) Z).
  - pose proof (lsum_pos0 _ _ NS E p Hp) as Z. apply Rmult_integral in Z as [Z|Z]; [pose proof (FS p Hp); lra|]. now apply (inner_sq0 3 (curl_of dim (jacobian_at n x (e_J p))) Z).
Qed.
Print Assumptions c124_energy.

(** Gradients (fields with a symmetric Jacobian) are in the kernel of S. *)
Theorem c124_gradients : forall dim n off rows cols w pts x r k, (dim = 2 \/ dim = 3)%nat -> (off + n <= cols)%nat -> (k < rows)%nat ->
  (forall p a b, In p pts -> (a < dim)%nat -> (b < dim)%nat -> jacobian_at n (part off x) (e_J p) a b = jacobian_at n (part off x) (e_J p) b a) ->
  ed_S_alpha dim n off rows cols w pts x r k = r k.
Proof.
  intros dim n off rows cols w pts x r k Hd Hc Hk HS. destruct (c124_residual dim n off rows cols w pts x r Hd Hc) as [A B].
  destruct (Nat.lt_ge_cases k off) as [L|L]; [now apply B; [|left]|]. destruct (Nat.lt_ge_cases k (off + n)) as [L2|L2]; [|now apply B; [|right]].
  destruct (A (k - off)%nat) as [_ E]; [lia|lia|]. replace (off + (k - off))%nat with k in E by lia. rewrite E.
  assert (Z : form_S dim n pts (part off x) (unit (k - off)) = 0); [|rewrite Z; ring].
  unfold form_S. transitivity (lsum (fun _ : epoint => 0) pts); [|apply lsum_0]. apply lsum_ext. intros p Hp.
  assert (C : forall a, (a < 3)%nat -> curl_of dim (jacobian_at n (part off x) (e_J p)) a = 0).
  { intros a Ha. unfold curl_of. destruct Hd as [-> | ->]; cbn [Nat.eqb].
    - destruct (curl_components (plane_field (jacobian_at n (part off x) (e_J p)))) as (C1 & C2 & C3).
      destruct a as [|[|[|]]]; [rewrite C1|rewrite C2|rewrite C3|lia]; unfold plane_field, Nat.ltb; cbn; try ring. rewrite (HS p 1%nat 0%nat) by (easy || lia). ring.
    - destruct (curl_components (jacobian_at n (part off x) (e_J p))) as (C1 & C2 & C3).
      destruct a as [|[|[|]]]; [rewrite C1, (HS p 1%nat 2%nat)|rewrite C2, (HS p 0%nat 2%nat)|rewrite C3, (HS p 0%nat 1%nat)|lia]; easy || lia || ring. }
  unfold inner. rewrite rsum3, !C by lia. ring.
Qed.
Print Assumptions c124_gradients.

(** Curls of fields in the plane have one component, in space three; beyond three space dimensions dimOfCurl throws. *)
Theorem c124_dimension : forall d, (dim_of_curl d = Throw <-> d = 0%nat \/ (3 < d)%nat) /\ dim_of_curl 2 = Ok 1%nat /\ dim_of_curl 3 = Ok 3%nat.
Proof. intros d. split; [|easy]. destruct d as [|[|[|[|d]]]]; cbn; split; intros; try discriminate; try lia; reflexivity || (left; reflexivity) || (right; lia). Qed.
Print Assumptions c124_dimension.

(** The rotation (-y, x) and the constant field (1, 0) in the point (1/2, 0) of the plane. *)
Definition ed_point : epoint := mkep 2 3 5
  (fun i k => match i, k with 0%nat, 1%nat => 1/2 | 1%nat, 0%nat => 1 | _, _ => 0 end)
  (fun i k l => match i, k, l with 0%nat, 0%nat, 1%nat => -1 | 0%nat, 1%nat, 0%nat => 1 | _, _, _ => 0 end).
Example c124_example : let x : vec := fun k => match k with 4%nat => 1 | 5%nat => 7 | _ => 100 end in
  (forall p, In p [ed_point] -> 0 < e_weight p /\ 0 < e_ie p /\ 0 < e_mat p) /\
  ed_S_alpha 2 2 4 6 6 (1/2) [ed_point] x zerov 4%nat = 12/5 /\ ed_T_alpha 2 2 4 6 6 (1/2) [ed_point] x zerov 5%nat = 105 /\
  ed_S_alpha 2 2 4 6 6 (1/2) [ed_point] (fun k => match k with 5%nat => 7 | _ => 0 end) zerov 4%nat = 0.
Proof.
  intros x. assert (C : forall p, In p [ed_point] -> 0 < e_weight p /\ 0 < e_ie p /\ 0 < e_mat p) by (intros p [<-|[]]; cbn; lra). split; [exact C|].
  destruct (c124_residual 2 2 4 6 6 (1/2) [ed_point] x zerov) as [A _]; [now left|lia|].
  destruct (A 0%nat) as [_ A1]; [lia|lia|]. destruct (A 1%nat) as [A2 _]; [lia|lia|]. cbn [Nat.add] in A1, A2. rewrite A1, A2. clear A A1 A2. split; [|split].
  - rewrite <- S_sum by lia. cbn [lsum]. rewrite !rsum_S. unfold val_S, inner. rewrite !rsum3. unfold curl_of. cbn [Nat.eqb].
    destruct (curl_components (plane_field (e_J ed_point 0))) as (-> & -> & ->). destruct (curl_components (plane_field (e_J ed_point 1))) as (-> & -> & ->).
    unfold plane_field, Nat.ltb, part, x, rsum, zerov. cbn. field.
  - rewrite <- T_sum by lia. cbn [lsum]. unfold val_T, inner. rewrite !rsum_S. unfold rsum, part, x, zerov. cbn. field.
  - apply c124_gradients; [now left|lia|lia|]. intros p a b [<-|[]] Ha Hb. unfold jacobian_at. rewrite !rsum_S. unfold rsum, part.
    destruct a as [|[|]], b as [|[|]]; try lia; cbn; ring.
Qed.

(** ** C125: curls and cross products *)
(** All variants are the curl in space: of the field itself, of a field in the plane that does not depend on the third coordinate, and of a field perpendicular to the plane. *)
Theorem c125_curl : forall J,
  (forall i, (i < 3)%nat -> curl33 J i = curl J i /\ jacobian_to_curl 3 J i = curl J i) /\
  (curl (plane_field J) 0%nat = 0 /\ curl (plane_field J) 1%nat = 0 /\ curl22 J 0%nat = curl (plane_field J) 2%nat /\ jacobian_to_curl 2 J 0%nat = curl (plane_field J) 2%nat) /\
  (forall i, (i < 2)%nat -> curl12 J i = curl (perpendicular_field J) i) /\ curl (perpendicular_field J) 2%nat = 0.
Proof.
  intros J. split; [|split; [|split]].
  - intros i Hi. split; [now apply curl33_eq|]. rewrite <- curl33_eq by easy. reflexivity.
  - destruct (curl_components (plane_field J)) as (-> & -> & ->). unfold plane_field, curl22, jacobian_to_curl, Nat.ltb. cbn. repeat split; ring.
  - intros i Hi. destruct (curl_components (perpendicular_field J)) as (A & B & C).
    destruct i as [|[|]]; [rewrite A|rewrite B|lia]; unfold perpendicular_field, curl12, Nat.ltb; cbn; ring.
  - destruct (curl_components (perpendicular_field J)) as (_ & _ & ->). unfold perpendicular_field, Nat.ltb. cbn. ring.
Qed.
Print Assumptions c125_curl.

(** All variants of the cross product are the cross product in space. *)
Theorem c125_cross : forall b c,
  (forall i, (i < 3)%nat -> cross33 b c i = cross b c i) /\
  (cross22 b c 0%nat = cross (in_plane b) (in_plane c) 2%nat /\ cross (in_plane b) (in_plane c) 0%nat = 0 /\ cross (in_plane b) (in_plane c) 1%nat = 0) /\
  ((forall i, (i < 2)%nat -> cross21 b c i = cross (in_plane b) (perpendicular c) i) /\ cross (in_plane b) (perpendicular c) 2%nat = 0) /\
  ((forall i, (i < 2)%nat -> cross12 b c i = cross (perpendicular b) (in_plane c) i) /\ cross (perpendicular b) (in_plane c) 2%nat = 0).
Proof.
  intros b c. split; [intros; now apply cross33_eq|].
  destruct (cross_components (in_plane b) (in_plane c)) as (A1 & A2 & A3). destruct (cross_components (in_plane b) (perpendicular c)) as (B1 & B2 & B3).
  destruct (cross_components (perpendicular b) (in_plane c)) as (C1 & C2 & C3).
  split; [|split; split].
  - rewrite A1, A2, A3. unfold in_plane, cross22, Nat.ltb. cbn. repeat split; ring.
  - intros i Hi. destruct i as [|[|]]; [rewrite B1|rewrite B2|lia]; unfold in_plane, perpendicular, cross21, Nat.ltb; cbn; ring.
  - rewrite B3. unfold in_plane, perpendicular, Nat.ltb. cbn. ring.
  - intros i Hi. destruct i as [|[|]]; [rewrite C1|rewrite C2|lia]; unfold in_plane, perpendicular, cross12, Nat.ltb; cbn; ring.
  - rewrite C3. unfold in_plane, perpendicular, Nat.ltb. cbn. ring.
Qed.
Print Assumptions c125_cross.

(** What one expects of a cross product: antisymmetric, perpendicular to both factors, with the area of the parallelogram as length; and the curl of a plane wave with direction k
    and amplitude a is k x a, the curl of a gradient is 0. *)
Theorem c125_geometry : forall b c,
  (forall i, (i < 3)%nat -> cross33 c b i = - cross33 b c i) /\ inner 3 b (cross33 b c) = 0 /\ inner 3 c (cross33 b c) = 0 /\
  inner 3 (cross33 b c) (cross33 b c) = inner 3 b b * inner 3 c c - inner 3 b c * inner 3 b c /\
  (forall i, (i < 3)%nat -> curl33 (fun k l => c k * b l) i = cross33 b c i) /\
  (forall J i, (i < 3)%nat -> (forall k l, J k l = J l k) -> curl33 J i = 0).
Proof.
  intros b c. split; [|split; [|split; [|split; [|split]]]].
  - intros i Hi. destruct i as [|[|[|]]]; [| | |lia]; unfold cross33; cbn; ring.
  - unfold inner. rewrite rsum3. unfold cross33. cbn. ring.
  - unfold inner. rewrite rsum3. unfold cross33. cbn. ring.
  - unfold inner. rewrite !rsum3. unfold cross33. cbn. ring.
  - intros i Hi. destruct i as [|[|[|]]]; [| | |lia]; unfold curl33, cross33; cbn; ring.
  - intros J i Hi HJ. destruct i as [|[|[|]]]; [| | |lia]; unfold curl33; cbn; rewrite (HJ _ _); ring.
Qed.
Print Assumptions c125_geometry.
Example c125_example : cross33 (fun k => INR k) (fun k => INR (2 * k) + 1) 0%nat = -1 /\ cross22 (fun k => INR (k + 1)) (fun k => INR (k + 3)) 0%nat = -2.
Proof. unfold cross33, cross22. cbn. lra. Qed.

(** ** C126: the Darcy velocity of a finite element solution *)
(** If the permeability is constant in the cell, the velocity is -A grad u in every point. *)
Theorem c126_velocity_partial : forall d n (A : vec -> mat) (center point : vec) x jac js k,
  (forall i j, A point i j = A center i j) ->
  darcy_fem d n (A center) x jac js k = - apply d (A point) (grad_at n x (grads d jac js)) k.
Proof. intros d n A center point x jac js k H. rewrite darcy_at. f_equal. unfold apply. apply rsum_ext. intros. now rewrite H. Qed.
Print Assumptions c126_velocity_partial.
(** The velocity satisfies the discrete balance that the finite element scheme solves: tested with any function v, the volume residual is the integral of
    -velocity . grad v + (c u - f) v. *)
Theorem c126_weak_balance_partial : forall d n Ac pts x y r, (forall p k, In p pts -> v_b p k = 0) ->
  rsum n (fun i => y i * fem_alpha_volume d n true Ac pts x r i) = rsum n (fun i => y i * r i) +
  lsum (fun p => (- inner d (darcy_fem d n Ac x (v_jac p) (v_js p)) (grad_at n y (grads d (v_jac p) (v_js p)))
                  + (v_c p * fun_at n x (v_phi p) - v_f p) * fun_at n y (v_phi p)) * (v_weight p * v_ie p)) pts.
Proof.
  intros d n Ac pts x y r Hb. rewrite c87_volume_weak_form. f_equal. apply lsum_ext. intros p Hp. cbv zeta. f_equal. unfold weak_integrand.
  assert (B : inner d (v_b p) (grad_at n y (grads d (v_jac p) (v_js p))) = 0).
  { unfold inner. transitivity (rsum d (fun _ => 0)); [|apply rsum_0]. apply rsum_ext. intros k _. rewrite Hb by easy. ring. }
  rewrite B. unfold inner at 2. rewrite (rsum_ext d _ (fun k => - (apply d Ac (grad_at n x (grads d (v_jac p) (v_js p))) k * grad_at n y (grads d (v_jac p) (v_js p)) k))).
  - rewrite rsum_opp. unfold inner. ring.
  - intros k _. rewrite darcy_at. ring.
Qed.
Print Assumptions c126_weak_balance_partial.
(** FINDING: darcyfem.hh 115-117: the permeability is that of the cell center, also where it varies within the cell. *)
Theorem c126_center_refuted : exists d n (A : vec -> mat) (center point : vec) x jac js k,
  darcy_fem d n (A center) x jac js k <> - apply d (A point) (grad_at n x (grads d jac js)) k.
Proof.
  exists 1%nat, 1%nat, (fun z _ _ => 1 + z 0%nat), (fun _ => / 2), (fun _ => 1), (fun _ => 1), (fun _ _ => 1), (fun _ _ => 1), 0%nat.
  rewrite darcy_at. unfold apply, grad_at, grads. unfold apply. rewrite !rsum_S. unfold rsum. lra.
Qed.
Print Assumptions c126_center_refuted.
(** Permeability diag(2, 3), u = 5 x + 7 y on the unit triangle. *)
Example c126_example : let A : vec -> mat := fun _ k l => if (k =? l)%nat then match k with 0%nat => 2 | _ => 3 end else 0 in
  let js : nat -> vec := fun i k => match i, k with 0%nat, _ => -1 | 1%nat, 0%nat => 1 | 2%nat, 1%nat => 1 | _, _ => 0 end in
  let x : vec := fun i => match i with 0%nat => 0 | 1%nat => 5 | _ => 7 end in
  (forall i j, A (fun _ => 0) i j = A (fun _ => / 3) i j) /\ darcy_fem 2 3 (A (fun _ => / 3)) x (fun k l => if (k =? l)%nat then 1 else 0) js 0%nat = -10 /\
  darcy_fem 2 3 (A (fun _ => / 3)) x (fun k l => if (k =? l)%nat then 1 else 0) js 1%nat = -21.
Proof. intros A js x. split; [reflexivity|]. unfold darcy_fem, mv, dot, axpy, A, js, x. cbn. unfold mv, dot. cbn. lra. Qed.

(** ** C127: the functional of a function *)
(** The residual entry of a test function is the integral of f times this function, times the weight; tested with y it is the integral of f v. *)
Theorem c127_functional : forall n w pts r y,
  rsum n (fun i => y i * l2_lambda n w pts r i) = rsum n (fun i => y i * r i) + w * lsum (fun p => v_f p * fun_at n y (v_psi p) * (v_weight p * v_ie p)) pts.
Proof.
  intros n w pts r y. rewrite (rsum_ext n _ (fun i => y i * r i + lsum (fun p => w * (v_f p * (y i * v_psi p i) * (v_weight p * v_ie p))) pts)).
  - rewrite rsum_plus, rsum_lsum. f_equal. rewrite <- lsum_scal. apply lsum_ext. intros p _. rewrite rsum_scal. f_equal.
    rewrite rsum_scal_r, rsum_scal. reflexivity.
  - intros i Hi. rewrite l2_at by easy. rewrite Rmult_plus_distr_l. f_equal. rewrite <- lsum_scal, <- lsum_scal. apply lsum_ext. intros. ring.
Qed.
Print Assumptions c127_functional.
(** Coefficients with the same right-hand side as f in the mass matrix are its L2 projection: the error is perpendicular to the space. *)
Theorem c127_projection : forall n w pts x y, w <> 0 ->
  (forall i, (i < n)%nat -> w * lsum (fun p => fun_at n x (v_psi p) * v_psi p i * (v_weight p * v_ie p)) pts = l2_lambda n w pts zerov i) ->
  lsum (fun p => (fun_at n x (v_psi p) - v_f p) * fun_at n y (v_psi p) * (v_weight p * v_ie p)) pts = 0.
Proof.
  intros n w pts x y Hw H.
  assert (E : forall i, (i < n)%nat -> lsum (fun p => (fun_at n x (v_psi p) - v_f p) * v_psi p i * (v_weight p * v_ie p)) pts = 0).
  { intros i Hi. specialize (H i Hi). rewrite l2_at in H by easy. unfold zerov in H. rewrite Rplus_0_l in H. apply Rmult_eq_reg_l in H; [|easy].
    transitivity (lsum (fun p => fun_at n x (v_psi p) * v_psi p i * (v_weight p * v_ie p)) pts + (-1) * lsum (fun p => v_f p * v_psi p i * (v_weight p * v_ie p)) pts).
    - rewrite <- lsum_scal, <- lsum_plus. apply lsum_ext. intros. ring.
    - rewrite H. ring. }
  transitivity (rsum n (fun i => y i * lsum (fun p => (fun_at n x (v_psi p) - v_f p) * v_psi p i * (v_weight p * v_ie p)) pts)).
  - rewrite (rsum_ext n _ (fun i => lsum (fun p => y i * ((fun_at n x (v_psi p) - v_f p) * v_psi p i * (v_weight p * v_ie p))) pts)) by (intros; now rewrite lsum_scal).
    rewrite rsum_lsum. apply lsum_ext. intros p _. unfold fun_at at 2.
    rewrite (rsum_ext n (fun i => y i * (_ * v_psi p i * _)) (fun i => (fun_at n x (v_psi p) - v_f p) * (v_weight p * v_ie p) * (y i * v_psi p i))) by (intros; ring).
    rewrite rsum_scal. ring.
  - transitivity (rsum n (fun _ => 0)); [|apply rsum_0]. apply rsum_ext. intros i Hi. rewrite E by easy. ring.
Qed.
Print Assumptions c127_projection.
(** f = 3 in one point, one constant test function 1; the projection is 3. *)
Example c127_example : let p := mkvp 2 1 (fun _ => 1) (fun _ _ => 0) (fun _ => 1) (fun _ _ => 0) (fun _ _ => 0) (fun _ _ => 0) (fun _ => 0) 0 3 in
  1/2 <> 0 /\ (forall i, (i < 1)%nat -> 1/2 * lsum (fun p => fun_at 1 (fun _ => 3) (v_psi p) * v_psi p i * (v_weight p * v_ie p)) [p] = l2_lambda 1 (1/2) [p] zerov i) /\
  l2_lambda 1 (1/2) [p] zerov 0%nat = 3.
Proof.
  intros p. split; [lra|]. assert (E : l2_lambda 1 (1/2) [p] zerov 0%nat = 3) by (unfold l2_lambda, zerov, acc; cbn; field). split; [|exact E].
  intros i Hi. destruct i; [|lia]. rewrite E. unfold fun_at. cbn [lsum]. rewrite rsum_S. unfold rsum. cbn. field.
Qed.
