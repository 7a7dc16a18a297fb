(** Electrodynamics, curls and cross products: proofs. *)
From Verif Require Import Common CommonFacts CdModel CdSpec CdProofs FlowProofs TpProofs EdModel EdSpec.
From Coq Require Import Reals Lra Lia FunctionalExtensionality.
Open Scope R_scope.
Local Arguments rsum : simpl never.

(** ** Curl and cross product *)
Lemma rsum3 f : rsum 3 f = f 0%nat + f 1%nat + f 2%nat.
Proof. rewrite !rsum_S. unfold rsum. ring. Qed.
Lemma levi_values : levi 0 1 2 = 1 /\ levi 1 2 0 = 1 /\ levi 2 0 1 = 1 /\ levi 0 2 1 = -1 /\ levi 1 0 2 = -1 /\ levi 2 1 0 = -1 /\
  forall i j, levi i i j = 0 /\ levi i j i = 0 /\ levi i j j = 0.
Proof. unfold levi. cbn [INR]. repeat split; try field; intros; field. Qed.
Lemma cross_components b c : cross b c 0%nat = b 1%nat * c 2%nat - b 2%nat * c 1%nat /\ cross b c 1%nat = b 2%nat * c 0%nat - b 0%nat * c 2%nat /\
  cross b c 2%nat = b 0%nat * c 1%nat - b 1%nat * c 0%nat.
Proof.
  destruct levi_values as (L1 & L2 & L3 & L4 & L5 & L6 & L7). unfold cross. rewrite !rsum3.
  rewrite ?(proj1 (L7 _ _)), ?(proj1 (proj2 (L7 _ _))), ?(proj2 (proj2 (L7 _ _))), L1, L2, L3, L4, L5, L6. repeat split; ring.
Qed.
Lemma curl_components J : curl J 0%nat = J 2%nat 1%nat - J 1%nat 2%nat /\ curl J 1%nat = J 0%nat 2%nat - J 2%nat 0%nat /\ curl J 2%nat = J 1%nat 0%nat - J 0%nat 1%nat.
Proof.
  destruct levi_values as (L1 & L2 & L3 & L4 & L5 & L6 & L7). unfold curl. rewrite !rsum3.
  rewrite ?(proj1 (L7 _ _)), ?(proj1 (proj2 (L7 _ _))), ?(proj2 (proj2 (L7 _ _))), L1, L2, L3, L4, L5, L6. repeat split; ring.
Qed.
Ltac comps i := destruct i as [|[|[|]]]; try lia.
Lemma curl33_eq J i : (i < 3)%nat -> curl33 J i = curl J i.
Proof. intros H. destruct (curl_components J) as (A & B & C). comps i; unfold curl33; cbn; congruence. Qed.
Lemma cross33_eq b c i : (i < 3)%nat -> cross33 b c i = cross b c i.
Proof. intros H. destruct (cross_components b c) as (A & B & C). comps i; unfold cross33; cbn; congruence. Qed.

Lemma curl_linear n x (J : nat -> mat) i : (i < 3)%nat -> curl (jacobian_at n x J) i = rsum n (fun a => x a * curl (J a) i).
Proof.
  intros H. transitivity (rsum n (fun a => x a * match i with 0%nat => J a 2%nat 1%nat - J a 1%nat 2%nat | 1%nat => J a 0%nat 2%nat - J a 2%nat 0%nat | _ => J a 1%nat 0%nat - J a 0%nat 1%nat end)).
  - destruct (curl_components (jacobian_at n x J)) as (A & B & C). unfold jacobian_at in *.
    comps i; rewrite ?A, ?B, ?C, <- rsum_minus; apply rsum_ext; intros; ring.
  - apply rsum_ext. intros a _. destruct (curl_components (J a)) as (A & B & C). comps i; now rewrite ?A, ?B, ?C.
Qed.
Lemma plane_at n x (J : nat -> mat) : plane_field (jacobian_at n x J) = jacobian_at n x (fun a => plane_field (J a)).
Proof.
  extensionality k. extensionality l. unfold plane_field, jacobian_at. destruct (_ && _)%bool; [reflexivity|].
  symmetry. transitivity (rsum n (fun _ => 0)); [apply rsum_ext; intros; ring|apply rsum_0].
Qed.
Lemma curl_of_linear dim n x (J : nat -> mat) i : (i < 3)%nat -> curl_of dim (jacobian_at n x J) i = rsum n (fun a => x a * curl_of dim (J a) i).
Proof. intros H. unfold curl_of. destruct (dim =? 2)%nat; [rewrite plane_at|]; now apply curl_linear. Qed.

(** ** Entries *)
Definition hit (off n k : nat) : bool := ((off <=? k) && (k <? off + n))%nat.
Lemma pick_off off n k (g : nat -> R) : rsum n (fun i => if (k =? off + i)%nat then g i else 0) = if hit off n k then g (k - off)%nat else 0.
Proof.
  unfold hit. destruct (Nat.leb_spec off k); cbn; [destruct (Nat.ltb_spec k (off + n))|].
  - rewrite (rsum_ext n _ (fun i => if (i =? k - off)%nat then g i else 0)); [apply rsum_pick; lia|].
    intros i _. destruct (Nat.eqb_spec k (off + i)), (Nat.eqb_spec i (k - off)); try reflexivity; lia.
  - transitivity (rsum n (fun _ => 0)); [|apply rsum_0]. apply rsum_ext. intros i Hi. destruct (Nat.eqb_spec k (off + i)); [lia|reflexivity].
  - transitivity (rsum n (fun _ => 0)); [|apply rsum_0]. apply rsum_ext. intros i Hi. destruct (Nat.eqb_spec k (off + i)); [lia|reflexivity].
Qed.
Definition gen_jacobian (n off : nat) (val : epoint -> nat -> nat -> R) (w : R) (pts : list epoint) (m : mat) : mat :=
  fold_left (fun m p => loop n (fun i m => loop n (fun j m => waccum w off m i j (val p i j)) m) m) pts m.
Lemma gen_jacobian_at n off val w pts m k l : gen_jacobian n off val w pts m k l =
  m k l + (if hit off n k then if hit off n l then w * lsum (fun p => val p (k - off)%nat (l - off)%nat) pts else 0 else 0).
Proof.
  unfold gen_jacobian.
  rewrite (T_fold (fun m : mat => m k l) _ (fun p => rsum n (fun i => rsum n (fun j => if ((k =? off + i) && (l =? off + j))%nat then w * val p i j else 0)))).
  - f_equal. transitivity (lsum (fun p => if hit off n k then if hit off n l then w * val p (k - off)%nat (l - off)%nat else 0 else 0) pts).
    + apply lsum_ext. intros p _. transitivity (rsum n (fun i => if (k =? off + i)%nat then if hit off n l then w * val p i (l - off)%nat else 0 else 0)).
      * apply rsum_ext. intros i _. destruct (k =? off + i)%nat; cbn [andb]; [apply (pick_off off n l (fun j => w * val p i j))|apply rsum_0].
      * apply (pick_off off n k (fun i => if hit off n l then w * val p i (l - off)%nat else 0)).
    + destruct (hit off n k), (hit off n l); try apply lsum_0. apply lsum_scal.
  - intros p s _. rewrite (T_loop (fun m : mat => m k l) n _ (fun i => rsum n (fun j => if ((k =? off + i) && (l =? off + j))%nat then w * val p i j else 0))); [reflexivity|].
    intros i s' _. rewrite (T_loop (fun m : mat => m k l) n _ (fun j => if ((k =? off + i) && (l =? off + j))%nat then w * val p i j else 0)); [reflexivity|].
    intros j s'' _. unfold waccum. apply macc_at.
Qed.
Lemma usmv_at rows cols alpha m x y k : (k < rows)%nat -> local_usmv rows cols alpha m x y k = y k + alpha * rsum cols (fun l => m k l * x l).
Proof.
  intros Hk. unfold local_usmv. rewrite (T_loop (fun y : vec => y k) rows _ (fun i => if (i =? k)%nat then alpha * rsum cols (fun l => m i l * x l) else 0)).
  - f_equal. apply (rsum_pick rows (fun i => alpha * rsum cols (fun l => m i l * x l)) k Hk).
  - intros i s _. rewrite (T_loop (fun y : vec => y k) cols _ (fun j => if (i =? k)%nat then alpha * (m i j * x j) else 0)).
    + f_equal. destruct (i =? k)%nat; [apply rsum_scal|apply rsum_0].
    + intros j s' _. unfold acc. rewrite (Nat.eqb_sym k i). destruct (Nat.eqb_spec i k); [subst; ring|ring].
Qed.
Lemma sum_hit cols off n (g : nat -> R) : (off + n <= cols)%nat -> rsum cols (fun l => if hit off n l then g l else 0) = rsum n (fun j => g (off + j)%nat).
Proof.
  intros H. replace cols with (off + n + (cols - (off + n)))%nat by lia. generalize (cols - (off + n))%nat as t. intros t.
  assert (A : forall t, rsum (off + n + t) (fun l => if hit off n l then g l else 0) = rsum (off + n) (fun l => if hit off n l then g l else 0)).
  { induction t0; [now rewrite Nat.add_0_r|]. rewrite Nat.add_succ_r, rsum_S, IHt0. unfold hit at 2. assert ((off + n + t0 <? off + n)%nat = false) as -> by lia. rewrite andb_false_r. ring. }
  rewrite A. clear A H t.
  assert (B : rsum off (fun l => if hit off n l then g l else 0) = 0).
  { transitivity (rsum off (fun _ => 0)); [|apply rsum_0]. apply rsum_ext. intros i Hi. unfold hit. assert ((off <=? i)%nat = false) as -> by lia. reflexivity. }
  assert (C : forall t, (t <= n)%nat -> rsum (off + t) (fun l => if hit off n l then g l else 0) = rsum t (fun j => g (off + j)%nat)).
  { induction t; intros Ht; [rewrite Nat.add_0_r, B; reflexivity|]. rewrite Nat.add_succ_r, !rsum_S, IHt by lia. f_equal. unfold hit.
    assert ((off <=? off + t)%nat = true) as -> by lia. assert ((off + t <? off + n)%nat = true) as -> by lia. reflexivity. }
  now apply C.
Qed.
Lemma gen_alpha_at n off rows cols val w pts x r k : (k < rows)%nat -> (off + n <= cols)%nat ->
  jacobian_based_alpha rows cols (fun w m => gen_jacobian n off val w pts m) w x r k =
  r k + (if hit off n k then w * lsum (fun p => rsum n (fun j => val p (k - off)%nat j * part off x j)) pts else 0).
Proof.
  intros Hk Hc. unfold jacobian_based_alpha. rewrite usmv_at by easy. f_equal.
  transitivity (w * rsum cols (fun l => if hit off n l then (if hit off n k then lsum (fun p => val p (k - off)%nat (l - off)%nat) pts else 0) * x l else 0)).
  - f_equal. apply rsum_ext. intros l _. rewrite gen_jacobian_at. destruct (hit off n k), (hit off n l); ring.
  - rewrite (sum_hit cols off n (fun l => (if hit off n k then lsum (fun p => val p (k - off)%nat (l - off)%nat) pts else 0) * x l) Hc).
    destruct (hit off n k).
    + f_equal. rewrite <- rsum_lsum. apply rsum_ext. intros j _. replace (off + j - off)%nat with j by lia.
      rewrite Rmult_comm, <- lsum_scal. apply lsum_ext. intros p _. unfold part. ring.
    + transitivity (w * 0); [f_equal|ring]. transitivity (rsum n (fun _ => 0)); [apply rsum_ext; intros; ring|apply rsum_0].
Qed.

(** ** The two operators *)
Definition val_T (dim : nat) (p : epoint) (i j : nat) : R := e_weight p * e_ie p * e_mat p * inner dim (e_phi p i) (e_phi p j).
Definition val_S (dim : nat) (p : epoint) (i j : nat) : R := e_weight p * e_ie p * / e_mat p * inner 3 (curl_of dim (e_J p i)) (curl_of dim (e_J p j)).
Lemma fold_ext {S P} (f g : S -> P -> S) l s : (forall s p, f s p = g s p) -> fold_left f l s = fold_left g l s.
Proof. intros H. revert s. induction l as [|p l IH]; intros s; cbn; [reflexivity|]. now rewrite H, IH. Qed.
Lemma loop_ext {S} n (f g : nat -> S -> S) s : (forall i s, f i s = g i s) -> loop n f s = loop n g s.
Proof. intros H. induction n; cbn; [reflexivity|]. now rewrite H, IHn. Qed.
Lemma T_gen dim n off w pts m : ed_T_jacobian dim n off w pts m = gen_jacobian n off (val_T dim) w pts m.
Proof.
  apply fold_ext. intros s p. apply loop_ext. intros i s'. apply loop_ext. intros j s''. unfold val_T. now rewrite dot_sum.
Qed.
Lemma curl_inner dim J1 J2 : (dim = 2 \/ dim = 3)%nat ->
  inner (match dim_of_curl dim with Ok k => k | _ => O end) (jacobian_to_curl dim J1) (jacobian_to_curl dim J2) = inner 3 (curl_of dim J1) (curl_of dim J2).
Proof.
  intros [-> | ->]; unfold inner.
  - cbn [dim_of_curl]. rewrite rsum3. unfold curl_of, jacobian_to_curl. cbn [Nat.eqb].
    destruct (curl_components (plane_field J1)) as (-> & -> & ->). destruct (curl_components (plane_field J2)) as (-> & -> & ->).
    unfold plane_field, Nat.ltb. cbn. rewrite rsum_S. unfold rsum. ring.
  - cbn [dim_of_curl]. rewrite !rsum3. unfold curl_of, jacobian_to_curl. cbn [Nat.eqb].
    destruct (curl_components J1) as (-> & -> & ->). destruct (curl_components J2) as (-> & -> & ->). cbn. ring.
Qed.
Lemma S_gen dim n off w pts m : (dim = 2 \/ dim = 3)%nat -> ed_S_jacobian dim n off w pts m = gen_jacobian n off (val_S dim) w pts m.
Proof.
  intros H. apply fold_ext. intros s p. apply loop_ext. intros i s'. apply loop_ext. intros j s''. unfold val_S. now rewrite dot_sum, curl_inner.
Qed.
Lemma value_unit n phi i k : (i < n)%nat -> value_at n (unit i) phi k = phi i k.
Proof.
  intros H. unfold value_at, unit. transitivity (rsum n (fun j => if (j =? i)%nat then phi j k else 0)).
  - apply rsum_ext. intros j _. destruct (j =? i)%nat; ring.
  - apply (rsum_pick n (fun j => phi j k) i H).
Qed.
Lemma curl_unit dim n J i k : (i < n)%nat -> (k < 3)%nat -> curl_of dim (jacobian_at n (unit i) J) k = curl_of dim (J i) k.
Proof.
  intros H Hk. rewrite curl_of_linear by easy. unfold unit. transitivity (rsum n (fun j => if (j =? i)%nat then curl_of dim (J j) k else 0)).
  - apply rsum_ext. intros j _. destruct (j =? i)%nat; ring.
  - apply (rsum_pick n (fun j => curl_of dim (J j) k) i H).
Qed.
Lemma inner_value d n a x phi : inner d a (value_at n x phi) = rsum n (fun j => inner d a (phi j) * x j).
Proof.
  unfold inner, value_at. rewrite (rsum_ext d _ (fun k => rsum n (fun i => a k * (x i * phi i k)))) by (intros; now rewrite rsum_scal).
  rewrite rsum_swap. apply rsum_ext. intros i _. rewrite <- rsum_scal_r. apply rsum_ext. intros. ring.
Qed.
Lemma inner_curl dim n a x J : inner 3 a (curl_of dim (jacobian_at n x J)) = rsum n (fun j => inner 3 a (curl_of dim (J j)) * x j).
Proof.
  transitivity (inner 3 a (value_at n x (fun j => curl_of dim (J j)))); [|apply inner_value].
  unfold inner. apply rsum_ext. intros k Hk. f_equal. now apply curl_of_linear.
Qed.
Lemma T_sum dim n pts x i : (i < n)%nat -> lsum (fun p => rsum n (fun j => val_T dim p i j * x j)) pts = form_T dim n pts x (unit i).
Proof.
  intros H. unfold form_T. apply lsum_ext. intros p _. unfold val_T.
  rewrite (inner_ext dim _ (value_at n (unit i) (e_phi p)) (value_at n x (e_phi p)) (e_phi p i)) by (intros; try reflexivity; now apply value_unit).
  rewrite inner_comm, inner_value, <- rsum_scal. apply rsum_ext. intros. ring.
Qed.
Lemma S_sum dim n pts x i : (i < n)%nat -> lsum (fun p => rsum n (fun j => val_S dim p i j * x j)) pts = form_S dim n pts x (unit i).
Proof.
  intros H. unfold form_S. apply lsum_ext. intros p _. unfold val_S.
  rewrite (inner_ext 3 _ (curl_of dim (jacobian_at n (unit i) (e_J p))) (curl_of dim (jacobian_at n x (e_J p))) (curl_of dim (e_J p i))) by (intros; try reflexivity; now apply curl_unit).
  rewrite inner_comm, inner_curl, <- rsum_scal. apply rsum_ext. intros. ring.
Qed.
Lemma T_entry dim n pts i j : (i < n)%nat -> (j < n)%nat -> lsum (fun p => val_T dim p i j) pts = form_T dim n pts (unit j) (unit i).
Proof.
  intros Hi Hj. unfold form_T. apply lsum_ext. intros p _. unfold val_T. f_equal. rewrite inner_comm. apply inner_ext; intros; now rewrite value_unit.
Qed.
Lemma S_entry dim n pts i j : (i < n)%nat -> (j < n)%nat -> lsum (fun p => val_S dim p i j) pts = form_S dim n pts (unit j) (unit i).
Proof.
  intros Hi Hj. unfold form_S. apply lsum_ext. intros p _. unfold val_S. f_equal. rewrite inner_comm. apply inner_ext; intros; now rewrite curl_unit.
Qed.
Lemma form_T_sym dim n pts x y : form_T dim n pts x y = form_T dim n pts y x.
Proof. unfold form_T. apply lsum_ext. intros. now rewrite inner_comm. Qed.
Lemma form_S_sym dim n pts x y : form_S dim n pts x y = form_S dim n pts y x.
Proof. unfold form_S. apply lsum_ext. intros. now rewrite inner_comm. Qed.
Lemma inner_sq d a : 0 <= inner d a a. Proof. apply rsum_nonneg. intros. nra. Qed.
Lemma inner_sq0 d a : inner d a a = 0 -> forall k, (k < d)%nat -> a k = 0.
Proof.
  unfold inner. induction d; intros H k Hk; [lia|]. rewrite rsum_S in H. pose proof (inner_sq d a) as P. unfold inner in P.
  assert (a d * a d = 0) by nra. destruct (Nat.eq_dec k d) as [->|]; [nra|]. apply IHd; [nra|lia].
Qed.
Lemma lsum_pos0 {A} (f : A -> R) l : (forall a, In a l -> 0 <= f a) -> lsum f l = 0 -> forall a, In a l -> f a = 0.
Proof.
  induction l as [|b l IH]; intros H E a Ha; [easy|]. cbn in E. pose proof (H b (or_introl eq_refl)). pose proof (lsum_nonneg f l (fun a Ha => H a (or_intror Ha))).
  destruct Ha as [<-|Ha]; [lra|]. apply IH; [intros; apply H; now right|lra|easy].
Qed.

(** ** Darcy velocity and functional *)
Lemma darcy_at d n A x jac js k : darcy_fem d n A x jac js k = - apply d A (grad_at n x (grads d jac js)) k.
Proof.
  unfold darcy_fem. rewrite mv_sum. unfold apply. rewrite <- rsum_opp. apply rsum_ext. intros l _.
  replace (loop n _ _ l) with (- grad_at n x (grads d jac js) l); [ring|].
  unfold grad_at. induction n; [unfold rsum; cbn; ring|]. cbn [loop]. rewrite rsum_S. unfold axpy at 1. rewrite <- IHn, mv_sum. unfold grads. ring.
Qed.
Lemma l2_at n w pts r i : (i < n)%nat -> l2_lambda n w pts r i = r i + w * lsum (fun p => v_f p * v_psi p i * (v_weight p * v_ie p)) pts.
Proof.
  intros H. unfold l2_lambda. rewrite (fold_acc _ (fun p i => v_f p * v_psi p i * (w * v_weight p * v_ie p)) n) by
    (try easy; intros r' p k Hk; rewrite (loop_acc n (fun i => v_f p * v_psi p i * (w * v_weight p * v_ie p))); assert ((k <? n)%nat = true) as -> by lia; reflexivity).
  f_equal. rewrite <- lsum_scal. apply lsum_ext. intros. ring.
Qed.
