(** Moving coefficients, product bases *)
From Verif Require Import Common CdModel CdSpec CdProofs WaveModel FlowModel FlowSpec FlowProofs FlowProofs2 FlowProofs4 DgnsModel DgnsSpec DgnsProofs DgnsProofs3 VvModel VvSpec VvProofs.
From Coq Require Import Reals Lra Lia FunctionalExtensionality.
Open Scope R_scope.
Local Arguments rsum : simpl never.

Lemma vfield_move n (x z : vec) t phi : vfield n (fun i => x i + t * z i) phi = fun k => vfield n x phi k + t * vfield n z phi k.
Proof. extensionality k. unfold vfield. rewrite <- rsum_scal, <- rsum_plus. apply rsum_ext; intros; ring. Qed.
Lemma vgrad_move dim n (x z : vec) t geo lj : vgrad dim n (fun i => x i + t * z i) geo lj = fun r k => vgrad dim n x geo lj r k + t * vgrad dim n z geo lj r k.
Proof. extensionality r. extensionality k. unfold vgrad. rewrite <- rsum_scal, <- rsum_plus. apply rsum_ext; intros; ring. Qed.
Section moving.
Variables (dim vsize psize : nat).
Ltac mv_tac := intros; unfold moves, vv_cell, vv_s, vv_n, vv_b, move; cbn [s_u s_gu s_p]; rewrite vfield_move, vgrad_move, fun_move; reflexivity.
Lemma vv_s_move p x t z : vv_s dim vsize psize p (move x t z) = moves (vv_s dim vsize psize p x) t (vv_s dim vsize psize p z). Proof. mv_tac. Qed.
Lemma vv_n_move p x t z : vv_n dim vsize psize p (move x t z) = moves (vv_n dim vsize psize p x) t (vv_n dim vsize psize p z). Proof. mv_tac. Qed.
Lemma vv_b_move p x t z : vv_b dim vsize psize p (move x t z) = moves (vv_b dim vsize psize p x) t (vv_b dim vsize psize p z). Proof. mv_tac. Qed.
Lemma vv_cell_move p x t z : vv_cell dim vsize psize p (move x t z) = moves (vv_cell dim vsize psize p x) t (vv_cell dim vsize psize p z). Proof. mv_tac. Qed.
End moving.
(** a boundary point of the other operator with the same data *)
Definition as_db (p : vbpt) : dbpt := mkdb (vb_weight p) (vb_ie p) (vb_normal p) (fun _ => 0) (fun _ => 0) (fun _ _ => 0) zerom (vb_mu p) (vb_bc p) 0 (vb_g p) (vb_j p).
Lemma vb_as_db dim eps pen sc p u v : vb_form dim eps pen sc p u v = if is_slip (vb_bc p) then 0 else boundary_form false dim eps pen sc (as_db p) u v.
Proof. unfold vb_form, boundary_form. cbn [db_bc as_db db_mu db_normal]. destruct (vb_bc p); reflexivity. Qed.
Lemma vb_load_as_db dim eps pen sc p v : vb_load dim eps pen sc p v = boundary_load false dim eps pen sc (as_db p) v.
Proof. reflexivity. Qed.
Lemma vb_form_move dim eps pen sc p u z t v : vb_form dim eps pen sc p (moves u t z) v = vb_form dim eps pen sc p u v + t * vb_form dim eps pen sc p z v.
Proof. rewrite !vb_as_db. destruct (is_slip _); [ring|]. apply boundary_form_move. Qed.

(** ** Product bases *)
Lemma rsum_add a b f : rsum (a + b) f = rsum a f + rsum b (fun i => f (a + i)%nat).
Proof. induction b as [|b IH]; [rewrite Nat.add_0_r; unfold rsum at 3; ring|]. rewrite Nat.add_succ_r, !rsum_S, IH. ring. Qed.
Lemma rsum_mul d n f : rsum (d * n) f = rsum d (fun k => rsum n (fun i => f (k * n + i)%nat)).
Proof.
  induction d as [|d IH]; [reflexivity|]. rewrite rsum_S, <- IH. replace (S d * n)%nat with (d * n + n)%nat by lia. apply rsum_add.
Qed.
Lemma div_of k n i : (i < n)%nat -> ((k * n + i) / n)%nat = k.
Proof. intros. symmetry. apply (Nat.div_unique _ _ _ i); lia. Qed.
Lemma mod_of k n i : (i < n)%nat -> ((k * n + i) mod n)%nat = i.
Proof. intros. symmetry. apply (Nat.mod_unique _ _ k); lia. Qed.
Lemma prod_sum d n (x : mat) k (f : nat -> R) : (k < d)%nat ->
  rsum (d * n) (fun j => x (j / n)%nat (j mod n)%nat * (if (k =? j / n)%nat then f (j mod n)%nat else 0)) = rsum n (fun i => x k i * f i).
Proof.
  intros Hk. rewrite rsum_mul. rewrite (rsum_ext d _ (fun c => if (c =? k)%nat then rsum n (fun i => x c i * f i) else 0)).
  - now rewrite rsum_pick.
  - intros c Hc. destruct (Nat.eqb_spec c k) as [->|N].
    + apply rsum_ext. intros i Hi. rewrite div_of, mod_of by easy. now rewrite Nat.eqb_refl.
    + transitivity (rsum n (fun _ => 0 * 0)); [|rewrite rsum_scal; ring]. apply rsum_ext. intros i Hi. rewrite div_of, mod_of by easy. destruct (Nat.eqb_spec k c); [congruence|ring].
Qed.
Lemma apply_0 d A : apply d A (fun _ => 0) = fun _ => 0.
Proof. extensionality k. unfold apply. rewrite (rsum_ext d _ (fun _ => 0 * 0)) by (intros; ring). rewrite rsum_scal. ring. Qed.
Section product.
Variables (dim n psize : nat).
Lemma prod_field x phi k : (k < dim)%nat -> vfield (dim * n) (prod_coeff dim n x 0%nat) (prod_phi n phi) k = field n x phi k.
Proof. intros Hk. unfold vfield, prod_coeff, prod_phi, field, fun_at. cbn [Nat.eqb]. now apply (prod_sum dim n x k phi). Qed.
Lemma prod_grad x geo js r k : (r < dim)%nat -> vgrad dim (dim * n) (prod_coeff dim n x 0%nat) geo (prod_jac n js) r k = field_grad n x (grads dim geo js) r k.
Proof.
  intros Hr. unfold vgrad, prod_coeff, prod_jac, field_grad, grad_at, grads. cbn [Nat.eqb].
  rewrite <- (prod_sum dim n x r (fun i => apply dim geo (js i) k) Hr). apply rsum_ext. intros j _. f_equal. destruct (r =? j / n)%nat; [reflexivity|]. now rewrite apply_0.
Qed.
Ltac pt := unfold peq; split; [|split]; cbn; intros; [now apply prod_field|now apply prod_grad|reflexivity].
Lemma prod_cell p x : peq dim (vv_cell dim (dim * n) psize (prod_pt n p) (prod_coeff dim n x)) (cell_state dim n psize p x). Proof. pt. Qed.
Lemma prod_s p x : peq dim (vv_s dim (dim * n) psize (prod_face n p) (prod_coeff dim n x)) (state_s dim n psize p x). Proof. pt. Qed.
Lemma prod_n p x : peq dim (vv_n dim (dim * n) psize (prod_face n p) (prod_coeff dim n x)) (state_n dim n psize p x). Proof. pt. Qed.
Lemma prod_b p x : peq dim (vv_b dim (dim * n) psize (prod_wall n p) (prod_coeff dim n x)) (state_b dim n psize p x). Proof. pt. Qed.
End product.
Lemma lsum_map {A B} (f : B -> R) (g : A -> B) l : lsum f (map g l) = lsum (fun p => f (g p)) l.
Proof. induction l; cbn; congruence. Qed.

(** Pressures multiplied *)
Lemma wp_s dim vsize psize p a x : vv_s dim vsize psize p (with_p a x) = pscale a (vv_s dim vsize psize p x).
Proof. unfold vv_s, pscale. cbn [s_u s_gu s_p]. f_equal. unfold fun_at, with_p. rewrite <- rsum_scal. apply rsum_ext. intros. cbn. ring. Qed.
Lemma wp_n dim vsize psize p a x : vv_n dim vsize psize p (with_p a x) = pscale a (vv_n dim vsize psize p x).
Proof. unfold vv_n, pscale. cbn [s_u s_gu s_p]. f_equal. unfold fun_at, with_p. rewrite <- rsum_scal. apply rsum_ext. intros. cbn. ring. Qed.
Lemma wp_c dim vsize psize p a x : vv_cell dim vsize psize p (with_p a x) = pscale a (vv_cell dim vsize psize p x).
Proof. unfold vv_cell, pscale. cbn [s_u s_gu s_p]. f_equal. unfold fun_at, with_p. rewrite <- rsum_scal. apply rsum_ext. intros. cbn. ring. Qed.
