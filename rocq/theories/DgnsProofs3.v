(** Consequences of the forms of the interior penalty method for the Navier-Stokes equations. *)
From Verif Require Import Common CdModel CdSpec CdProofs WaveModel FlowModel FlowSpec FlowProofs FlowProofs2 DgnsModel DgnsSpec DgnsProofs DgnsProofs2.
From Coq Require Import Reals Lra Lia FunctionalExtensionality.
Open Scope R_scope.
Local Arguments rsum : simpl never.

(** ** Loads of cells *)
Lemma lambda_volume_eq dim vsize psize pts y r :
  tested (S dim) (th_size dim vsize psize) y (dgns_lambda_volume dim vsize psize pts r) = tested (S dim) (th_size dim vsize psize) y r +
  lsum (fun p => th_vol p * (- inner dim (fl_f p) (th_u vsize p y) + fl_g2 p * th_p dim psize p y)) pts.
Proof.
  unfold dgns_lambda_volume. apply (T_fold (tested (S dim) (th_size dim vsize psize) y)). intros p r0 _. cbv zeta.
  match goal with |- ?A = ?T0 + ?B => eassert (HH : A = T0 + _) by g_go end.
  rewrite HH; clear HH; apply f_equal. rewrite inner_def, Rmult_plus_distr_l, <- rsum_opp, <- rsum_scal.
  apply f_equal2; [apply rsum_ext; intros d Hd|]; pulls; fin.
Qed.

(** ** The forms are linear *)
Definition moves (u : pstate) (t : R) (z : pstate) : pstate :=
  mkps (fun d => s_u u d + t * s_u z d) (fun d k => s_gu u d k + t * s_gu z d k) (s_p u + t * s_p z).
Lemma fun_move n (x z phi : vec) t : fun_at n (fun i => x i + t * z i) phi = fun_at n x phi + t * fun_at n z phi.
Proof. unfold fun_at. rewrite <- rsum_scal, <- rsum_plus. apply rsum_ext; intros; ring. Qed.
Lemma grad_move n (x z : vec) G t k : grad_at n (fun i => x i + t * z i) G k = grad_at n x G k + t * grad_at n z G k.
Proof. unfold grad_at. rewrite <- rsum_scal, <- rsum_plus. apply rsum_ext; intros; ring. Qed.
Section moving.
Variables (dim vsize psize : nat).
Ltac mv_tac := unfold state_s, state_n, state_b, cell_state, moves; cbn [s_u s_gu s_p]; apply f_equal3;
  [extensionality d; apply fun_move|extensionality d; extensionality k; apply grad_move|apply fun_move].
Lemma state_s_move p x t z : state_s dim vsize psize p (move x t z) = moves (state_s dim vsize psize p x) t (state_s dim vsize psize p z).
Proof. mv_tac. Qed.
Lemma state_n_move p x t z : state_n dim vsize psize p (move x t z) = moves (state_n dim vsize psize p x) t (state_n dim vsize psize p z).
Proof. mv_tac. Qed.
Lemma state_b_move p x t z : state_b dim vsize psize p (move x t z) = moves (state_b dim vsize psize p x) t (state_b dim vsize psize p z).
Proof. mv_tac. Qed.
Lemma cell_state_move p x t z : cell_state dim vsize psize p (move x t z) = moves (cell_state dim vsize psize p x) t (cell_state dim vsize psize p z).
Proof. mv_tac. Qed.
End moving.

Lemma traction_move full dim n g h t d : traction full dim n (fun d k => g d k + t * h d k) d = traction full dim n g d + t * traction full dim n h d.
Proof.
  unfold traction, inner. destruct full.
  - rewrite (rsum_ext dim (fun k => (g d k + t * h d k) * n k) (fun k => g d k * n k + t * (h d k * n k))) by (intros; ring).
    rewrite (rsum_ext dim (fun k => (g k d + t * h k d) * n k) (fun k => g k d * n k + t * (h k d * n k))) by (intros; ring).
    o_sums. ring.
  - rewrite (rsum_ext dim (fun k => (g d k + t * h d k) * n k) (fun k => g d k * n k + t * (h d k * n k))) by (intros; ring). o_sums. ring.
Qed.
Lemma inner_move d a b t c : inner d (fun k => a k + t * b k) c = inner d a c + t * inner d b c.
Proof. unfold inner. rewrite <- rsum_scal, <- rsum_plus. apply rsum_ext; intros; ring. Qed.
Lemma inner_move_r d a b t c : inner d c (fun k => a k + t * b k) = inner d c a + t * inner d c b.
Proof. rewrite inner_comm, inner_move. now rewrite !(inner_comm d c). Qed.

Lemma face_form_move full dim eps pen sc mu n us un zs zn t vs vn :
  face_form full dim eps pen sc mu n (moves us t zs) (moves un t zn) vs vn =
  face_form full dim eps pen sc mu n us un vs vn + t * face_form full dim eps pen sc mu n zs zn vs vn.
Proof.
  unfold face_form. cbv zeta. unfold moves; cbn [s_u s_gu s_p].
  set (tv := mean (traction full dim n (s_gu vs)) (traction full dim n (s_gu vn))). set (jv := jump (s_u vs) (s_u vn)).
  rewrite (inner_ext dim (mean (traction full dim n (fun d k => s_gu us d k + t * s_gu zs d k)) (traction full dim n (fun d k => s_gu un d k + t * s_gu zn d k))) jv
    (fun k => mean (traction full dim n (s_gu us)) (traction full dim n (s_gu un)) k + t * mean (traction full dim n (s_gu zs)) (traction full dim n (s_gu zn)) k) jv)
    by (intros; try reflexivity; unfold mean; rewrite !traction_move; field).
  assert (J : jump (fun d => s_u us d + t * s_u zs d) (fun d => s_u un d + t * s_u zn d) = fun k => jump (s_u us) (s_u un) k + t * jump (s_u zs) (s_u zn) k)
    by (extensionality k; unfold jump; ring).
  rewrite J, !inner_move, !inner_move_r. unfold mean1. field.
Qed.
Lemma boundary_form_move full dim eps pen sc p u z t v :
  boundary_form full dim eps pen sc p (moves u t z) v = boundary_form full dim eps pen sc p u v + t * boundary_form full dim eps pen sc p z v.
Proof.
  unfold boundary_form, noslip_form, slip_form, wall_form, moves. cbn [s_u s_gu s_p].
  assert (T : traction full dim (db_normal p) (fun d k => s_gu u d k + t * s_gu z d k) =
              fun d => traction full dim (db_normal p) (s_gu u) d + t * traction full dim (db_normal p) (s_gu z) d)
    by (extensionality d; apply traction_move).
  rewrite T. destruct (db_bc p); rewrite ?inner_move, ?inner_move_r; ring.
Qed.

(** ** Symmetry *)
Lemma face_form_sym full dim mu pen n us un vs vn :
  face_form full dim (-1) pen 1 mu n us un vs vn = face_form full dim (-1) pen 1 mu n vs vn us un.
Proof.
  unfold face_form. cbv zeta.
  rewrite (inner_comm dim (jump (s_u us) (s_u un)) (jump (s_u vs) (s_u vn))). ring.
Qed.
Lemma boundary_form_sym full dim pen p u v : boundary_form full dim (-1) pen 1 p u v = boundary_form full dim (-1) pen 1 p v u.
Proof.
  unfold boundary_form, noslip_form, slip_form, wall_form. rewrite (inner_comm dim (s_u u) (s_u v)). destruct (db_bc p); ring.
Qed.
Lemma cell_form_sym full dim mu rho u v : cell_form false full dim 1 mu rho u v = cell_form false full dim 1 mu rho v u.
Proof.
  unfold cell_form, ns_form.
  assert (D : forall A B, ddot dim A B = ddot dim B A) by (intros; apply rsum_ext; intros; apply inner_comm).
  assert (Tr : forall A B, ddot dim (transposed A) B = ddot dim (transposed B) A).
  { intros. unfold ddot, inner, transposed. rewrite rsum_swap. apply rsum_ext; intros; apply rsum_ext; intros; ring. }
  rewrite (D (s_gu u)), (Tr (s_gu u)). destruct full; ring.
Qed.

(** ** States that agree *)
Definition peq (dim : nat) (u v : pstate) : Prop :=
  (forall d, (d < dim)%nat -> s_u u d = s_u v d) /\ (forall d k, (d < dim)%nat -> (k < dim)%nat -> s_gu u d k = s_gu v d k) /\ s_p u = s_p v.
Lemma traction_ext full dim n g h d : (forall d k, (d < dim)%nat -> (k < dim)%nat -> g d k = h d k) -> (d < dim)%nat -> traction full dim n g d = traction full dim n h d.
Proof.
  intros E Hd. unfold traction. apply f_equal2; [apply inner_ext; intros; [now apply E|easy]|].
  destruct full; [|easy]. apply rsum_ext; intros. now rewrite E.
Qed.
Lemma cell_form_ext navier full dim sc mu rho u v u' v' : peq dim u u' -> peq dim v v' -> cell_form navier full dim sc mu rho u v = cell_form navier full dim sc mu rho u' v'.
Proof.
  intros (U & G & P) (V & H & Q). unfold cell_form, ns_form. rewrite P, Q.
  assert (D1 : ddot dim (s_gu u) (s_gu v) = ddot dim (s_gu u') (s_gu v')) by (apply rsum_ext; intros; apply inner_ext; intros; auto).
  assert (D2 : ddot dim (transposed (s_gu u)) (s_gu v) = ddot dim (transposed (s_gu u')) (s_gu v')) by (apply rsum_ext; intros; apply inner_ext; intros; [apply G|apply H]; easy).
  assert (D3 : trace dim (s_gu v) = trace dim (s_gu v')) by (apply rsum_ext; intros; now apply H).
  assert (D4 : trace dim (s_gu u) = trace dim (s_gu u')) by (apply rsum_ext; intros; now apply G).
  assert (D5 : inner dim (fun d => inner dim (s_u u) (s_gu u d)) (s_u v) = inner dim (fun d => inner dim (s_u u') (s_gu u' d)) (s_u v'))
    by (apply inner_ext; intros; [apply inner_ext; intros|]; auto).
  now rewrite D1, D2, D3, D4, D5.
Qed.
Lemma face_form_ext full dim eps pen sc mu n us un vs vn us' un' vs' vn' : peq dim us us' -> peq dim un un' -> peq dim vs vs' -> peq dim vn vn' ->
  face_form full dim eps pen sc mu n us un vs vn = face_form full dim eps pen sc mu n us' un' vs' vn'.
Proof.
  intros (A1 & A2 & A3) (B1 & B2 & B3) (C1 & C2 & C3) (D1 & D2 & D3). unfold face_form. cbv zeta. rewrite A3, B3, C3, D3.
  assert (J1 : forall k, (k < dim)%nat -> jump (s_u us) (s_u un) k = jump (s_u us') (s_u un') k) by (intros; unfold jump; now rewrite A1, B1).
  assert (J2 : forall k, (k < dim)%nat -> jump (s_u vs) (s_u vn) k = jump (s_u vs') (s_u vn') k) by (intros; unfold jump; now rewrite C1, D1).
  rewrite (inner_ext dim (mean (traction full dim n (s_gu us)) (traction full dim n (s_gu un))) _ (mean (traction full dim n (s_gu us')) (traction full dim n (s_gu un'))) (jump (s_u vs') (s_u vn')))
    by (intros; try (unfold mean; rewrite (traction_ext _ _ _ _ _ _ A2), (traction_ext _ _ _ _ _ _ B2)); auto).
  rewrite (inner_ext dim (mean (traction full dim n (s_gu vs)) (traction full dim n (s_gu vn))) _ (mean (traction full dim n (s_gu vs')) (traction full dim n (s_gu vn'))) (jump (s_u us') (s_u un')))
    by (intros; try (unfold mean; rewrite (traction_ext _ _ _ _ _ _ C2), (traction_ext _ _ _ _ _ _ D2)); auto).
  rewrite (inner_ext dim (jump (s_u us) (s_u un)) (jump (s_u vs) (s_u vn)) (jump (s_u us') (s_u un')) (jump (s_u vs') (s_u vn'))) by auto.
  rewrite (inner_ext dim (jump (s_u vs) (s_u vn)) n (jump (s_u vs') (s_u vn')) n) by auto.
  rewrite (inner_ext dim (jump (s_u us) (s_u un)) n (jump (s_u us') (s_u un')) n) by auto. reflexivity.
Qed.
Lemma boundary_form_ext full dim eps pen sc p u v u' v' : peq dim u u' -> peq dim v v' -> boundary_form full dim eps pen sc p u v = boundary_form full dim eps pen sc p u' v'.
Proof.
  intros (U & G & P) (V & H & Q). unfold boundary_form, noslip_form, slip_form, wall_form. rewrite P, Q.
  assert (T1 : forall k, (k < dim)%nat -> traction full dim (db_normal p) (s_gu u) k = traction full dim (db_normal p) (s_gu u') k) by (intros; now apply traction_ext).
  assert (T2 : forall k, (k < dim)%nat -> traction full dim (db_normal p) (s_gu v) k = traction full dim (db_normal p) (s_gu v') k) by (intros; now apply traction_ext).
  rewrite (inner_ext dim (traction full dim (db_normal p) (s_gu u)) (s_u v) _ _ T1 V), (inner_ext dim (traction full dim (db_normal p) (s_gu v)) (s_u u) _ _ T2 U),
    (inner_ext dim (s_u u) (s_u v) _ _ U V), (inner_ext dim (s_u v) (db_normal p) _ (db_normal p) V), (inner_ext dim (s_u u) (db_normal p) _ (db_normal p) U),
    (inner_ext dim (traction full dim (db_normal p) (s_gu u)) (db_normal p) _ (db_normal p) T1),
    (inner_ext dim (traction full dim (db_normal p) (s_gu v)) (db_normal p) _ (db_normal p) T2) by easy. reflexivity.
Qed.
Lemma boundary_load_ext full dim eps pen sc p v v' : peq dim v v' -> boundary_load full dim eps pen sc p v = boundary_load full dim eps pen sc p v'.
Proof.
  intros (V & H & Q). unfold boundary_load. rewrite Q.
  assert (T2 : forall k, (k < dim)%nat -> traction full dim (db_normal p) (s_gu v) k = traction full dim (db_normal p) (s_gu v') k) by (intros; now apply traction_ext).
  rewrite (inner_ext dim (traction full dim (db_normal p) (s_gu v)) (db_g p) _ (db_g p) T2) by easy.
  rewrite (inner_ext dim (db_g p) (s_u v) (db_g p) (s_u v')), (inner_ext dim (db_j p) (s_u v) (db_j p) (s_u v')) by (try easy; exact V). reflexivity.
Qed.
(** the state of coefficients whose pressure is multiplied *)
Definition pscale (a : R) (u : pstate) : pstate := mkps (s_u u) (s_gu u) (a * s_p u).
Lemma wp_v dim a x d : (d < dim)%nat -> with_pressure dim a x d = x d.
Proof. intros H. unfold with_pressure. extensionality i. destruct (Nat.ltb_spec d dim); [easy|lia]. Qed.
Lemma wp_p dim a x n phi : fun_at n (with_pressure dim a x dim) phi = a * fun_at n (x dim) phi.
Proof. unfold fun_at. rewrite <- rsum_scal. apply rsum_ext; intros. unfold with_pressure. rewrite Nat.ltb_irrefl. ring. Qed.
Ltac wp_tac := unfold peq, pscale, state_s, state_n, state_b, cell_state; cbn [s_u s_gu s_p]; split; [|split];
  [intros; unfold th_u, field; cbn [s_u]; now rewrite wp_v|intros; unfold th_gu, field_grad; cbn [s_gu]; now rewrite wp_v|unfold th_p; apply wp_p].
Lemma wp_state_s dim vsize psize p a x : peq dim (state_s dim vsize psize p (with_pressure dim a x)) (pscale a (state_s dim vsize psize p x)).
Proof. wp_tac. Qed.
Lemma wp_state_n dim vsize psize p a x : peq dim (state_n dim vsize psize p (with_pressure dim a x)) (pscale a (state_n dim vsize psize p x)).
Proof. wp_tac. Qed.
Lemma wp_state_b dim vsize psize p a x : peq dim (state_b dim vsize psize p (with_pressure dim a x)) (pscale a (state_b dim vsize psize p x)).
Proof. wp_tac. Qed.
Lemma wp_cell dim vsize psize p a x : peq dim (cell_state dim vsize psize p (with_pressure dim a x)) (pscale a (cell_state dim vsize psize p x)).
Proof. wp_tac. Qed.
Lemma peq_refl dim u : peq dim u u. Proof. unfold peq; auto. Qed.

(** ** Energy *)
Lemma face_energy full dim pen sc mu n us un : sc <> 0 ->
  face_form full dim 1 pen sc mu n us un (pscale (-1 / sc) us) (pscale (-1 / sc) un) = mu * (pen * inner dim (jump (s_u us) (s_u un)) (jump (s_u us) (s_u un))).
Proof. intros. unfold face_form, pscale, mean1. cbn [s_u s_gu s_p]. cbv zeta. field. easy. Qed.
Lemma boundary_energy full dim pen sc p u : sc <> 0 ->
  boundary_form full dim 1 pen sc p u (pscale (-1 / sc) u) =
  match db_bc p with
  | VelocityDirichlet => db_mu p * (pen * inner dim (s_u u) (s_u u))
  | SlipVelocity => (1 - db_slip p) * (db_mu p * (pen * inner dim (s_u u) (s_u u))) + db_slip p * (db_mu p * (pen * (inner dim (s_u u) (db_normal p) * inner dim (s_u u) (db_normal p))))
  | _ => 0 end.
Proof. intros. unfold boundary_form, noslip_form, slip_form, wall_form, pscale. cbn [s_u s_gu s_p]. destruct (db_bc p); field; easy. Qed.
Lemma cell_energy full dim sc mu rho u : sc <> 0 ->
  cell_form false full dim sc mu rho u (pscale (-1 / sc) u) = mu * (ddot dim (s_gu u) (s_gu u) + (if full then ddot dim (transposed (s_gu u)) (s_gu u) else 0)).
Proof. intros. unfold cell_form, ns_form, pscale. cbn [s_u s_gu s_p]. destruct full; field; easy. Qed.
(** ** Scaling *)
Lemma cell_scaling navier full dim sc mu rho u v : cell_form navier full dim sc mu rho u v = cell_form navier full dim 1 mu rho u (pscale sc v).
Proof. unfold cell_form, ns_form, pscale. cbn [s_u s_gu s_p]. rewrite Rmult_1_l. reflexivity. Qed.
Lemma face_scaling full dim eps pen sc mu n us un vs vn : face_form full dim eps pen sc mu n us un vs vn = face_form full dim eps pen 1 mu n us un (pscale sc vs) (pscale sc vn).
Proof. unfold face_form, pscale, mean1. cbn [s_u s_gu s_p]. cbv zeta. field. Qed.
Lemma boundary_scaling full dim eps pen sc p u v : boundary_form full dim eps pen sc p u v = boundary_form full dim eps pen 1 p u (pscale sc v).
Proof. unfold boundary_form, noslip_form, slip_form, wall_form, pscale. cbn [s_u s_gu s_p]. destruct (db_bc p); ring. Qed.
Lemma load_scaling full dim eps pen sc p v : boundary_load full dim eps pen sc p v = boundary_load full dim eps pen 1 p (pscale sc v).
Proof. unfold boundary_load, pscale. cbn [s_u s_gu s_p]. destruct (db_bc p); ring. Qed.
