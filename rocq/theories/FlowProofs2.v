(** The Taylor-Hood operator computes the weak form, its Jacobian is the derivative. *)
From Verif Require Import Common CdModel CdSpec CdProofs WaveModel FlowModel FlowSpec FlowProofs.
From Coq Require Import Reals Lra Lia FunctionalExtensionality.
Open Scope R_scope.
Local Arguments rsum : simpl never.

Definition tested2 m n y z M : R := tested m n y (times m n M z).
Lemma tested2_tacc m n y z M a b c e v : (a < m)%nat -> (b < n a)%nat -> (c < m)%nat -> (e < n c)%nat ->
  tested2 m n y z (tacc M a b c e v) = tested2 m n y z M + y a b * v * z c e.
Proof. apply tested_tacc. Qed.

Lemma eval_u_eq n x phi : eval_u n x phi = fun_at n x phi. Proof. apply eval_u_sum. Qed.
Lemma dot_eq d a b : dot d a b = inner d a b. Proof. apply dot_sum. Qed.

(** Sums over test functions *)
Lemma P1 dim n (y : vec) G a al F : rsum n (fun i => y i * (al * inner dim a (G i) * F)) = F * (al * inner dim a (grad_at n y G)).
Proof. rewrite inner_grad, <- !rsum_scal. apply rsum_ext; intros; ring. Qed.
Lemma P2 dim y (b h : vec) al F : rsum dim (fun dd => y * (al * (b dd * h dd) * F)) = y * (al * inner dim b h * F).
Proof. unfold inner. rewrite <- rsum_scal, <- rsum_scal_r, <- rsum_scal. apply rsum_ext; intros; ring. Qed.
Lemma P3 n (y h : vec) P F : rsum n (fun i => y i * (- (P * h i) * F)) = F * (- (P * fun_at n y h)).
Proof. unfold fun_at. rewrite <- rsum_scal, <- rsum_opp, <- rsum_scal. apply rsum_ext; intros; ring. Qed.
Lemma P4 n (y phi : vec) c e F : rsum n (fun i => y i * (c * e * phi i * F)) = F * (c * (e * fun_at n y phi)).
Proof. unfold fun_at. rewrite <- !rsum_scal. apply rsum_ext; intros; ring. Qed.
Lemma P5 dim y (a : vec) s F : rsum dim (fun d => y * (-1 * a d * s * F)) = y * (-1 * rsum dim a * s * F).
Proof. rewrite <- rsum_scal, <- !rsum_scal_r, <- rsum_scal. apply rsum_ext; intros; ring. Qed.
Lemma P6 n (y phi : vec) c F : rsum n (fun i => y i * (c * phi i * F)) = F * (c * fun_at n y phi).
Proof. unfold fun_at. rewrite <- !rsum_scal. apply rsum_ext; intros; ring. Qed.

(** Sums over ansatz functions *)
Lemma Q1 dim n (G : nat -> vec) a y (z : vec) mu F : rsum n (fun j => y * (mu * inner dim a (G j) * F) * z j) = y * (mu * inner dim (grad_at n z G) a * F).
Proof. rewrite (inner_comm dim (grad_at n z G)), inner_grad, <- rsum_scal, <- rsum_scal_r, <- rsum_scal. apply rsum_ext; intros; ring. Qed.
Lemma Q2 n g (h z : vec) y mu F : rsum n (fun dd => y * (mu * (g * h dd) * F) * z dd) = y * (mu * inner n (fun dd => z dd * g) h * F).
Proof. unfold inner. rewrite <- rsum_scal, <- rsum_scal_r, <- rsum_scal. apply rsum_ext; intros; ring. Qed.
Lemma Q2' dim n (a : nat -> vec) h y mu F :
  rsum n (fun j => y * (mu * inner dim (a j) h * F)) = y * (mu * inner dim (fun k => rsum n (fun j => a j k)) h * F).
Proof.
  rewrite inner_comm. unfold inner. rewrite <- rsum_scal, <- rsum_scal_r, <- rsum_scal.
  rewrite (rsum_ext n _ (fun j => rsum dim (fun k => y * (mu * (a j k * h k) * F)))).
  - rewrite rsum_swap. apply rsum_ext; intros. rewrite <- rsum_scal, <- rsum_scal, <- rsum_scal_r, <- rsum_scal. apply rsum_ext; intros; ring.
  - intros. rewrite <- rsum_scal, <- rsum_scal_r, <- rsum_scal. apply rsum_ext; intros; ring.
Qed.
Lemma Q3 n (g y F : R) (psi s : vec) : rsum n (fun j => y * (- (g * psi j) * F) * s j) = y * (- (fun_at n s psi * g) * F).
Proof.
  unfold fun_at. rewrite <- rsum_scal_r, <- rsum_opp, <- rsum_scal_r, <- rsum_scal. apply rsum_ext; intros; ring.
Qed.
Lemma Q4 n (phi z : vec) y c : rsum n (fun j => y * (c * phi j) * z j) = y * (c * fun_at n z phi).
Proof. unfold fun_at. rewrite <- rsum_scal, <- rsum_scal. apply rsum_ext; intros; ring. Qed.
Lemma Q4' dim (g zf : vec) y F rho ph : rsum dim (fun k => y * (F * rho * g k * ph * zf k)) = y * (rho * inner dim zf g * ph * F).
Proof. unfold inner. rewrite <- rsum_scal, <- !rsum_scal_r, <- rsum_scal. apply rsum_ext; intros; ring. Qed.
Lemma Q5 dim n (G : nat -> vec) a (z : vec) y F rho ph : rsum n (fun j => y * (F * rho * ph * inner dim a (G j)) * z j) = y * (rho * inner dim a (grad_at n z G) * ph * F).
Proof. rewrite inner_grad, <- rsum_scal, <- !rsum_scal_r, <- rsum_scal. apply rsum_ext; intros; ring. Qed.
Lemma Q6 n (g z : vec) y s F : rsum n (fun j => y * (- (g j * s) * F) * z j) = y * (-1 * fun_at n z g * s * F).
Proof. unfold fun_at. rewrite <- rsum_scal, <- !rsum_scal_r, <- rsum_scal. apply rsum_ext; intros; ring. Qed.

Lemma inner_plus_l d a b v : inner d (fun k => a k + b k) v = inner d a v + inner d b v.
Proof. unfold inner. rewrite <- rsum_plus. apply rsum_ext; intros; ring. Qed.
Lemma inner_def d a b : inner d a b = rsum d (fun k => a k * b k). Proof. reflexivity. Qed.
Lemma inner_0_l d b : inner d (fun _ => 0) b = 0.
Proof. unfold inner. rewrite (rsum_ext _ _ (fun _ => 0)); [apply rsum_0|]. intros; ring. Qed.

(** Rewriting that leaves the unknown right hand side alone *)
Ltac rw H := match type of H with ?a = _ => let a' := eval cbv beta in a in pattern a'; refine (eq_ind_r _ _ H); cbv beta end.
Ltac side := solve [lia | unfold th_size, alike, mx_size; repeat match goal with |- context [Nat.ltb ?a ?b] => destruct (Nat.ltb_spec a b) | |- context [Nat.eqb ?a ?b] => destruct (Nat.eqb_spec a b) end; lia].
Ltac t_go tac :=
  cbv zeta;
  repeat first [ match goal with |- context [tested ?m ?n ?y (macc ?r ?a ?b ?v)] => rewrite (tested_macc m n y r a b v) by side end
               | match goal with |- context [tested2 ?m ?n ?y ?z (tacc ?M ?a ?b ?c ?e ?v)] => rewrite (tested2_tacc m n y z M a b c e v) by side end
               | match goal with |- context [tested ?m ?n ?y (loop ?k ?f ?s)] => erewrite (T_loop (tested m n y) k f _ s) by (intros; t_go tac) end
               | match goal with |- context [tested2 ?m ?n ?y ?z (loop ?k ?f ?s)] => erewrite (@T_loop (nat -> nat -> nat -> nat -> R) (tested2 m n y z) k f _ s) by (intros; t_go tac) end ];
  tac; repeat match goal with |- context [?a + ?b + ?c] => rw (Rplus_assoc a b c) end; reflexivity.



Ltac o_sums := repeat match goal with
  | |- context [rsum ?n (fun i => @?f i + @?g i)] => rw (rsum_plus n f g)
  | |- context [rsum ?n (fun i => ?c * @?f i)] => rw (rsum_scal n c f)
  | |- context [rsum ?n (fun i => - @?f i)] => rw (rsum_opp n f)
  | |- context [rsum ?n (fun i => @?f i * ?c)] => rw (rsum_scal_r n c f)
  end.
(** Rewriting the sums; the patterns are matched syntactically. *)
Ltac p_sums := repeat match goal with
  | |- context [rsum ?n (fun i => @?f i + @?g i)] => rw (rsum_plus n f g)
  | |- context [rsum ?n (fun i => @?y i * (?al * inner ?dim ?a (@?G i) * ?F))] => rw (P1 dim n y G a al F)
  | |- context [rsum ?n (fun dd => ?y * (?al * (@?b dd * @?h dd) * ?F))] => rw (P2 n y b h al F)
  | |- context [rsum ?n (fun i => @?y i * (- (?P * @?h i) * ?F))] => rw (P3 n y h P F)
  | |- context [rsum ?n (fun d => ?y * (-1 * @?a d * ?s * ?F))] => rw (P5 n y a s F)
  | |- context [rsum ?n (fun i => @?y i * (?c * ?e * @?phi i * ?F))] => rw (P4 n y phi c e F)
  | |- context [rsum ?n (fun i => @?y i * (?c * @?phi i * ?F))] => rw (P6 n y phi c F)
  end.

Lemma F_dot : dot = inner. Proof. do 3 (apply functional_extensionality; intros). apply dot_sum. Qed.
Lemma F_mv : mv = apply. Proof. do 4 (apply functional_extensionality; intros). apply mv_sum. Qed.
Lemma F_u : eval_u = fun_at. Proof. do 3 (apply functional_extensionality; intros). apply eval_u_sum. Qed.
Lemma F_grad : eval_grad = grad_at. Proof. do 4 (apply functional_extensionality; intros). apply eval_grad_sum. Qed.
Ltac spec_functions := rewrite ?F_dot, ?F_mv, ?F_u, ?F_grad.

Section th.
Variables (navier full : bool) (dim vsize psize : nat).
Notation sz := (th_size dim vsize psize).

Lemma th_residual_eq pts x y r :
  tested (S dim) sz y (th_alpha_volume navier full dim vsize psize pts x r) = tested (S dim) sz y r +
  lsum (fun p => th_vol p * ns_form navier full dim (fl_mu p) (fl_rho p) (th_u vsize p x) (th_gu dim vsize p x) (th_p dim psize p x)
                                    (th_u vsize p y) (th_gu dim vsize p y) (th_p dim psize p y)) pts.
Proof.
  unfold th_alpha_volume. spec_functions. apply (T_fold (tested (S dim) sz y)). intros p r0 _.
  unfold ns_form. destruct navier, full; cbv zeta.
  all: match goal with |- ?A = ?T0 + ?B => eassert (HH : A = T0 + _) by t_go p_sums end.
  all: rewrite HH; clear HH; apply f_equal; o_sums.
  all: unfold th_vol, ddot, trace, th_u, th_gu, th_p, th_grads, field, field_grad, transposed, grads, fun_at, grad_at; rewrite ?inner_def; try ring.
Qed.

Ltac q_sums := repeat match goal with
  | |- context [rsum ?n (fun i => @?f i + @?g i)] => rw (rsum_plus n f g)
  | |- context [rsum ?n (fun j => ?y * (?mu * inner ?dim ?a (@?G j) * ?F) * @?z j)] => rw (Q1 dim n G a y z mu F)
  | |- context [rsum ?n (fun dd => ?y * (?mu * (?g * @?h dd) * ?F) * @?z dd)] => rw (Q2 n g h z y mu F)
  | |- context [rsum ?n (fun j => ?y * (?mu * inner ?dim (@?a j) ?h * ?F))] => rw (Q2' dim n a h y mu F)
  | |- context [rsum ?n (fun j => ?y * (- (?g * @?psi j) * ?F) * @?s j)] => rw (Q3 n g y F psi s)
  | |- context [rsum ?n (fun j => ?y * (- (@?g j * ?c) * ?F) * @?s j)] => rw (Q6 n g s y c F)
  | |- context [rsum ?n (fun j => ?y * (?F * ?rho * ?ph * inner ?dim ?a (@?G j)) * @?z j)] => rw (Q5 dim n G a z y F rho ph)
  | |- context [rsum ?n (fun j => ?y * (?c * @?phi j) * @?z j)] => rw (Q4 n phi z y c)
  | |- context [rsum ?dim (fun k => ?y * (?F * ?rho * @?g k * ?ph * @?zf k))] => rw (Q4' dim g zf y F rho ph)
  end.

Lemma th_jacobian_eq pts x y z M :
  tested2 (S dim) sz y z (th_jacobian_volume navier full dim vsize psize pts x M) = tested2 (S dim) sz y z M +
  lsum (fun p => th_vol p * ns_form' navier full dim (fl_mu p) (fl_rho p) (th_u vsize p x) (th_gu dim vsize p x)
                                    (th_u vsize p z) (th_gu dim vsize p z) (th_p dim psize p z)
                                    (th_u vsize p y) (th_gu dim vsize p y) (th_p dim psize p y)) pts.
Proof.
  unfold th_jacobian_volume. spec_functions. apply (T_fold (tested2 (S dim) sz y z)). intros p M0 _.
  unfold ns_form'. destruct navier, full; cbv zeta.
  all: match goal with |- ?A = ?T0 + ?B => eassert (HH : A = T0 + _) by t_go ltac:(q_sums; p_sums) end.
  all: rewrite HH; clear HH; apply f_equal; o_sums.
  all: unfold th_vol, ddot, trace, th_u, th_gu, th_p, th_grads, field, field_grad, transposed, grads, fun_at, grad_at; rewrite ?inner_plus_l, ?inner_def; try ring.
  all: idtac.
Qed.
End th.
