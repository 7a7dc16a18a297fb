(** The DG operator for the Navier-Stokes equations computes the forms of the interior penalty method. *)
From Verif Require Import Common CdModel CdSpec CdProofs WaveModel FlowModel FlowSpec FlowProofs FlowProofs2 DgnsModel DgnsSpec.
From Coq Require Import Reals Lra Lia FunctionalExtensionality.
Open Scope R_scope.
Local Arguments rsum : simpl never.

(** ** Testing *)
Lemma tf_s m n ys yn r a b v : (a < m)%nat -> (b < n a)%nat -> tested_face m n ys yn (racc_s r a b v) = tested_face m n ys yn r + ys a b * v.
Proof. intros. unfold tested_face, racc_s; cbn [fst snd]. rewrite tested_macc by easy. ring. Qed.
Lemma tf_n m n ys yn r a b v : (a < m)%nat -> (b < n a)%nat -> tested_face m n ys yn (racc_n r a b v) = tested_face m n ys yn r + yn a b * v.
Proof. intros. unfold tested_face, racc_n; cbn [fst snd]. rewrite tested_macc by easy. ring. Qed.
Lemma tp_ss m n ys yn zs zn M a b c e v : (a < m)%nat -> (b < n a)%nat -> (c < m)%nat -> (e < n c)%nat ->
  tested_product m n ys yn zs zn (acc_ss M a b c e v) = tested_product m n ys yn zs zn M + ys a b * (zs c e * v).
Proof. intros. unfold tested_product, acc_ss; cbn [m_ss m_sn m_ns m_nn]. rewrite tested_tacc by easy. ring. Qed.
Lemma tp_sn m n ys yn zs zn M a b c e v : (a < m)%nat -> (b < n a)%nat -> (c < m)%nat -> (e < n c)%nat ->
  tested_product m n ys yn zs zn (acc_sn M a b c e v) = tested_product m n ys yn zs zn M + ys a b * (zn c e * v).
Proof. intros. unfold tested_product, acc_sn; cbn [m_ss m_sn m_ns m_nn]. rewrite tested_tacc by easy. ring. Qed.
Lemma tp_ns m n ys yn zs zn M a b c e v : (a < m)%nat -> (b < n a)%nat -> (c < m)%nat -> (e < n c)%nat ->
  tested_product m n ys yn zs zn (acc_ns M a b c e v) = tested_product m n ys yn zs zn M + yn a b * (zs c e * v).
Proof. intros. unfold tested_product, acc_ns; cbn [m_ss m_sn m_ns m_nn]. rewrite tested_tacc by easy. ring. Qed.
Lemma tp_nn m n ys yn zs zn M a b c e v : (a < m)%nat -> (b < n a)%nat -> (c < m)%nat -> (e < n c)%nat ->
  tested_product m n ys yn zs zn (acc_nn M a b c e v) = tested_product m n ys yn zs zn M + yn a b * (zn c e * v).
Proof. intros. unfold tested_product, acc_nn; cbn [m_ss m_sn m_ns m_nn]. rewrite tested_tacc by easy. ring. Qed.
Lemma t2_acc m n y z M a b c e v : (a < m)%nat -> (b < n a)%nat -> (c < m)%nat -> (e < n c)%nat ->
  tested2 m n y z (tacc M a b c e v) = tested2 m n y z M + y a b * (z c e * v).
Proof. intros. rewrite tested2_tacc by easy. ring. Qed.

(** ** Sums *)
(** The factors of a product that do not depend on the index are moved in front of the sum. *)
Ltac split_prod j e :=
  match e with
  | ?a * ?b => let p := split_prod j a in let q := split_prod j b in
      match p with (?c1, ?d1) => match q with (?c2, ?d2) =>
        match d1 with
        | 1 => constr:((c1 * c2, d2))
        | _ => match d2 with 1 => constr:((c1 * c2, d1)) | _ => constr:((c1 * c2, d1 * d2)) end
        end end end
  | - ?a => let p := split_prod j a in match p with (?c, ?d) => constr:((- c, d)) end
  | _ => match e with
         | context [j] => constr:((1, e))
         | _ => constr:((e, 1))
         end
  end.
Ltac triv c := lazymatch c with 1 => idtac | ?a * ?b => triv a; triv b end.
Ltac pull n f :=
  let P := constr:(fun zz : nat => ltac:(let e := eval cbv beta in (f zz) in let p := split_prod zz e in exact p)) in
  match P with fun zz => (?c, @?d zz) =>
    tryif triv c then fail else idtac;
    let H := fresh in assert (H : rsum n f = c * rsum n d) by (rewrite <- rsum_scal; apply rsum_ext; intros; ring);
    rw H; clear H end.
Ltac rplus := match goal with |- context [rsum ?n (fun i => @?f i + @?g i)] => rw (rsum_plus n f g) end.
Ltac pulls := repeat first [ rplus | match goal with |- context [rsum ?n ?f] => pull n f end | match goal with |- context [rsum ?n ?f] => deep n f end ]
with deep n f :=
  lazymatch f with fun j => rsum _ _ => idtac | fun j => _ * _ => idtac | _ => fail end;
  let H := fresh in eassert (H : forall j, f j = _) by (intros; cbv beta; progress pulls; reflexivity);
  let H' := fresh in pose proof (rsum_ext n f _ (fun j _ => H j)) as H'; cbv beta in H'; rw H'; clear H H'.

Ltac g_go :=
  cbv zeta;
  repeat first [ match goal with |- context [tested_face ?m ?n ?ys ?yn (racc_s ?r ?a ?b ?v)] => rewrite (tf_s m n ys yn r a b v) by side end
               | match goal with |- context [tested_face ?m ?n ?ys ?yn (racc_n ?r ?a ?b ?v)] => rewrite (tf_n m n ys yn r a b v) by side end
               | match goal with |- context [tested ?m ?n ?y (macc ?r ?a ?b ?v)] => rewrite (tested_macc m n y r a b v) by side end
               | match goal with |- context [tested2 ?m ?n ?y ?z (tacc ?M ?a ?b ?c ?e ?v)] => rewrite (t2_acc m n y z M a b c e v) by side end
               | match goal with |- context [tested_product ?m ?n ?ys ?yn ?zs ?zn (acc_ss ?M ?a ?b ?c ?e ?v)] => rewrite (tp_ss m n ys yn zs zn M a b c e v) by side end
               | match goal with |- context [tested_product ?m ?n ?ys ?yn ?zs ?zn (acc_sn ?M ?a ?b ?c ?e ?v)] => rewrite (tp_sn m n ys yn zs zn M a b c e v) by side end
               | match goal with |- context [tested_product ?m ?n ?ys ?yn ?zs ?zn (acc_ns ?M ?a ?b ?c ?e ?v)] => rewrite (tp_ns m n ys yn zs zn M a b c e v) by side end
               | match goal with |- context [tested_product ?m ?n ?ys ?yn ?zs ?zn (acc_nn ?M ?a ?b ?c ?e ?v)] => rewrite (tp_nn m n ys yn zs zn M a b c e v) by side end
               | match goal with |- context [tested_face ?m ?n ?ys ?yn (loop ?k ?f ?s)] => erewrite (@T_loop (mat * mat) (tested_face m n ys yn) k f _ s) by (intros; g_go) end
               | match goal with |- context [tested ?m ?n ?y (loop ?k ?f ?s)] => erewrite (@T_loop mat (tested m n y) k f _ s) by (intros; g_go) end
               | match goal with |- context [tested2 ?m ?n ?y ?z (loop ?k ?f ?s)] => erewrite (@T_loop tens (tested2 m n y z) k f _ s) by (intros; g_go) end
               | match goal with |- context [tested2 ?m ?n ?y ?z (loop ?k ?f ?s)] => erewrite (@T_loop (nat -> nat -> nat -> nat -> R) (tested2 m n y z) k f _ s) by (intros; g_go) end
               | match goal with |- context [tested_product ?m ?n ?ys ?yn ?zs ?zn (loop ?k ?f ?s)] => erewrite (@T_loop smats (tested_product m n ys yn zs zn) k f _ s) by (intros; g_go) end ];
  repeat match goal with |- context [?a + ?b + ?c] => rw (Rplus_assoc a b c) end; reflexivity.

Lemma inner_grad_l d n a x G : inner d (grad_at n x G) a = rsum n (fun i => x i * inner d (G i) a).
Proof. rewrite inner_comm, inner_grad. apply rsum_ext; intros. now rewrite inner_comm. Qed.


(** ** Tractions *)
Lemma traction_swap full dim n g a : inner dim (traction full dim n g) a = rsum dim (fun d => inner dim (g d) n * a d + (if full then n d * inner dim (g d) a else 0)).
Proof.
  unfold traction. rewrite inner_def. destruct full; [|apply rsum_ext; intros; ring].
  rewrite rsum_plus.
  rewrite (rsum_ext dim _ (fun k => inner dim (g k) n * a k + rsum dim (fun l => g l k * n l) * a k)) by (intros; ring).
  rewrite rsum_plus. apply f_equal.
  rewrite (rsum_ext dim _ (fun k => rsum dim (fun l => g l k * n l * a k))) by (intros; now rewrite rsum_scal_r).
  rewrite rsum_swap. apply rsum_ext; intros. rewrite inner_def, <- rsum_scal. apply rsum_ext; intros; ring.
Qed.
Lemma sum_mean dim (a b n : vec) : rsum dim (fun k => (a k + b k) * n k) = rsum dim (fun k => a k * n k) + rsum dim (fun k => b k * n k).
Proof. rewrite <- rsum_plus. apply rsum_ext; intros; ring. Qed.
Lemma inner_jump_l d a b c : inner d (jump a b) c = inner d a c - inner d b c.
Proof. unfold inner, jump. rewrite <- rsum_minus. apply rsum_ext; intros; ring. Qed.
(** the sums over the basis functions that the loops produce *)
Lemma grad_sum n (y : vec) G (dim : nat) (J : vec) : rsum n (fun i => y i * rsum dim (fun k => G i k * J k)) = inner dim (grad_at n y G) J.
Proof. rewrite inner_grad_l. reflexivity. Qed.
Lemma tract_sum n dim (z : mat) (G : nat -> vec) (nrm : vec) d :
  rsum n (fun i => G i d * rsum dim (fun k => z k i * nrm k)) = rsum dim (fun k => grad_at n (z k) G d * nrm k).
Proof.
  unfold grad_at. rewrite (rsum_ext n _ (fun i => rsum dim (fun k => z k i * G i d * nrm k))).
  - rewrite rsum_swap. apply rsum_ext; intros. now rewrite rsum_scal_r.
  - intros. rewrite <- rsum_scal. apply rsum_ext; intros; ring.
Qed.
Lemma tract_sum' n dim (z : mat) (G : nat -> vec) (nrm : vec) d :
  rsum n (fun i => rsum dim (fun k => z k i * nrm k) * G i d) = rsum dim (fun k => grad_at n (z k) G d * nrm k).
Proof. rewrite <- tract_sum. apply rsum_ext; intros; ring. Qed.

Ltac fin := repeat match goal with v := _ : pstate |- _ => unfold v in *; clear v end;
  unfold state_s, state_n, state_b, cell_state, th_u, th_gu, th_p, th_grads, th_vol, nf_vol, db_vol; cbn [s_u s_gu s_p];
  rewrite ?inner_jump_l; unfold traction, mean, mean1, jump, field, field_grad, fun_at, grads, apply; rewrite ?inner_grad_l; unfold grad_at; try field.
Ltac tract := repeat match goal with
  | |- context [rsum ?n (fun i => @?g i * rsum ?dim (fun k => ?z k i * ?nrm k))] => rw (tract_sum n dim z (fun i _ => g i) nrm 0%nat)
  | |- context [rsum ?n (fun i => rsum ?dim (fun k => ?z k i * ?nrm k) * @?g i)] => rw (tract_sum' n dim z (fun i _ => g i) nrm 0%nat)
  end.
Section dgns.
Variables (full : bool) (eps pen sc : R) (dim vsize psize : nat).
Notation sz := (th_size dim vsize psize).

Lemma alpha_skeleton_eq pts xs xn ys yn r :
  tested_face (S dim) sz ys yn (dgns_alpha_skeleton full eps pen sc dim vsize psize pts xs xn r) = tested_face (S dim) sz ys yn r +
  lsum (fun p => nf_vol p * face_form full dim eps pen sc (nf_mu p) (nf_normal p) (state_s dim vsize psize p xs) (state_n dim vsize psize p xn)
                                      (state_s dim vsize psize p ys) (state_n dim vsize psize p yn)) pts.
Proof.
  unfold dgns_alpha_skeleton. spec_functions. apply (T_fold (tested_face (S dim) sz ys yn)). intros p r0 _.
  set (us := state_s dim vsize psize p xs). set (un := state_n dim vsize psize p xn).
  set (vs := state_s dim vsize psize p ys). set (vn := state_n dim vsize psize p yn).
  transitivity (tested_face (S dim) sz ys yn r0 + (rsum dim (fun d => nf_vol p * (nf_mu p *
    (- (mean (traction full dim (nf_normal p) (s_gu us)) (traction full dim (nf_normal p) (s_gu un)) d * jump (s_u vs) (s_u vn) d)
     + eps * (1/2) * (inner dim (s_gu vs d) (nf_normal p) * jump (s_u us) (s_u un) d + (if full then nf_normal p d * inner dim (s_gu vs d) (jump (s_u us) (s_u un)) else 0))
     + eps * (1/2) * (inner dim (s_gu vn d) (nf_normal p) * jump (s_u us) (s_u un) d + (if full then nf_normal p d * inner dim (s_gu vn d) (jump (s_u us) (s_u un)) else 0))
     + pen * (jump (s_u us) (s_u un) d * jump (s_u vs) (s_u vn) d)) + mean1 (s_p us) (s_p un) * (jump (s_u vs) (s_u vn) d * nf_normal p d)))
    + nf_vol p * (sc * (mean1 (s_p vs) (s_p vn) * inner dim (jump (s_u us) (s_u un)) (nf_normal p))))).
  - destruct full; cbv zeta.
    all: match goal with |- ?A = ?T0 + ?B => eassert (HH : A = T0 + _) by g_go end.
    all: rewrite HH; clear HH; apply f_equal; apply f_equal2.
    1, 3: apply rsum_ext; intros d Hd; pulls; rewrite ?sum_mean, ?grad_sum.
    all: pulls; fin.
  - apply f_equal. unfold face_form. cbv zeta.
    rewrite (inner_def dim (mean _ _) (jump (s_u us) (s_u un))).
    rewrite (rsum_ext dim (fun k => mean (traction full dim (nf_normal p) (s_gu vs)) (traction full dim (nf_normal p) (s_gu vn)) k * jump (s_u us) (s_u un) k)
      (fun k => 1/2 * (traction full dim (nf_normal p) (s_gu vs) k * jump (s_u us) (s_u un) k) + 1/2 * (traction full dim (nf_normal p) (s_gu vn) k * jump (s_u us) (s_u un) k)))
      by (intros; unfold mean; field).
    rewrite rsum_plus, !rsum_scal, <- !inner_def, !traction_swap, !inner_def.
    o_sums. ring.
Qed.

Lemma jacobian_skeleton_eq pts ys yn zs zn M :
  tested_product (S dim) sz ys yn zs zn (dgns_jacobian_skeleton full eps pen sc dim vsize psize pts M) = tested_product (S dim) sz ys yn zs zn M +
  lsum (fun p => nf_vol p * face_form full dim eps pen sc (nf_mu p) (nf_normal p) (state_s dim vsize psize p zs) (state_n dim vsize psize p zn)
                                      (state_s dim vsize psize p ys) (state_n dim vsize psize p yn)) pts.
Proof.
  unfold dgns_jacobian_skeleton. spec_functions. apply (T_fold (tested_product (S dim) sz ys yn zs zn)). intros p M0 _.
  set (us := state_s dim vsize psize p zs). set (un := state_n dim vsize psize p zn).
  set (vs := state_s dim vsize psize p ys). set (vn := state_n dim vsize psize p yn).
  transitivity (tested_product (S dim) sz ys yn zs zn M0 + rsum dim (fun d => nf_vol p * (nf_mu p *
    (- (mean (traction full dim (nf_normal p) (s_gu us)) (traction full dim (nf_normal p) (s_gu un)) d * jump (s_u vs) (s_u vn) d)
     + eps * (mean (traction full dim (nf_normal p) (s_gu vs)) (traction full dim (nf_normal p) (s_gu vn)) d * jump (s_u us) (s_u un) d)
     + pen * (jump (s_u us) (s_u un) d * jump (s_u vs) (s_u vn) d)) + mean1 (s_p us) (s_p un) * (jump (s_u vs) (s_u vn) d * nf_normal p d)
     + sc * (mean1 (s_p vs) (s_p vn) * (jump (s_u us) (s_u un) d * nf_normal p d))))).
  - destruct full; cbv zeta.
    all: match goal with |- ?A = ?T0 + ?B => eassert (HH : A = T0 + _) by g_go end.
    all: rewrite HH; clear HH; apply f_equal.
    all: apply rsum_ext; intros d Hd; pulls; tract; fin.
  - apply f_equal. unfold face_form. cbv zeta. rewrite !inner_def. o_sums. ring.
Qed.
End dgns.
