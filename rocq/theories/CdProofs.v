(** Sums, loops and linearity for the convection-diffusion operators. *)
From Verif Require Import Common CommonFacts CdModel CdSpec.
From Coq Require Import Reals Lra Lia.
Open Scope R_scope.

(** ** Sums *)
Lemma rsum_ext n f g : (forall i, (i < n)%nat -> f i = g i) -> rsum n f = rsum n g.
Proof. induction n as [|n IH]; intros H; [reflexivity|]. cbn. rewrite IH, H by (auto; intros; apply H; lia). reflexivity. Qed.
Lemma rsum_plus n f g : rsum n (fun i => f i + g i) = rsum n f + rsum n g.
Proof. induction n as [|n IH]; cbn; [lra|]. rewrite IH. lra. Qed.
Lemma rsum_minus n f g : rsum n (fun i => f i - g i) = rsum n f - rsum n g.
Proof. induction n as [|n IH]; cbn; [lra|]. rewrite IH. lra. Qed.
Lemma rsum_scal n a f : rsum n (fun i => a * f i) = a * rsum n f.
Proof. induction n as [|n IH]; cbn; [lra|]. rewrite IH. lra. Qed.
Lemma rsum_scal_r n a f : rsum n (fun i => f i * a) = rsum n f * a.
Proof. induction n as [|n IH]; cbn; [lra|]. rewrite IH. lra. Qed.
Lemma rsum_opp n f : rsum n (fun i => - f i) = - rsum n f.
Proof. induction n as [|n IH]; cbn; [lra|]. rewrite IH. lra. Qed.
Lemma rsum_0 n : rsum n (fun _ => 0) = 0.
Proof. induction n as [|n IH]; cbn; [lra|]. rewrite IH. lra. Qed.
Lemma rsum_swap n m f : rsum n (fun i => rsum m (fun j => f i j)) = rsum m (fun j => rsum n (fun i => f i j)).
Proof. induction n as [|n IH]; cbn; [now rewrite rsum_0|]. now rewrite IH, rsum_plus. Qed.
Lemma rsum_nonneg n f : (forall i, (i < n)%nat -> 0 <= f i) -> 0 <= rsum n f.
Proof. induction n as [|n IH]; intros H; cbn; [lra|]. assert (0 <= rsum n f) by (apply IH; intros; apply H; lia). specialize (H n ltac:(lia)). lra. Qed.
Lemma lsum_ext {A} (f g : A -> R) l : (forall a, In a l -> f a = g a) -> lsum f l = lsum g l.
Proof. induction l as [|a l IH]; intros H; [reflexivity|]. cbn. rewrite IH, H; [reflexivity | now left | intros; apply H; now right]. Qed.
Lemma lsum_plus {A} (f g : A -> R) l : lsum (fun a => f a + g a) l = lsum f l + lsum g l.
Proof. induction l as [|a l IH]; cbn; [lra|]. rewrite IH. lra. Qed.
Lemma lsum_scal {A} c (f : A -> R) l : lsum (fun a => c * f a) l = c * lsum f l.
Proof. induction l as [|a l IH]; cbn; [lra|]. rewrite IH. lra. Qed.
Lemma lsum_0 {A} (l : list A) : lsum (fun _ => 0) l = 0.
Proof. induction l as [|a l IH]; cbn; [lra|]. rewrite IH. lra. Qed.
Lemma lsum_nonneg {A} (f : A -> R) l : (forall a, In a l -> 0 <= f a) -> 0 <= lsum f l.
Proof. induction l as [|a l IH]; intros H; cbn; [lra|]. assert (0 <= f a) by (apply H; now left). assert (0 <= lsum f l) by (apply IH; intros; apply H; now right). lra. Qed.
Lemma rsum_lsum {A} n (f : nat -> A -> R) l : rsum n (fun i => lsum (f i) l) = lsum (fun a => rsum n (fun i => f i a)) l.
Proof. induction l as [|a l IH]; cbn; [apply rsum_0|]. now rewrite rsum_plus, IH. Qed.

(** ** Loops *)
Lemma loop_sum n f : loop n (fun k s => s + f k) 0 = rsum n f.
Proof. induction n as [|n IH]; cbn; [reflexivity|]. now rewrite IH. Qed.
Lemma dot_sum d a b : dot d a b = inner d a b.
Proof. apply loop_sum. Qed.
Lemma mv_sum d A x k : mv d A x k = apply d A x k.
Proof. apply dot_sum. Qed.
Lemma eval_u_sum n x phi : eval_u n x phi = fun_at n x phi.
Proof. apply loop_sum. Qed.
Lemma eval_grad_sum n x G k : eval_grad n x G k = grad_at n x G k.
Proof. unfold eval_grad, grad_at. induction n as [|n IH]; cbn; [reflexivity|]. unfold axpy at 1. now rewrite IH. Qed.
Lemma loop_acc n g r k : loop n (fun i r => acc r i (g i)) r k = r k + (if (k <? n)%nat then g k else 0).
Proof.
  induction n as [|n IH]; cbn; [assert ((k <? 0)%nat = false) as -> by lia; lra|]. unfold acc at 1. rewrite IH.
  destruct (Nat.eqb_spec k n) as [->|N].
  - assert ((n <? n)%nat = false) as -> by lia. assert ((n <? S n)%nat = true) as -> by lia. lra.
  - destruct (Nat.ltb_spec k n).
    + assert ((k <? S n)%nat = true) as -> by lia. lra.
    + assert ((k <? S n)%nat = false) as -> by lia. lra.
Qed.
Lemma loop_macc1 n (h : nat -> mat -> mat) g j m : (forall i m k l, h i m k l = m k l + (if ((k =? i) && (l =? j))%nat then g i else 0)) ->
  forall k l, loop n h m k l = m k l + (if ((k <? n) && (l =? j))%nat then g k else 0).
Proof.
  intros H. induction n as [|n IH]; intros k l; cbn; [assert ((k <? 0)%nat = false) as -> by lia; cbn; lra|]. rewrite H, IH.
  destruct (l =? j)%nat eqn:E; rewrite ?andb_false_r, ?andb_true_r; [|lra].
  destruct (Nat.eqb_spec k n) as [->|N].
  - assert ((n <? n)%nat = false) as -> by lia. assert ((n <? S n)%nat = true) as -> by lia. lra.
  - destruct (Nat.ltb_spec k n).
    + assert ((k <? S n)%nat = true) as -> by lia. lra.
    + assert ((k <? S n)%nat = false) as -> by lia. lra.
Qed.
Lemma loop_macc nj ni (h : nat -> nat -> mat -> mat) g m :
  (forall i j m k l, h j i m k l = m k l + (if ((k =? i) && (l =? j))%nat then g i j else 0)) ->
  forall k l, loop nj (fun j m => loop ni (h j) m) m k l = m k l + (if ((k <? ni) && (l <? nj))%nat then g k l else 0).
Proof.
  intros H. induction nj as [|nj IH]; intros k l; cbn.
  - assert ((l <? 0)%nat = false) as -> by lia. rewrite andb_false_r. lra.
  - rewrite (loop_macc1 ni (h nj) (fun i => g i nj) nj) by (intros; apply H). rewrite IH.
    destruct (k <? ni)%nat; cbn; [|lra]. destruct (Nat.eqb_spec l nj) as [->|N].
    + assert ((nj <? nj)%nat = false) as -> by lia. assert ((nj <? S nj)%nat = true) as -> by lia. lra.
    + destruct (Nat.ltb_spec l nj).
      * assert ((l <? S nj)%nat = true) as -> by lia. lra.
      * assert ((l <? S nj)%nat = false) as -> by lia. lra.
Qed.
Lemma macc_at m i j v k l : macc m i j v k l = m k l + (if ((k =? i) && (l =? j))%nat then v else 0).
Proof. unfold macc. destruct ((k =? i) && (l =? j))%nat; lra. Qed.
Lemma fold_acc {P} (f : vec -> P -> vec) (val : P -> nat -> R) (n : nat) pts : (forall r p k, (k < n)%nat -> f r p k = r k + val p k) ->
  forall r k, (k < n)%nat -> fold_left f pts r k = r k + lsum (fun p => val p k) pts.
Proof.
  intros H. induction pts as [|p pts IH]; intros r k Hk; cbn; [lra|]. rewrite IH, H by auto. lra.
Qed.
Lemma fold_macc {P} (f : mat -> P -> mat) (val : P -> nat -> nat -> R) pts (ni nj : nat) :
  (forall m p k l, (k < ni)%nat -> (l < nj)%nat -> f m p k l = m k l + val p k l) ->
  forall m k l, (k < ni)%nat -> (l < nj)%nat -> fold_left f pts m k l = m k l + lsum (fun p => val p k l) pts.
Proof.
  intros H. induction pts as [|p pts IH]; intros m k l Hk Hl; cbn; [lra|]. rewrite IH, H by auto. lra.
Qed.

(** ** Linearity *)
Lemma inner_comm d a b : inner d a b = inner d b a.
Proof. apply rsum_ext. intros; lra. Qed.
Lemma inner_ext d a b a' b' : (forall k, (k < d)%nat -> a k = a' k) -> (forall k, (k < d)%nat -> b k = b' k) -> inner d a b = inner d a' b'.
Proof. intros H H'. apply rsum_ext. intros. now rewrite H, H'. Qed.
Lemma apply_ext d A x x' k : (forall l, (l < d)%nat -> x l = x' l) -> apply d A x k = apply d A x' k.
Proof. intros H. apply rsum_ext. intros. now rewrite H. Qed.
Lemma inner_opp_l d a b : inner d (opp a) b = - inner d a b.
Proof. unfold inner, opp. rewrite <- rsum_opp. apply rsum_ext. intros; lra. Qed.
Lemma inner_opp_r d a b : inner d a (opp b) = - inner d a b.
Proof. rewrite inner_comm, inner_opp_l. f_equal. apply inner_comm. Qed.
Lemma inner_grad d n a x G : inner d a (grad_at n x G) = rsum n (fun i => x i * inner d a (G i)).
Proof.
  unfold inner, grad_at. rewrite (rsum_ext d _ (fun k => rsum n (fun i => x i * (a k * G i k)))).
  - rewrite rsum_swap. apply rsum_ext. intros i Hi. now rewrite rsum_scal.
  - intros k Hk. rewrite <- rsum_scal. apply rsum_ext. intros; lra.
Qed.
Definition transp (A : mat) : mat := fun i j => A j i.
Lemma inner_apply_l d A x y : inner d (apply d A x) y = inner d (apply d (transp A) y) x.
Proof.
  unfold inner, apply, transp.
  rewrite (rsum_ext d _ (fun k => rsum d (fun l => A k l * x l * y k))) by (intros; now rewrite rsum_scal_r).
  rewrite rsum_swap. apply rsum_ext. intros k Hk. rewrite <- rsum_scal_r. apply rsum_ext. intros; lra.
Qed.
Lemma inner_apply_grad d n A x G w : inner d (apply d A (grad_at n x G)) w = rsum n (fun i => x i * inner d (apply d A (G i)) w).
Proof.
  rewrite inner_apply_l, inner_grad. apply rsum_ext. intros i _. now rewrite (inner_apply_l d A (G i) w).
Qed.
Lemma fun_plus n x y phi : fun_at n (plusv x y) phi = fun_at n x phi + fun_at n y phi.
Proof. unfold fun_at, plusv. rewrite <- rsum_plus. apply rsum_ext. intros; lra. Qed.
Lemma inner_grad_plus d n a x y G : inner d a (grad_at n (plusv x y) G) = inner d a (grad_at n x G) + inner d a (grad_at n y G).
Proof. rewrite !inner_grad, <- rsum_plus. apply rsum_ext. unfold plusv. intros; lra. Qed.
Lemma inner_apply_plus d n A x y G w : inner d (apply d A (grad_at n (plusv x y) G)) w =
  inner d (apply d A (grad_at n x G)) w + inner d (apply d A (grad_at n y G)) w.
Proof. rewrite !inner_apply_grad, <- rsum_plus. apply rsum_ext. unfold plusv. intros; lra. Qed.
(** Linear forms applied to a finite element function *)
Lemma fun_lin n x phi c : fun_at n x phi * c = rsum n (fun j => phi j * c * x j).
Proof. unfold fun_at. rewrite <- rsum_scal_r. apply rsum_ext. intros; lra. Qed.

(** Rewriting of the computed quantities *)
Lemma grads_mv d J js i k : mv d J (js i) k = grads d J js i k.
Proof. apply mv_sum. Qed.
Lemma dot_mv_eval d n A x J js w : dot d (mv d A (eval_grad n x (fun i => mv d J (js i)))) w = inner d (apply d A (grad_at n x (grads d J js))) w.
Proof.
  rewrite dot_sum. apply inner_ext; [|auto]. intros k _. rewrite mv_sum. apply apply_ext. intros l _. rewrite eval_grad_sum.
  unfold grad_at. apply rsum_ext. intros i _. now rewrite grads_mv.
Qed.
Lemma dot_grads d a J js i : dot d a (mv d J (js i)) = inner d a (grads d J js i).
Proof. rewrite dot_sum. apply inner_ext; [auto|]. intros. apply grads_mv. Qed.
Lemma dot_eval d n a x J js : dot d a (eval_grad n x (fun i => mv d J (js i))) = inner d a (grad_at n x (grads d J js)).
Proof.
  rewrite dot_sum. apply inner_ext; [auto|]. intros k _. rewrite eval_grad_sum. apply rsum_ext. intros i _. now rewrite grads_mv.
Qed.
Lemma dot_mv_grads d A J js j w : dot d (mv d A (mv d J (js j))) w = inner d (apply d A (grads d J js j)) w.
Proof. rewrite dot_sum. apply inner_ext; [|auto]. intros k _. rewrite mv_sum. apply apply_ext. intros. apply grads_mv. Qed.
