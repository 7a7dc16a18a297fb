(** Testing local residuals and matrices: what a loop of accumulations adds. *)
From Verif Require Import Common CdModel CdSpec CdProofs WaveModel FlowModel FlowSpec.
From Coq Require Import Reals Lra Lia FunctionalExtensionality.
Open Scope R_scope.
Lemma rsum_S n f : rsum (S n) f = rsum n f + f n. Proof. reflexivity. Qed.
Local Arguments rsum : simpl never.

Lemma rsum_pick n (f : nat -> R) a : (a < n)%nat -> rsum n (fun i => if (i =? a)%nat then f i else 0) = f a.
Proof.
  induction n as [|n IH]; intros Ha; [lia|]. rewrite rsum_S.
  destruct (Nat.eq_dec a n) as [->|Hn].
  - rewrite Nat.eqb_refl. rewrite (rsum_ext _ _ (fun _ => 0)), rsum_0; [ring|].
    intros i Hi. destruct (Nat.eqb_spec i n); [lia|easy].
  - rewrite IH by lia. destruct (Nat.eqb_spec n a); [lia|ring].
Qed.

Lemma tested_macc m n y r a b v : (a < m)%nat -> (b < n a)%nat -> tested m n y (macc r a b v) = tested m n y r + y a b * v.
Proof.
  intros Ha Hb. unfold tested.
  rewrite (rsum_ext m _ (fun d => rsum (n d) (fun i => y d i * r d i) + (if (d =? a)%nat then y a b * v else 0))).
  - now rewrite rsum_plus, (rsum_pick m (fun _ => y a b * v)).
  - intros d Hd. destruct (Nat.eqb_spec d a) as [->|Hd'].
    + rewrite (rsum_ext (n a) _ (fun i => y a i * r a i + (if (i =? b)%nat then y a b * v else 0))).
      * now rewrite rsum_plus, (rsum_pick (n a) (fun _ => y a b * v)).
      * intros i Hi. rewrite macc_at, Nat.eqb_refl. cbn [andb]. destruct (Nat.eqb_spec i b) as [->|]; ring.
    + rewrite Rplus_0_r. apply rsum_ext. intros i Hi. rewrite macc_at.
      destruct (Nat.eqb_spec d a); [lia|]. cbn [andb]. ring.
Qed.
Lemma times_tacc m n M z a b c e v d i : (c < m)%nat -> (e < n c)%nat ->
  times m n (tacc M a b c e v) z d i = macc (times m n M z) a b (v * z c e) d i.
Proof.
  intros Hc He. rewrite macc_at. unfold times, tacc.
  destruct ((d =? a) && (i =? b))%nat eqn:E; cbn [andb].
  - rewrite (rsum_ext m _ (fun c' => rsum (n c') (fun j => M d i c' j * z c' j) + (if (c' =? c)%nat then v * z c e else 0))).
    + now rewrite rsum_plus, (rsum_pick m (fun _ => v * z c e)).
    + intros c' Hc'. destruct (Nat.eqb_spec c' c) as [->|]; cbn [andb].
      * rewrite (rsum_ext (n c) _ (fun j => M d i c j * z c j + (if (j =? e)%nat then v * z c e else 0))).
        -- now rewrite rsum_plus, (rsum_pick (n c) (fun _ => v * z c e)).
        -- intros j Hj. destruct (Nat.eqb_spec j e) as [->|]; ring.
      * ring.
  - rewrite Rplus_0_r. reflexivity.
Qed.
Lemma tested_ext m n y r r' : (forall d i, r d i = r' d i) -> tested m n y r = tested m n y r'.
Proof. intros H. unfold tested. apply rsum_ext; intros; apply rsum_ext; intros. now rewrite H. Qed.
Lemma tested_tacc m n y z M a b c e v : (a < m)%nat -> (b < n a)%nat -> (c < m)%nat -> (e < n c)%nat ->
  tested m n y (times m n (tacc M a b c e v) z) = tested m n y (times m n M z) + y a b * v * z c e.
Proof.
  intros. rewrite (tested_ext _ _ _ _ (macc (times m n M z) a b (v * z c e))) by (intros; now apply times_tacc).
  rewrite tested_macc by easy. ring.
Qed.

(** Loops *)
Lemma T_loop {S} (T : S -> R) n f g s : (forall k s, (k < n)%nat -> T (f k s) = T s + g k) -> T (loop n f s) = T s + rsum n g.
Proof.
  revert s. induction n as [|n IH]; intros s H; cbn [loop]; [unfold rsum; ring|]. rewrite rsum_S.
  rewrite H, IH by (intros; try apply H; lia). ring.
Qed.
Lemma T_fold {S P} (T : S -> R) (f : S -> P -> S) g pts s : (forall p s, In p pts -> T (f s p) = T s + g p) -> T (fold_left f pts s) = T s + lsum g pts.
Proof.
  revert s. induction pts as [|p pts IH]; intros s H; cbn [fold_left lsum]; [ring|].
  rewrite IH, H; [ring|now left|intros; apply H; now right].
Qed.
Lemma T_if {S} (T : S -> R) (b : bool) s s' v : T s' = T s + v -> T (if b then s' else s) = T s + (if b then v else 0).
Proof. destruct b; intros H; [exact H|ring]. Qed.

Lemma tested_0 m n y : tested m n y zerom = 0.
Proof. unfold tested, zerom. rewrite (rsum_ext _ _ (fun _ => 0)); [apply rsum_0|]. intros. rewrite (rsum_ext _ _ (fun _ => 0)); [apply rsum_0|]. intros; ring. Qed.
Lemma times_0 m n z d i : times m n zeroT z d i = 0.
Proof. unfold times, zeroT. rewrite (rsum_ext _ _ (fun _ => 0)); [apply rsum_0|]. intros. rewrite (rsum_ext _ _ (fun _ => 0)); [apply rsum_0|]. intros; ring. Qed.
Lemma tested_times_0 m n y z : tested m n y (times m n zeroT z) = 0.
Proof. rewrite (tested_ext _ _ _ _ zerom); [apply tested_0|]. intros; apply times_0. Qed.

(** Gradients as the operators compute them *)
Lemma eval_grad_fun dim n x J js : eval_grad n x (fun i => mv dim J (js i)) = grad_at n x (grads dim J js).
Proof.
  apply functional_extensionality; intros k. rewrite eval_grad_sum. unfold grad_at. apply rsum_ext; intros.
  now rewrite grads_mv.
Qed.
Lemma mv_grads dim J js i : mv dim J (js i) = grads dim J js i.
Proof. apply functional_extensionality; intros. apply grads_mv. Qed.
Lemma eval_grad_eq n x G : eval_grad n x G = grad_at n x G.
Proof. apply functional_extensionality; intros k. apply eval_grad_sum. Qed.
Lemma mv_apply d A x : mv d A x = apply d A x.
Proof. apply functional_extensionality; intros k. apply mv_sum. Qed.

(** Sums over the basis functions are fields. *)
Lemma sum_grad n (y : vec) G c k : rsum n (fun i => y i * (c * G i k)) = c * grad_at n y G k.
Proof. unfold grad_at. rewrite <- rsum_scal. apply rsum_ext; intros; ring. Qed.
Lemma sum_inner dim n (y : vec) a G c : rsum n (fun i => y i * (c * inner dim a (G i))) = c * inner dim a (grad_at n y G).
Proof. rewrite inner_grad, <- rsum_scal. apply rsum_ext; intros; ring. Qed.
Lemma sum_fun n (y phi : vec) c : rsum n (fun i => y i * (c * phi i)) = c * fun_at n y phi.
Proof. unfold fun_at. rewrite <- rsum_scal. apply rsum_ext; intros; ring. Qed.
