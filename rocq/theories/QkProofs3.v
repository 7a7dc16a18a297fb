(** Proofs about the Legendre polynomials. *)
From Coq Require Import Lra Lia FunctionalExtensionality.
From Verif Require Import CommonFacts QkModel QkSpec QkProofs.
Local Open Scope R_scope.

(** ** The recursion *)
Fixpoint PP (n : nat) (x : R) : R * R :=
  match n with
  | O => (1, 2 * x - 1)
  | S m => let '(a, b) := PP m x in (b, ((2 * INR (m + 2) - 1) * (2 * x - 1) * b - (INR (m + 2) - 1) * a) / INR (m + 2))
  end.
Definition P (n : nat) (x : R) : R := fst (PP n x).
Lemma P_snd n x : snd (PP n x) = P (S n) x.
Proof. unfold P. cbn [PP]. now destruct (PP n x). Qed.
Lemma P_SS n x : P (S (S n)) x = ((2 * INR (n + 2) - 1) * (2 * x - 1) * P (S n) x - (INR (n + 2) - 1) * P n x) / INR (n + 2).
Proof. rewrite <- P_snd. cbn [PP]. rewrite <- (P_snd n). unfold P. now destruct (PP n x). Qed.
Fixpoint D (n : nat) (x : R) : R := match n with O => 0 | S m => (2 * x - 1) * D m x + 2 * INR (S m) * P m x end.

(** for all m: (m+1) P(m+1) = (2m+1) (2x-1) P(m) - m P(m-1) *)
Lemma recurrence m x : INR (S m) * P (S m) x = (2 * INR m + 1) * (2 * x - 1) * P m x - INR m * P (m - 1) x.
Proof.
  destruct m as [|m]; [unfold P; cbn; ring|]. rewrite P_SS. replace (S m - 1)%nat with m by lia. replace (m + 2)%nat with (S (S m)) by lia.
  rewrite !S_INR. pose proof (pos_INR m). field. lra.
Qed.

Lemma values k x : fst (legendre_pdp k x) = map (fun n => P n x) (seq 0 (k + 1)) /\ snd (legendre_pdp k x) = map (fun n => D n x) (seq 0 (k + 1)).
Proof.
  destruct k as [|k]; [split; reflexivity|]. unfold legendre_pdp. replace (S k - 1)%nat with k by lia.
  assert (A : forall m n, (2 <= n)%nat ->
    fold_left (legendre_step x) (seq n m) (map (fun i => P i x) (seq 0 n), map (fun i => D i x) (seq 0 n))
    = (map (fun i => P i x) (seq 0 (n + m)), map (fun i => D i x) (seq 0 (n + m)))).
  { induction m as [|m IH]; intros n Hn; [cbn; now rewrite Nat.add_0_r|]. cbn [seq fold_left].
    replace (n + S m)%nat with (S n + m)%nat by lia. rewrite <- (IH (S n)) by lia. f_equal. unfold legendre_step. cbn [fst snd].
    rewrite seq_S, !map_app. cbn [map Nat.add].
    assert (E : forall (f : nat -> R) i, (i < n)%nat -> nth i (map f (seq 0 n)) 0 = f i).
    { intros f i Hi. rewrite (nth_indep _ 0 (f O)) by (rewrite map_length, seq_length; lia). now rewrite (map_nth f), seq_nth by lia. }
    rewrite !E by lia. f_equal; f_equal.
    - f_equal. destruct n as [|[|n]]; try lia. rewrite P_SS. replace (n + 2)%nat with (S (S n)) by lia.
      replace (S (S n) - 1)%nat with (S n) by lia. replace (S (S n) - 2)%nat with n by lia. reflexivity.
    - f_equal. destruct n as [|n]; try lia. replace (S n - 1)%nat with n by lia. reflexivity. }
  replace (S k + 1)%nat with (2 + k)%nat by lia. specialize (A k 2%nat ltac:(lia)).
  replace (map (fun i => P i x) (seq 0 2)) with [1; 2 * x - 1] in A by reflexivity.
  replace (map (fun i => D i x) (seq 0 2)) with [0; 2] in A; [rewrite A; split; reflexivity|]. cbn. unfold P. cbn. f_equal. f_equal. ring.
Qed.
Lemma legendre_P k i x : (i <= k)%nat -> legendre k i x = P i x.
Proof.
  intros H. unfold legendre. rewrite (proj1 (values k x)). rewrite (nth_indep _ 0 (P O x)) by (rewrite map_length, seq_length; lia). now rewrite (map_nth (fun n => P n x)), seq_nth by lia.
Qed.
Lemma dlegendre_D k i x : (i <= k)%nat -> dlegendre k i x = D i x.
Proof.
  intros H. unfold dlegendre. rewrite (proj2 (values k x)). rewrite (nth_indep _ 0 (D O x)) by (rewrite map_length, seq_length; lia). now rewrite (map_nth (fun n => D n x)), seq_nth by lia.
Qed.

(** ** Identities *)
Lemma b_id n x : (2 * x - 1) * D (S n) x - D n x = 2 * INR (S n) * P (S n) x.
Proof.
  induction n as [|n IH]; [unfold P; cbn; ring|].
  (* (T^2 - 1) D(n+1) = 2(n+1) (T P(n+1) - P n) *)
  assert (C : ((2 * x - 1) * (2 * x - 1) - 1) * D (S n) x = 2 * INR (S n) * ((2 * x - 1) * P (S n) x - P n x)).
  { pose proof IH as B. assert (A : D (S n) x = (2 * x - 1) * D n x + 2 * INR (S n) * P n x) by reflexivity.
    replace (((2 * x - 1) * (2 * x - 1) - 1) * D (S n) x) with ((2 * x - 1) * ((2 * x - 1) * D (S n) x - D n x) + (2 * x - 1) * D n x - D (S n) x) by ring.
    rewrite B. rewrite A. ring. }
  pose proof (recurrence (S n) x) as R. replace (S n - 1)%nat with n in R by lia.
  replace (D (S (S n)) x) with ((2 * x - 1) * D (S n) x + 2 * INR (S (S n)) * P (S n) x) by reflexivity.
  replace ((2 * x - 1) * ((2 * x - 1) * D (S n) x + 2 * INR (S (S n)) * P (S n) x) - D (S n) x)
    with (((2 * x - 1) * (2 * x - 1) - 1) * D (S n) x + 2 * INR (S (S n)) * (2 * x - 1) * P (S n) x) by ring.
  rewrite C. rewrite (Rmult_assoc 2 (INR (S (S n)))  (P (S (S n)) x)), R. rewrite (S_INR (S n)). ring.
Qed.
Lemma c_id n x : (1 - (2 * x - 1) * (2 * x - 1)) * D n x = 2 * INR n * (P (n - 1) x - (2 * x - 1) * P n x).
Proof.
  destruct n as [|n]; [cbn; ring|]. replace (S n - 1)%nat with n by lia. pose proof (b_id n x) as B.
  assert (A : D (S n) x = (2 * x - 1) * D n x + 2 * INR (S n) * P n x) by reflexivity.
  replace ((1 - (2 * x - 1) * (2 * x - 1)) * D (S n) x) with (D (S n) x - (2 * x - 1) * D n x - (2 * x - 1) * ((2 * x - 1) * D (S n) x - D n x)) by ring.
  rewrite B, A. ring.
Qed.

Lemma dT x : derivable_pt_lim (fun y => 2 * y - 1) x 2.
Proof.
  cut (derivable_pt_lim (fun y => 2 * y - 1) x (2 * 1 - 0)); [now replace (2 * 1 - 0) with 2 by ring|]. apply (derivable_pt_lim_minus (fun y => 2 * y) (fun _ => 1)); [|apply derivable_pt_lim_const].
  apply derivable_pt_lim_scal, derivable_pt_lim_id.
Qed.
Lemma P_derivative n : forall x, derivable_pt_lim (P n) x (D n x).
Proof.
  induction n as [n IH] using (well_founded_induction lt_wf). intros x. destruct n as [|[|n]].
  - apply (dlim_ext (fun _ => 1)); [reflexivity|]. apply derivable_pt_lim_const.
  - apply (dlim_ext (fun y => 2 * y - 1)); [reflexivity|]. replace (D 1 x) with 2 by (cbn; unfold P; cbn; ring). apply dT.
  - set (N := INR (n + 2)). assert (HN : N <> 0) by (apply not_0_INR; lia).
    apply (dlim_ext (fun y => ((2 * N - 1) / N) * ((2 * y - 1) * P (S n) y) - ((N - 1) / N) * P n y)).
    { intros y. rewrite P_SS. fold N. field. assumption. }
    replace (D (S (S n)) x) with (((2 * N - 1) / N) * (2 * P (S n) x + (2 * x - 1) * D (S n) x) - ((N - 1) / N) * D n x).
    + apply (derivable_pt_lim_minus (fun y => ((2 * N - 1) / N) * ((2 * y - 1) * P (S n) y)) (fun y => ((N - 1) / N) * P n y)).
      * apply (derivable_pt_lim_scal (fun y => (2 * y - 1) * P (S n) y)). apply (derivable_pt_lim_mult (fun y => 2 * y - 1) (P (S n))); [apply dT|apply IH; lia].
      * apply derivable_pt_lim_scal. apply IH. lia.
    + pose proof (b_id n x) as B. replace (D (S (S n)) x) with ((2 * x - 1) * D (S n) x + 2 * INR (S (S n)) * P (S n) x) by reflexivity.
      assert (E1 : INR (S n) = N - 1) by (unfold N; rewrite plus_INR, S_INR; cbn; ring). assert (E2 : INR (S (S n)) = N) by (unfold N; f_equal; lia).
      rewrite E1 in B. rewrite E2. replace (D n x) with ((2 * x - 1) * D (S n) x - 2 * (N - 1) * P (S n) x) by lra. field. assumption.
Qed.

(** ** Integrals *)
Lemma integral_ext f g v : (forall x, f x = g x) -> integral f v -> integral g v.
Proof. intros E (F & HF & EF). exists F. split; [|assumption]. intros x. now rewrite <- E. Qed.
Lemma integral_add f g u v : integral f u -> integral g v -> integral (fun x => f x + g x) (u + v).
Proof.
  intros (F & HF & EF) (G & HG & EG). exists (fun x => F x + G x). split; [|lra].
  intros x. apply (derivable_pt_lim_plus F G); auto.
Qed.
Lemma integral_scal w f v : integral f v -> integral (fun x => w * f x) (w * v).
Proof. intros (F & HF & EF). exists (fun x => w * F x). split; [|rewrite <- EF; ring]. intros x. now apply derivable_pt_lim_scal. Qed.
Lemma integral_unique f u v : integral f u -> integral f v -> u = v.
Proof.
  intros (F & HF & EF) (G & HG & EG).
  assert (AF : forall H, (forall x, derivable_pt_lim H x (f x)) -> antiderivative f H 0 1).
  { intros H HH. split; [|lra]. intros x _. exists (exist _ (f x) (HH x)). symmetry. apply derive_pt_eq_0, HH. }
  destruct (antiderivative_Ucte f F G 0 1 (AF F HF) (AF G HG)) as (c & Hc).
  pose proof (Hc 0 ltac:(lra)). pose proof (Hc 1 ltac:(lra)). lra.
Qed.

Definition W (n : nat) (x : R) : R := 2 * INR n * (P (n - 1) x - (2 * x - 1) * P n x).
Lemma W_derivative n x : derivable_pt_lim (W n) x (- 4 * INR n * (INR n + 1) * P n x).
Proof.
  destruct n as [|n].
  - apply (dlim_ext (fun _ => 0)); [intros; unfold W; cbn; ring|]. replace (-4 * INR 0 * (INR 0 + 1) * P 0 x) with 0 by (cbn; ring). apply derivable_pt_lim_const.
  - unfold W. replace (S n - 1)%nat with n by lia.
    replace (-4 * INR (S n) * (INR (S n) + 1) * P (S n) x) with (2 * INR (S n) * (D n x - (2 * P (S n) x + (2 * x - 1) * D (S n) x))).
    + apply (derivable_pt_lim_scal (fun y => P n y - (2 * y - 1) * P (S n) y)). apply (derivable_pt_lim_minus (P n) (fun y => (2 * y - 1) * P (S n) y)); [apply P_derivative|].
      apply (derivable_pt_lim_mult (fun y => 2 * y - 1) (P (S n))); [apply dT|apply P_derivative].
    + pose proof (b_id n x) as B. replace (D n x) with ((2 * x - 1) * D (S n) x - 2 * INR (S n) * P (S n) x) by lra. ring.
Qed.
Lemma orthogonal n m : n <> m -> integral (fun x => P n x * P m x) 0.
Proof.
  intros N. set (q := 4 * (INR m * (INR m + 1) - INR n * (INR n + 1))).
  assert (Hq : q <> 0).
  { unfold q. intros E. apply N. apply INR_eq. assert (F : (INR m - INR n) * (INR m + INR n + 1) = 0) by lra.
    pose proof (pos_INR m). pose proof (pos_INR n). apply Rmult_integral in F as [F|F]; lra. }
  apply (integral_ext (fun x => / q * (q * (P n x * P m x)))); [intros; field; assumption|].
  replace 0 with (/ q * 0) by ring. apply integral_scal.
  exists (fun x => W n x * P m x - W m x * P n x). split.
  - intros x. replace (q * (P n x * P m x)) with ((- 4 * INR n * (INR n + 1) * P n x * P m x + W n x * D m x) - (- 4 * INR m * (INR m + 1) * P m x * P n x + W m x * D n x)).
    + apply (derivable_pt_lim_minus (fun x => W n x * P m x) (fun x => W m x * P n x)).
      * apply (derivable_pt_lim_mult (W n) (P m)); [apply W_derivative|apply P_derivative].
      * apply (derivable_pt_lim_mult (W m) (P n)); [apply W_derivative|apply P_derivative].
    + unfold W. rewrite <- !c_id. unfold q. ring.
  - unfold W. rewrite <- !c_id. ring.
Qed.
Lemma norm n : integral (fun x => P n x * P n x) (/ (2 * INR n + 1)).
Proof.
  induction n as [|n IH].
  - exists (fun x => x). split; [|cbn; lra]. intros x. replace (P 0 x * P 0 x) with 1 by (unfold P; cbn; ring). apply derivable_pt_lim_id.
  - pose proof (pos_INR n) as Hn.
    assert (E : / (2 * INR (S n) + 1) = (2 * INR n + 1) / (2 * INR n + 3) * / (2 * INR n + 1)
      + ((2 * INR n + 1) / (2 * INR n + 3) * ((INR n + 2) / (INR n + 1)) * 0 + (- INR n / (INR n + 1)) * 0)).
    { rewrite S_INR. field. lra. }
    rewrite E.
    apply (integral_ext (fun x => (2 * INR n + 1) / (2 * INR n + 3) * (P n x * P n x)
      + ((2 * INR n + 1) / (2 * INR n + 3) * ((INR n + 2) / (INR n + 1)) * (P (S (S n)) x * P n x) + (- INR n / (INR n + 1)) * (P (n - 1) x * P (S n) x)))).
    + intros x. pose proof (recurrence n x) as R1. pose proof (recurrence (S n) x) as R2. replace (S n - 1)%nat with n in R2 by lia. rewrite (S_INR n) in R1. rewrite (S_INR (S n)), (S_INR n) in R2.
      (* P(n+1)^2 = P(n+1) ((2n+1) T P n - n P(n-1))/(n+1), and (2n+3) T P(n+1) = (n+2) P(n+2) + (n+1) P n *)
      assert (A1 : P (S n) x = ((2 * INR n + 1) * (2 * x - 1) * P n x - INR n * P (n - 1) x) / (INR n + 1)).
      { rewrite <- R1. field. lra. }
      assert (A2 : (2 * x - 1) * P (S n) x = ((INR n + 1 + 1) * P (S (S n)) x + (INR n + 1) * P n x) / (2 * INR n + 3)).
      { rewrite R2. field. lra. }
      transitivity (((2 * INR n + 1) * ((2 * x - 1) * P (S n) x) * P n x - INR n * P (n - 1) x * P (S n) x) / (INR n + 1)).
      * rewrite A2. generalize (P (S (S n)) x) (P (S n) x) (P n x) (P (n - 1) x). intros. field. lra.
      * transitivity (P (S n) x * (((2 * INR n + 1) * (2 * x - 1) * P n x - INR n * P (n - 1) x) / (INR n + 1))); [field; lra|]. now rewrite <- A1.
    + apply integral_add; [now apply integral_scal|]. apply integral_add; apply integral_scal.
      * apply orthogonal. lia.
      * destruct n as [|n]; [|apply orthogonal; lia].
        apply orthogonal. lia.
Qed.

(** iterated integrals of products *)
Lemma cube_ext d : forall f g v, (forall x, f x = g x) -> cube_integral d f v -> cube_integral d g v.
Proof.
  induction d as [|d IH]; intros f g v E H; cbn in *; [now rewrite <- E|]. destruct H as (h & Hh & Hv). exists h. split; [|assumption].
  intros y. apply (integral_ext (fun t => f (pcons t y))); auto.
Qed.
Lemma cube_scal d : forall w f v, cube_integral d f v -> cube_integral d (fun x => w * f x) (w * v).
Proof.
  induction d as [|d IH]; intros w f v H; cbn in *; [now rewrite H|]. destruct H as (h & Hh & Hv). exists (fun y => w * h y). split; [|now apply IH].
  intros y. now apply integral_scal.
Qed.
Lemma cube_product d : forall (g : nat -> R -> R) v, (forall l, (l < d)%nat -> integral (g l) (v l)) ->
  cube_integral d (fun x => rprod d (fun l => g l (x l))) (rprod d v).
Proof.
  induction d as [|d IH]; intros g v H; [reflexivity|]. cbn [cube_integral].
  exists (fun y => v O * rprod d (fun l => g (S l) (y l))). split.
  - intros y. rewrite Rmult_comm. apply (integral_ext (fun t => rprod d (fun l => g (S l) (y l)) * g O t)).
    + intros t. rewrite rprod_shift. cbn [pcons]. ring.
    + apply integral_scal. apply H. lia.
  - rewrite rprod_shift. apply cube_scal. apply (IH (fun l => g (S l)) (fun l => v (S l))). intros l Hl. apply H. lia.
Qed.
Lemma cube_unique d : forall f g u v, (forall x, f x = g x) -> cube_integral d f u -> cube_integral d g v -> u = v.
Proof.
  induction d as [|d IH]; intros f g u v E; cbn; [intros <- <-; apply E|]. intros (h & Hh & Hu) (h' & Hh' & Hv).
  apply (IH h h'); auto. intros x. apply (integral_unique (fun t => f (pcons t x))); [apply Hh|]. apply (integral_ext (fun t => g (pcons t x))); [now intros; rewrite E|apply Hh'].
Qed.

(** the mean square of basis function i *)
Definition mass (k d i : nat) : R := rprod d (fun l => / (2 * INR (nth l (multiindex k d i) O) + 1)).
Lemma mass_pos k d i : 0 < mass k d i.
Proof.
  unfold mass. generalize d at 1 as n. induction n as [|n IH]; cbn; [lra|]. apply Rmult_lt_0_compat; [assumption|].
  apply Rinv_0_lt_compat. pose proof (pos_INR (nth n (multiindex k d i) O)). lra.
Qed.
Lemma tensor_P k d i x : tensor (legendre k) k d i x = tensor P k d i x.
Proof. apply tensor_ext. intros m y Hm. now apply legendre_P. Qed.
Theorem tensor_orthogonal k d i j : (i < (k + 1) ^ d)%nat -> (j < (k + 1) ^ d)%nat ->
  cube_integral d (fun x => tensor P k d i x * tensor P k d j x) (if (i =? j)%nat then mass k d i else 0).
Proof.
  intros Hi Hj. apply (cube_ext d (fun x => rprod d (fun l => P (nth l (multiindex k d i) O) (x l) * P (nth l (multiindex k d j) O) (x l)))).
  { intros x. rewrite !tensor_prod. apply (rprod_mult d (fun l => P (nth l (multiindex k d i) O) (x l)) (fun l => P (nth l (multiindex k d j) O) (x l))). }
  destruct (Nat.eqb_spec i j) as [->|N].
  - apply (cube_product d (fun l t => P (nth l (multiindex k d j) O) t * P (nth l (multiindex k d j) O) t)). intros l _. apply norm.
  - destruct (digits_differ k d i j Hi Hj N) as (l & Hl & Dl).
    set (v := fun l => if (nth l (multiindex k d i) O =? nth l (multiindex k d j) O)%nat then / (2 * INR (nth l (multiindex k d i) O) + 1) else 0).
    replace 0 with (rprod d v).
    + apply (cube_product d (fun l t => P (nth l (multiindex k d i) O) t * P (nth l (multiindex k d j) O) t)). intros l' _. unfold v.
      destruct (Nat.eqb_spec (nth l' (multiindex k d i) O) (nth l' (multiindex k d j) O)) as [<-|N']; [apply norm|now apply orthogonal].
    + apply (rprod_zero d l); [assumption|]. unfold v. now destruct (Nat.eqb_spec (nth l (multiindex k d i) O) (nth l (multiindex k d j) O)).
Qed.

(** ** The span *)
Lemma poly_mul n m f g : is_poly n f -> is_poly (S m) g -> is_poly (n + m) (fun x => f x * g x).
Proof.
  intros (c & Lc & Hc) Hg. subst n. apply (poly_ext _ (fun x => peval c x * g x)); [intros; now rewrite Hc|]. clear Hc f.
  induction c as [|a c IH]; cbn [length peval].
  - apply (poly_ext _ (fun _ => 0)); [intros; ring|apply poly_zero].
  - apply (poly_ext _ (fun x => a * g x + x * (peval c x * g x))); [intros; ring|]. apply poly_add.
    + apply (poly_le (S m)); [lia|]. now apply poly_scal.
    + cbn [Nat.add]. now apply poly_x.
Qed.
Lemma P_poly n : is_poly (S n) (P n).
Proof.
  induction n as [n IH] using (well_founded_induction lt_wf). destruct n as [|[|n]].
  - apply (poly_ext _ (fun _ => 1)); [reflexivity|apply poly_one].
  - apply (poly_ext _ (fun x => 1 * (2 * x + -1))); [intros; unfold P; cbn; ring|]. apply (poly_linear 1 (fun _ => 1)), poly_one.
  - set (N := INR (n + 2)). assert (HN : N <> 0) by (apply not_0_INR; lia).
    apply (poly_ext _ (fun x => P (S n) x * ((2 * N - 1) / N * 2 * x + - ((2 * N - 1) / N)) + (- (N - 1) / N) * P n x)).
    + intros x. rewrite P_SS. fold N. field. assumption.
    + apply poly_add; [apply poly_linear, IH; lia|]. apply (poly_le (S n)); [lia|]. apply poly_scal, IH. lia.
Qed.
Lemma P_poly_k k m : (m <= k)%nat -> is_poly (k + 1) (P m).
Proof. intros H. apply (poly_le (S m)); [lia|apply P_poly]. Qed.

Definition span (n : nat) (g : R -> R) : Prop := exists c, forall x, g x = sumn n (fun m => c m * P m x).
Lemma span_ext n f g : (forall x, f x = g x) -> span n f -> span n g.
Proof. intros E (c & Hc). exists c. intros x. now rewrite <- E. Qed.
Lemma span_add n f g : span n f -> span n g -> span n (fun x => f x + g x).
Proof. intros (c & Hc) (e & He). exists (fun m => c m + e m). intros x. rewrite Hc, He, <- sumn_plus. apply sumn_ext. intros; ring. Qed.
Lemma span_scal n w f : span n f -> span n (fun x => w * f x).
Proof. intros (c & Hc). exists (fun m => w * c m). intros x. rewrite Hc, <- sumn_scal. apply sumn_ext. intros; ring. Qed.
Lemma span_P n m : (m < n)%nat -> span n (P m).
Proof.
  intros H. exists (fun i => if (i =? m)%nat then 1 else 0). intros x. rewrite (sumn_single n m); [|assumption|].
  - rewrite Nat.eqb_refl. ring.
  - intros i _ N. destruct (Nat.eqb_spec i m); [contradiction|ring].
Qed.
Lemma span_zero n : span n (fun _ => 0).
Proof. exists (fun _ => 0). intros x. symmetry. rewrite (sumn_ext n _ (fun _ => 0)); [apply sumn_zero|]. intros; ring. Qed.
Lemma span_x n g : span n g -> span (S n) (fun x => x * g x).
Proof.
  intros (c & Hc). apply (span_ext _ (fun x => sumn n (fun m => c m * (x * P m x)))).
  { intros x. rewrite Hc, <- sumn_scal. apply sumn_ext. intros; ring. }
  clear Hc. assert (A : forall j, (j <= n)%nat -> span (S n) (fun x => sumn j (fun m => c m * (x * P m x)))).
  { induction j as [|j IH]; intros Hj; cbn [sumn]; [apply span_zero|]. apply span_add; [apply IH; lia|]. apply span_scal.
    pose proof (pos_INR j) as Hn.
    apply (span_ext _ (fun x => (INR (S j) / (2 * (2 * INR j + 1))) * P (S j) x + ((INR j / (2 * (2 * INR j + 1))) * P (j - 1) x + / 2 * P j x))).
    - intros x. pose proof (recurrence j x) as R. replace (INR (S j) / (2 * (2 * INR j + 1)) * P (S j) x) with (INR (S j) * P (S j) x / (2 * (2 * INR j + 1))) by (field; lra). rewrite R. field. lra.
    - apply span_add; [|apply span_add]; apply span_scal, span_P; lia. }
  apply A. lia.
Qed.
Lemma span_all n g : is_poly n g -> span n g.
Proof.
  intros (c & Lc & Hc). apply (span_ext n (peval c)); [intros; now rewrite Hc|]. clear Hc g. subst n.
  induction c as [|a c IH]; [apply span_zero|]. cbn [length]. apply (span_ext _ (fun x => a * P 0 x + x * peval c x)); [intros; unfold P; cbn; ring|].
  apply span_add; [apply span_scal, span_P; lia|]. now apply span_x.
Qed.

Lemma choose {A} (a0 : A) d (Q : nat -> A -> Prop) : (forall j, (j < d)%nat -> exists a, Q j a) -> exists f, forall j, (j < d)%nat -> Q j (f j).
Proof.
  induction d as [|d IH]; intros H; [exists (fun _ => a0); intros; lia|]. destruct IH as (f & Hf); [intros; apply H; lia|]. destruct (H d ltac:(lia)) as (a & Ha).
  exists (fun j => if (j =? d)%nat then a else f j). intros j Hj. destruct (Nat.eqb_spec j d) as [->|]; [assumption|]. apply Hf. lia.
Qed.
Theorem tensor_span k d f : in_Qk k d f -> exists c, forall x, f x = sumn ((k + 1) ^ d) (fun i => c i * tensor P k d i x).
Proof.
  intros (l & Hl & Hf). assert (A : exists c, forall x, rsum (map (fun wa => fst wa * monomial (snd wa) x) l) = sumn ((k + 1) ^ d) (fun i => c i * tensor P k d i x)).
  { clear Hf f. induction l as [|(w, a) l IH].
    - exists (fun _ => 0). intros x. symmetry. rewrite (sumn_ext _ _ (fun _ => 0)); [apply sumn_zero|]. intros; ring.
    - destruct IH as (c & Hc); [intros w' a' H; apply (Hl w' a'); now right|]. destruct (Hl w a ltac:(now left)) as [La F]. rewrite Forall_forall in F.
      destruct (choose (fun _ => 0) d (fun j e => forall x, x ^ nth j a O = sumn (k + 1) (fun m => e m * P m x))) as (e & He).
      { intros j Hj. rewrite <- La in Hj. apply (span_all (k + 1) (fun x => x ^ nth j a O)). apply (poly_le (S (nth j a O))); [|apply poly_pow].
        pose proof (F _ (nth_In a O Hj)). lia. }
      exists (fun i => w * rprod d (fun j => e j (nth j (multiindex k d i) O)) + c i). intros x.
      change (rsum (map (fun wa : R * list nat => fst wa * monomial (snd wa) x) ((w, a) :: l))) with (w * monomial a x + rsum (map (fun wa => fst wa * monomial (snd wa) x) l)).
      rewrite Hc, monomial_prod, La. rewrite (rprod_ext d _ (fun j => sumn (k + 1) (fun m => e j m * P m (x j)))) by (intros; now apply He).
      rewrite <- (sum_of_products k d (fun j m => e j m * P m (x j))). rewrite <- sumn_scal, <- sumn_plus. apply sumn_ext. intros i _.
      rewrite rprod_mult, tensor_prod. ring. }
  destruct A as (c & Hc). exists c. intros x. now rewrite Hf, Hc.
Qed.

(** ** Projection *)
Lemma quadrature_ext rule f g : (forall x, f x = g x) -> quadrature rule f = quadrature rule g.
Proof. intros E. unfold quadrature. f_equal. apply map_ext. intros it. now rewrite E. Qed.
Lemma quadrature_sum rule n (f : nat -> (nat -> R) -> R) : quadrature rule (fun x => sumn n (fun i => f i x)) = sumn n (fun i => quadrature rule (f i)).
Proof.
  unfold quadrature. rewrite sumn_rsum. f_equal. apply map_ext. intros it. rewrite Rmult_comm, <- sumn_scal. apply sumn_ext. intros; ring.
Qed.
Lemma quadrature_scal rule w f : quadrature rule (fun x => w * f x) = w * quadrature rule f.
Proof. unfold quadrature. rewrite <- rsum_scal. f_equal. apply map_ext. intros; ring. Qed.
Lemma quadrature_minus rule f g : quadrature rule (fun x => f x - g x) = quadrature rule f - quadrature rule g.
Proof. unfold quadrature, rsum. induction rule as [|it r IH]; cbn; [ring|]. rewrite IH. ring. Qed.
Lemma exact_mass k d rule i j : exact_rule (2 * k) d rule -> (i < (k + 1) ^ d)%nat -> (j < (k + 1) ^ d)%nat ->
  quadrature rule (fun x => tensor P k d i x * tensor P k d j x) = if (i =? j)%nat then mass k d i else 0.
Proof.
  intros He Hi Hj. apply He; [|now apply tensor_orthogonal].
  destruct (tensor_Qk (2 * k) d (fun l t => P (nth l (multiindex k d i) O) t * P (nth l (multiindex k d j) O) t)) as (l & Hl & El).
  - intros l _. replace (2 * k + 1)%nat with ((k + 1) + k)%nat by lia. apply poly_mul; [apply P_poly_k, multiindex_le|]. replace (S k) with (k + 1)%nat by lia. apply P_poly_k, multiindex_le.
  - exists l. split; [assumption|]. intros x. rewrite <- El, !tensor_prod. symmetry. apply rprod_mult.
Qed.
Lemma project_eq k d rule f : project k d rule f =
  map (fun i => quadrature rule (fun x => f x * tensor P k d i x) / quadrature rule (fun x => tensor P k d i x * tensor P k d i x)) (seq 0 (qk_size k d)).
Proof.
  unfold project. apply map_ext. intros i.
  assert (A : forall rule s, fold_left (fun s (it : (nat -> R) * R) => let '(x, w) := it in let phi := tensor (legendre k) k d i x in (fst s + f x * phi * w, snd s + phi * phi * w)) rule s
    = (fst s + quadrature rule (fun x => f x * tensor P k d i x), snd s + quadrature rule (fun x => tensor P k d i x * tensor P k d i x))).
  { clear. induction rule as [|(x, w) r IH]; intros (a, b); cbn [fold_left].
    - unfold quadrature, rsum. cbn. now rewrite !Rplus_0_r.
    - rewrite IH. rewrite tensor_P. unfold quadrature, rsum. cbn [map fold_right fst snd]. f_equal; ring. }
  rewrite A. cbn [fst snd]. now rewrite !Rplus_0_l.
Qed.
Theorem projection k d rule f : (0 < d)%nat -> exact_rule (2 * k) d rule -> in_Qk k d f ->
  forall x, combination (project k d rule f) (evaluate_function (legendre k) k d x) = f x.
Proof.
  intros Hd He Hf x. destruct (tensor_span k d f Hf) as (c & Hc). rewrite project_eq, combination_sum, size_pow, Hc by assumption. apply sumn_ext. intros i Hi. rewrite tensor_P. f_equal.
  rewrite (quadrature_ext rule (fun x => f x * tensor P k d i x) (fun x => sumn ((k + 1) ^ d) (fun j => c j * (tensor P k d j x * tensor P k d i x)))).
  2: { intros y. rewrite Hc, Rmult_comm, <- sumn_scal. apply sumn_ext. intros; ring. }
  rewrite quadrature_sum, (sumn_single _ i).
  - rewrite quadrature_scal. rewrite (exact_mass k d rule i i He Hi Hi), Nat.eqb_refl. field. pose proof (mass_pos k d i). lra.
  - assumption.
  - intros j Hj N. rewrite quadrature_scal, (exact_mass k d rule j i He Hj Hi). destruct (Nat.eqb_spec j i); [contradiction|ring].
Qed.
Theorem residual_orthogonal k d rule f j : (0 < d)%nat -> exact_rule (2 * k) d rule -> (j < qk_size k d)%nat ->
  quadrature rule (fun x => (f x - combination (project k d rule f) (evaluate_function (legendre k) k d x)) * tensor (legendre k) k d j x) = 0.
Proof.
  intros Hd He Hj. rewrite size_pow in Hj by assumption.
  set (a := fun i => quadrature rule (fun x => f x * tensor P k d i x) / quadrature rule (fun x => tensor P k d i x * tensor P k d i x)).
  rewrite (quadrature_ext rule _ (fun x => f x * tensor P k d j x - sumn ((k + 1) ^ d) (fun i => a i * (tensor P k d i x * tensor P k d j x)))).
  2: { intros x. rewrite project_eq. fold a. rewrite combination_sum, size_pow, tensor_P by assumption. rewrite Rmult_minus_distr_r. f_equal. rewrite Rmult_comm, <- sumn_scal. apply sumn_ext. intros i _. rewrite tensor_P. ring. }
  rewrite quadrature_minus, quadrature_sum, (sumn_single _ j).
  - rewrite quadrature_scal. unfold a. rewrite (exact_mass k d rule j j He Hj Hj), Nat.eqb_refl. field. pose proof (mass_pos k d j). lra.
  - assumption.
  - intros i Hi N. rewrite quadrature_scal, (exact_mass k d rule i j He Hi Hj). destruct (Nat.eqb_spec i j); [contradiction|ring].
Qed.
