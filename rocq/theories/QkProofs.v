(** Proofs about the Lagrange element. *)
From Coq Require Import Lra Lia FunctionalExtensionality.
From Verif Require Import CommonFacts QkModel QkSpec.
Local Open Scope R_scope.

(** ** Sums and products *)
Fixpoint rprod (n : nat) (f : nat -> R) : R := match n with O => 1 | S m => rprod m f * f m end.
Fixpoint sumn (n : nat) (f : nat -> R) : R := match n with O => 0 | S m => sumn m f + f m end.
Lemma rprod_ext n f g : (forall i, (i < n)%nat -> f i = g i) -> rprod n f = rprod n g.
Proof. induction n as [|n IH]; intros H; cbn; [reflexivity|]. now rewrite IH, H by (auto; lia). Qed.
Lemma sumn_ext n f g : (forall i, (i < n)%nat -> f i = g i) -> sumn n f = sumn n g.
Proof. induction n as [|n IH]; intros H; cbn; [reflexivity|]. now rewrite IH, H by (auto; lia). Qed.
Lemma sumn_plus n f g : sumn n (fun i => f i + g i) = sumn n f + sumn n g.
Proof. induction n as [|n IH]; cbn; [|rewrite IH]; ring. Qed.
Lemma sumn_scal n w f : sumn n (fun i => w * f i) = w * sumn n f.
Proof. induction n as [|n IH]; cbn; [|rewrite IH]; ring. Qed.
Lemma sumn_zero n : sumn n (fun _ => 0) = 0.
Proof. induction n as [|n IH]; cbn; [|rewrite IH]; ring. Qed.
Lemma sumn_single n k f : (k < n)%nat -> (forall i, (i < n)%nat -> i <> k -> f i = 0) -> sumn n f = f k.
Proof.
  induction n as [|n IH]; intros Hk H; [lia|]. cbn. destruct (Nat.eq_dec k n) as [->|].
  - rewrite (sumn_ext n f (fun _ => 0)) by (intros; apply H; lia). rewrite sumn_zero. ring.
  - rewrite IH by (intros; try apply H; lia). rewrite (H n) by lia. ring.
Qed.
Lemma rprod_zero n k f : (k < n)%nat -> f k = 0 -> rprod n f = 0.
Proof. induction n as [|n IH]; intros Hk H; [lia|]. cbn. destruct (Nat.eq_dec k n) as [->|]; [rewrite H|rewrite IH by (auto; lia)]; ring. Qed.
Lemma rprod_one n f : (forall i, (i < n)%nat -> f i = 1) -> rprod n f = 1.
Proof. induction n as [|n IH]; intros H; cbn; [reflexivity|]. rewrite IH, H by (auto; lia). ring. Qed.
Lemma rprod_shift n f : rprod (S n) f = f O * rprod n (fun i => f (S i)).
Proof. induction n as [|n IH]; [cbn; ring|]. cbn [rprod] in *. rewrite IH. ring. Qed.
Lemma rprod_mult n f g : rprod n (fun i => f i * g i) = rprod n f * rprod n g.
Proof. induction n as [|n IH]; cbn; [|rewrite IH]; ring. Qed.
Lemma rprod_at n j f v : (j < n)%nat -> rprod n (fun l => if (l =? j)%nat then v else f l) = v * rprod n (fun l => if (l =? j)%nat then 1 else f l).
Proof.
  induction n as [|n IH]; intros H; [lia|]. cbn [rprod]. destruct (Nat.eqb_spec n j) as [->|].
  - rewrite (rprod_ext j (fun l => if (l =? j)%nat then v else f l) f), (rprod_ext j (fun l => if (l =? j)%nat then 1 else f l) f); [ring| |].
    all: intros i Hi; destruct (Nat.eqb_spec i j); [lia|reflexivity].
  - rewrite IH by lia. ring.
Qed.

Lemma fold_prod (P : nat -> bool) (g : nat -> R) n : forall s r,
  fold_left (fun r j => if P j then r else r * g j) (seq s n) r = r * rprod n (fun i => if P (s + i)%nat then 1 else g (s + i)%nat).
Proof.
  induction n as [|n IH]; intros s r; [cbn; ring|]. cbn [seq fold_left]. rewrite IH, rprod_shift, Nat.add_0_r.
  rewrite (rprod_ext n (fun i => if P (s + S i)%nat then 1 else g (s + S i)%nat) (fun i => if P (S s + i)%nat then 1 else g (S s + i)%nat)).
  - destruct (P s); ring.
  - intros i _. now replace (s + S i)%nat with (S s + i)%nat by lia.
Qed.
Lemma fold_prod0 (g : nat -> R) n r : fold_left (fun r j => r * g j) (seq 0 n) r = r * rprod n g.
Proof. apply (fold_prod (fun _ => false) g n 0 r). Qed.
Lemma sumn_shift n f : sumn (S n) f = f O + sumn n (fun i => f (S i)).
Proof. induction n as [|n IH]; [cbn; ring|]. cbn [sumn] in *. rewrite IH. ring. Qed.
Lemma fold_sum (P : nat -> bool) (g : nat -> R) n : forall s r,
  fold_left (fun r j => if P j then r else r + g j) (seq s n) r = r + sumn n (fun i => if P (s + i)%nat then 0 else g (s + i)%nat).
Proof.
  induction n as [|n IH]; intros s r; [cbn; ring|]. cbn [seq fold_left]. rewrite IH, sumn_shift, Nat.add_0_r.
  rewrite (sumn_ext n (fun i => if P (s + S i)%nat then 0 else g (s + S i)%nat) (fun i => if P (S s + i)%nat then 0 else g (S s + i)%nat)).
  - destruct (P s); ring.
  - intros i _. now replace (s + S i)%nat with (S s + i)%nat by lia.
Qed.

(** ** One dimension *)
Definition factor (xi : nat -> R) (i j : nat) (x : R) : R := if (j =? i)%nat then 1 else (x - xi j) / (xi i - xi j).
Lemma lagrange_prod xi k i x : lagrange_at xi k i x = rprod (k + 1) (fun j => factor xi i j x).
Proof. unfold lagrange_at. rewrite fold_prod. cbn [Nat.add]. rewrite Rmult_1_l. reflexivity. Qed.

(** the points are different *)
Definition separate (xi : nat -> R) (k : nat) : Prop := forall i j, (i <= k)%nat -> (j <= k)%nat -> xi i = xi j -> i = j.
Definition equi (k j : nat) : R := INR j / INR k.
Lemma equi_separate k : separate (equi k) k.
Proof.
  intros i j Hi Hj E. destruct k as [|k]; [lia|]. unfold equi in E. assert (HK : INR (S k) <> 0) by (apply not_0_INR; lia). apply INR_eq. apply (Rmult_eq_compat_r (INR (S k))) in E.
  unfold Rdiv in E. rewrite !Rmult_assoc, Rinv_l, !Rmult_1_r in E by assumption. exact E.
Qed.
Lemma INR_diff i j : i <> j -> INR i - INR j <> 0.
Proof. intros H E. apply H. apply INR_eq. lra. Qed.
Lemma equi_factor k i j x : (0 < k)%nat -> i <> j -> (INR k * x - INR j) / (INR i - INR j) = (x - equi k j) / (equi k i - equi k j).
Proof.
  intros Hk N. assert (HK : INR k <> 0) by (apply not_0_INR; lia). pose proof (INR_diff i j N). unfold equi. field. repeat split; auto.
Qed.
Lemma fold_ext {A S} (f g : S -> A -> S) l : (forall s a, In a l -> f s a = g s a) -> forall s, fold_left f l s = fold_left g l s.
Proof. induction l as [|a l IH]; intros H s; cbn; [reflexivity|]. rewrite (H s a) by now left. apply IH. intros; apply H; now right. Qed.
Lemma lagrange_equi k i x : (i <= k)%nat -> lagrange k i x = lagrange_at (equi k) k i x.
Proof.
  intros Hi. apply fold_ext. intros s j Hj. apply in_seq in Hj. destruct (Nat.eqb_spec j i); [reflexivity|]. now rewrite equi_factor by lia.
Qed.
Lemma dlagrange_equi k i x : (i <= k)%nat -> dlagrange k i x = dlagrange_at (equi k) k i x.
Proof.
  intros Hi. apply fold_ext. intros s j Hj. apply in_seq in Hj. destruct (Nat.eqb_spec j i); [reflexivity|]. f_equal.
  replace (INR k * 1 / (INR i - INR j)) with (1 / (equi k i - equi k j)).
  - apply fold_ext. intros s' l Hl. destruct (Nat.eqb_spec l i), (Nat.eqb_spec l j); cbn; try reflexivity. now rewrite equi_factor by lia.
  - assert (HK : INR k <> 0) by (apply not_0_INR; lia). pose proof (INR_diff i j ltac:(auto)). unfold equi. field. repeat split; auto.
Qed.

Lemma lagrange_nodal xi k i m : separate xi k -> (i <= k)%nat -> (m <= k)%nat -> lagrange_at xi k i (xi m) = if (m =? i)%nat then 1 else 0.
Proof.
  intros Hs Hi Hm. rewrite lagrange_prod.
  destruct (Nat.eqb_spec m i) as [->|N].
  - apply rprod_one. intros j Hj. unfold factor. destruct (Nat.eqb_spec j i) as [|n]; [reflexivity|]. field.
    intros C. apply n. apply Hs; try lia. lra.
  - apply (rprod_zero _ m); [lia|]. unfold factor. destruct (Nat.eqb_spec m i); [contradiction|]. unfold Rdiv. ring.
Qed.

(** polynomials of degree below n *)
Fixpoint peval (c : list R) (x : R) : R := match c with [] => 0 | a :: c' => a + x * peval c' x end.
Definition is_poly (n : nat) (f : R -> R) : Prop := exists c, length c = n /\ forall x, f x = peval c x.
Lemma poly_add n f g : is_poly n f -> is_poly n g -> is_poly n (fun x => f x + g x).
Proof.
  intros (a & La & Ha) (b & Lb & Hb). exists (map (fun p => fst p + snd p) (combine a b)).
  split; [rewrite map_length, combine_length; lia|]. intros x. rewrite Ha, Hb. clear Ha Hb f g. revert b n La Lb.
  induction a as [|u a IH]; intros [|v b] n La Lb; cbn in *; try lia; [ring|]. rewrite <- (IH b (pred n)) by lia. ring.
Qed.
Lemma poly_scal n w f : is_poly n f -> is_poly n (fun x => w * f x).
Proof.
  intros (a & La & Ha). exists (map (Rmult w) a). split; [now rewrite map_length|]. intros x. rewrite Ha. clear. induction a as [|u a IH]; cbn; [ring|]. rewrite <- IH. ring.
Qed.
Lemma poly_ext n f g : (forall x, f x = g x) -> is_poly n f -> is_poly n g.
Proof. intros E (a & La & Ha). exists a. split; [assumption|]. intros x. now rewrite <- E. Qed.
Lemma poly_S n f : is_poly n f -> is_poly (S n) f.
Proof.
  intros (a & La & Ha). exists (a ++ [0]). split; [rewrite app_length; cbn; lia|]. intros x. rewrite Ha. clear. induction a as [|u a IH]; cbn; [ring|]. now rewrite IH.
Qed.
Lemma poly_le n m f : (n <= m)%nat -> is_poly n f -> is_poly m f.
Proof. induction 1; auto. intros. apply poly_S. auto. Qed.
Lemma poly_x n f : is_poly n f -> is_poly (S n) (fun x => x * f x).
Proof. intros (a & La & Ha). exists (0 :: a). split; [cbn; lia|]. intros x. cbn. rewrite Ha. ring. Qed.
Lemma poly_linear n f a b : is_poly n f -> is_poly (S n) (fun x => f x * (a * x + b)).
Proof.
  intros H. apply (poly_ext _ (fun x => a * (x * f x) + b * f x)); [intros; ring|].
  apply poly_add; apply poly_scal; [now apply poly_x|now apply poly_S].
Qed.
Lemma poly_one : is_poly 1 (fun _ => 1). Proof. exists [1]. split; [reflexivity|]. intros; cbn; ring. Qed.
Lemma poly_zero n : is_poly n (fun _ => 0).
Proof. exists (repeat 0 n). split; [apply repeat_length|]. intros x. induction n as [|n IH]; cbn; [reflexivity|]. rewrite <- IH. ring. Qed.
Lemma poly_pow n : is_poly (S n) (fun x => x ^ n).
Proof. induction n as [|n IH]; [apply poly_one|]. cbn. now apply poly_x. Qed.
Lemma poly_sum n m (f : nat -> R -> R) : (forall i, (i < m)%nat -> is_poly n (f i)) -> is_poly n (fun x => sumn m (fun i => f i x)).
Proof. induction m as [|m IH]; intros H; cbn; [apply poly_zero|]. apply poly_add; [apply IH; auto|apply H; lia]. Qed.

(** the degree of a Lagrange polynomial: at most one factor per node other than i *)
Lemma poly_factors xi k i n : (i <= k)%nat -> (n <= k + 1)%nat -> is_poly (if (i <? n)%nat then n else S n) (fun x => rprod n (fun j => factor xi i j x)).
Proof.
  intros Hi. induction n as [|n IH]; intros Hn.
  - destruct (Nat.ltb_spec i 0); [lia|]. apply poly_one.
  - specialize (IH ltac:(lia)). cbn [rprod]. unfold factor at 2. destruct (Nat.eqb_spec n i) as [->|N].
    + rewrite Nat.ltb_irrefl in IH. destruct (Nat.ltb_spec i (S i)); [|lia]. apply (poly_ext _ _ _ (fun x => eq_sym (Rmult_1_r _))). exact IH.
    + assert (E : (if (i <? S n)%nat then S n else S (S n)) = S (if (i <? n)%nat then n else S n)).
      { destruct (Nat.ltb_spec i n), (Nat.ltb_spec i (S n)); lia. }
      rewrite E. apply (poly_ext _ (fun x => rprod n (fun j => factor xi i j x) * (1 / (xi i - xi n) * x + - xi n / (xi i - xi n)))); [intros; unfold Rdiv; ring|].
      now apply poly_linear.
Qed.
Lemma lagrange_poly xi k i : (i <= k)%nat -> is_poly (k + 1) (lagrange_at xi k i).
Proof.
  intros H. pose proof (poly_factors xi k i (k + 1) H (le_n _)) as P. destruct (Nat.ltb_spec i (k + 1)); [|lia].
  apply (poly_ext _ _ _ (fun x => eq_sym (lagrange_prod xi k i x)) P).
Qed.

(** more roots than the degree *)
Lemma divide c r : exists q, length q = pred (length c) /\ forall x, peval c x = (x - r) * peval q x + peval c r.
Proof.
  induction c as [|a c (q & Lq & Hq)]; [exists []; split; [reflexivity|]; intros; cbn; ring|].
  destruct c as [|b c]; [exists []; split; [reflexivity|]; intros; cbn; ring|].
  exists (peval (b :: c) r :: q). split; [cbn in *; lia|]. intros x. change (peval (a :: b :: c) x) with (a + x * peval (b :: c) x).
  change (peval (a :: b :: c) r) with (a + r * peval (b :: c) r). rewrite (Hq x) at 1. cbn [peval]. ring.
Qed.
Lemma many_roots rs : NoDup rs -> forall c, length c = length rs -> (forall r, In r rs -> peval c r = 0) -> forall x, peval c x = 0.
Proof.
  induction 1 as [|r rs Nr ND IH]; intros c Lc H x.
  - destruct c; [reflexivity|discriminate].
  - destruct (divide c r) as (q & Lq & Hq). rewrite Hq, (H r) by now left.
    rewrite (IH q); [ring| |].
    + cbn in Lc. rewrite Lq, Lc. reflexivity.
    + intros s Hs. pose proof (Hq s) as E. rewrite (H s), (H r) in E by (cbn; auto). rewrite Rplus_0_r in E. symmetry in E.
      apply Rmult_integral in E as [E|E]; [|assumption]. exfalso. apply Nr. now replace r with s by lra.
Qed.

(** interpolation in one dimension is exact up to degree k *)
Lemma reproduce_1 xi k f : separate xi k -> is_poly (k + 1) f -> forall x, sumn (k + 1) (fun m => f (xi m) * lagrange_at xi k m x) = f x.
Proof.
  intros Hs Hf x. apply Rminus_diag_uniq.
  assert (Pd : is_poly (k + 1) (fun x => sumn (k + 1) (fun m => f (xi m) * lagrange_at xi k m x) - f x)).
  { apply (poly_ext _ (fun x => sumn (k + 1) (fun m => f (xi m) * lagrange_at xi k m x) + -1 * f x)); [intros; ring|].
    apply poly_add; [|now apply poly_scal]. apply (poly_sum _ _ (fun m x => f (xi m) * lagrange_at xi k m x)). intros m Hm. apply poly_scal, lagrange_poly. lia. }
  destruct Pd as (c & Lc & Hc). rewrite Hc.
  apply (many_roots (map xi (seq 0 (k + 1)))).
  - apply NoDup_nth_error. intros i j Hi E. rewrite map_length, seq_length in Hi.
    assert (Hj : (j < k + 1)%nat). { destruct (Nat.ltb_spec j (k + 1)); [assumption|]. exfalso. rewrite (proj2 (nth_error_None _ j)) in E by (rewrite map_length, seq_length; lia).
      apply nth_error_None in E. rewrite map_length, seq_length in E. lia. }
    rewrite !nth_error_map in E. rewrite !(nth_error_nth' _ O) in E by (rewrite seq_length; lia). rewrite !seq_nth in E by lia. injection E as E. apply Hs; auto; lia.
  - now rewrite map_length, seq_length.
  - intros r Hr. apply in_map_iff in Hr as (n & <- & Hn). apply in_seq in Hn. rewrite <- Hc.
    rewrite (sumn_single _ n).
    + rewrite lagrange_nodal, Nat.eqb_refl by (auto; lia). ring.
    + lia.
    + intros i Hi Ni. rewrite lagrange_nodal by (auto; lia). destruct (Nat.eqb_spec n i); [lia|ring].
Qed.

(** derivatives *)
Lemma derivable_rprod n (g : nat -> R -> R) (g' : nat -> R) x : (forall j, (j < n)%nat -> derivable_pt_lim (g j) x (g' j)) ->
  derivable_pt_lim (fun y => rprod n (fun j => g j y)) x (sumn n (fun j => g' j * rprod n (fun l => if (l =? j)%nat then 1 else g l x))).
Proof.
  induction n as [|n IH]; intros H; cbn [rprod sumn]; [apply derivable_pt_lim_const|].
  match goal with |- derivable_pt_lim _ _ ?v => replace v with
    (sumn n (fun j => g' j * rprod n (fun l => if (l =? j)%nat then 1 else g l x)) * g n x + rprod n (fun j => g j x) * g' n) end.
  - apply (derivable_pt_lim_mult (fun y => rprod n (fun j => g j y)) (g n)); [apply IH; intros; apply H; lia|apply H; lia].
  - rewrite Nat.eqb_refl. rewrite (rprod_ext n (fun l => if (l =? n)%nat then 1 else g l x) (fun j => g j x)) by (intros i Hi; destruct (Nat.eqb_spec i n); [lia|reflexivity]).
    rewrite (sumn_ext n (fun j => g' j * (rprod n (fun l => if (l =? j)%nat then 1 else g l x) * (if (n =? j)%nat then 1 else g n x)))
      (fun j => g n x * (g' j * rprod n (fun l => if (l =? j)%nat then 1 else g l x)))) by (intros j Hj; destruct (Nat.eqb_spec n j); [lia|ring]).
    rewrite sumn_scal. ring.
Qed.
Lemma derivable_factor xi i j x : derivable_pt_lim (factor xi i j) x (if (j =? i)%nat then 0 else 1 / (xi i - xi j)).
Proof.
  unfold factor. destruct (j =? i)%nat; [apply derivable_pt_lim_const|].
  replace (1 / (xi i - xi j)) with ((1 - 0) * / (xi i - xi j) + (x - xi j) * 0) by (unfold Rdiv; ring).
  apply (derivable_pt_lim_mult (fun y => y - xi j) (fun _ => / (xi i - xi j))); [|apply derivable_pt_lim_const].
  apply (derivable_pt_lim_minus (fun y => y) (fun _ => xi j)); [|apply derivable_pt_lim_const].
  apply derivable_pt_lim_id.
Qed.
Lemma dlagrange_sum xi k i x : dlagrange_at xi k i x =
  sumn (k + 1) (fun j => (if (j =? i)%nat then 0 else 1 / (xi i - xi j)) * rprod (k + 1) (fun l => if (l =? j)%nat then 1 else factor xi i l x)).
Proof.
  unfold dlagrange_at. rewrite fold_sum, Rplus_0_l. cbn [Nat.add]. apply sumn_ext. intros j _. destruct (j =? i)%nat; [ring|].
  rewrite (fold_prod (fun l => (l =? i)%nat || (l =? j)%nat)). cbn [Nat.add]. f_equal. apply rprod_ext. intros l _. unfold factor.
  destruct (l =? i)%nat, (l =? j)%nat; reflexivity.
Qed.
Lemma dlim_ext f g x v : (forall y, f y = g y) -> derivable_pt_lim f x v -> derivable_pt_lim g x v.
Proof. intros E D e He. destruct (D e He) as (dl & Hd). exists dl. intros h H0 H1. rewrite <- !E. now apply Hd. Qed.
Lemma dlagrange_derivative xi k i x : derivable_pt_lim (lagrange_at xi k i) x (dlagrange_at xi k i x).
Proof.
  rewrite dlagrange_sum. apply (dlim_ext (fun y => rprod (k + 1) (fun j => factor xi i j y))); [intros; now rewrite lagrange_prod|].
  apply (derivable_rprod (k + 1) (fun j => factor xi i j) _ x (fun j _ => derivable_factor xi i j x)).
Qed.

(** ** Several dimensions *)
Lemma size_pow k d : (0 < d)%nat -> qk_size k d = ((k + 1) ^ d)%nat.
Proof.
  intros H. destruct k as [|k]; [cbn [qk_size]; rewrite Nat.pow_1_l; now destruct d|].
  induction d as [|d IH]; [lia|]. destruct d as [|d]; [cbn; lia|]. cbn [Nat.pow] in *. cbn [qk_size] in *. rewrite IH by lia. reflexivity.
Qed.
Lemma multiindex_length k d : forall i, length (multiindex k d i) = d.
Proof. induction d as [|d IH]; intros i; cbn; [reflexivity|]. now rewrite IH. Qed.
Lemma multiindex_le k d : forall i j, (nth j (multiindex k d i) 0 <= k)%nat.
Proof.
  induction d as [|d IH]; intros i j; cbn; [destruct j; lia|]. destruct j; cbn; [|apply IH].
  pose proof (Nat.mod_upper_bound i (k + 1) ltac:(lia)). lia.
Qed.
Lemma multiindex_inj k d : forall i l, (i < (k + 1) ^ d)%nat -> (l < (k + 1) ^ d)%nat ->
  (forall j, (j < d)%nat -> nth j (multiindex k d i) O = nth j (multiindex k d l) O) -> i = l.
Proof.
  induction d as [|d IH]; intros i l Hi Hl H; [cbn in *; lia|].
  pose proof (H O ltac:(lia)) as E0. cbn in E0.
  assert (E1 : (i / (k + 1) = l / (k + 1))%nat).
  { apply IH.
    - apply Nat.div_lt_upper_bound; [lia|]. cbn [Nat.pow] in Hi. exact Hi.
    - apply Nat.div_lt_upper_bound; [lia|]. cbn [Nat.pow] in Hl. exact Hl.
    - intros j Hj. apply (H (S j) ltac:(lia)). }
  rewrite (Nat.div_mod_eq i (k + 1)), (Nat.div_mod_eq l (k + 1)), E1. lia.
Qed.
Lemma tensor_prod p k d i x : tensor p k d i x = rprod d (fun j => p (nth j (multiindex k d i) O) (x j)).
Proof. unfold tensor. rewrite fold_prod0. ring. Qed.

(** sums over all multi-indices of products are products of sums *)
Lemma sumn_split b M f : sumn (b * M) f = sumn M (fun q => sumn b (fun m => f (m + b * q)%nat)).
Proof.
  induction M as [|M IH]; [rewrite Nat.mul_0_r; reflexivity|]. rewrite Nat.mul_succ_r. cbn [sumn]. rewrite <- IH. clear IH.
  assert (A : forall n s f, sumn (s + n) f = sumn s f + sumn n (fun i => f (s + i)%nat)).
  { clear. induction n as [|n IH]; intros s f; [rewrite Nat.add_0_r; cbn; ring|]. rewrite Nat.add_succ_r. cbn [sumn]. rewrite IH. ring. }
  rewrite A. f_equal. apply sumn_ext. intros i _. f_equal. lia.
Qed.
Lemma sum_of_products k d : forall g : nat -> nat -> R,
  sumn ((k + 1) ^ d) (fun i => rprod d (fun j => g j (nth j (multiindex k d i) O))) = rprod d (fun j => sumn (k + 1) (g j)).
Proof.
  induction d as [|d IH]; intros g; [cbn; ring|]. cbn [Nat.pow]. rewrite sumn_split.
  rewrite rprod_shift, <- (IH (fun j => g (S j))), <- sumn_scal. apply sumn_ext. intros q _.
  rewrite Rmult_comm, <- sumn_scal. apply sumn_ext. intros m Hm. rewrite rprod_shift. cbn [multiindex nth].
  replace ((m + (k + 1) * q) mod (k + 1))%nat with m by (rewrite Nat.mul_comm, Nat.mod_add, Nat.mod_small; lia).
  replace ((m + (k + 1) * q) / (k + 1))%nat with q by (rewrite Nat.mul_comm, Nat.div_add, Nat.div_small; lia).
  ring.
Qed.

Lemma monomial_prod a : forall x, monomial a x = rprod (length a) (fun j => x j ^ nth j a O).
Proof. induction a as [|n a IH]; intros x; [reflexivity|]. cbn [monomial length]. rewrite rprod_shift, IH. reflexivity. Qed.

Lemma combination_sum p k d (c : nat -> R) x :
  combination (map c (seq 0 (qk_size k d))) (evaluate_function p k d x) = sumn (qk_size k d) (fun i => c i * tensor p k d i x).
Proof.
  unfold combination, evaluate_function. generalize (qk_size k d) as n. intros n.
  assert (A : forall n s, rsum (map (fun q => fst q * snd q) (combine (map c (seq s n)) (map (fun i => tensor p k d i x) (seq s n)))) = sumn n (fun i => c (s + i)%nat * tensor p k d (s + i) x)).
  { clear. induction n as [|n IH]; intros s; [reflexivity|]. cbn [seq map combine]. unfold rsum in *. cbn [fold_right fst snd map]. rewrite IH, sumn_shift, Nat.add_0_r. f_equal.
    apply sumn_ext. intros i _. now rewrite Nat.add_succ_r. }
  apply A.
Qed.

Lemma rsum_plus {A} (f g : A -> R) l : rsum (map (fun a => f a + g a) l) = rsum (map f l) + rsum (map g l).
Proof. unfold rsum. induction l as [|a l IH]; cbn; [ring|]. rewrite IH. ring. Qed.
Lemma sumn_rsum {A} n (f : nat -> A -> R) l : sumn n (fun i => rsum (map (f i) l)) = rsum (map (fun a => sumn n (fun i => f i a)) l).
Proof. induction n as [|n IH]; cbn [sumn]; [|rewrite IH, <- rsum_plus; reflexivity]. unfold rsum. induction l as [|a l IHl]; cbn; [reflexivity|]. rewrite <- IHl. ring. Qed.

(** a one-dimensional basis with its functionals: degree k polynomials are reproduced *)
Theorem reproduces_nodes p (xi : nat -> R) k d f : (0 < d)%nat ->
  (forall g, is_poly (k + 1) g -> forall x, sumn (k + 1) (fun m => g (xi m) * p m x) = g x) -> in_Qk k d f ->
  forall x, sumn ((k + 1) ^ d) (fun i => f (fun j => xi (nth j (multiindex k d i) O)) * tensor p k d i x) = f x.
Proof.
  intros Hd H1 (l & Hl & Hf) x.
  rewrite (sumn_ext _ _ (fun i => rsum (map (fun wa => fst wa * (monomial (snd wa) (fun j => xi (nth j (multiindex k d i) O)) * tensor p k d i x)) l))).
  2: { intros i _. rewrite Hf. clear. unfold rsum. induction l as [|wa l IH]; cbn [map fold_right]; [ring|]. rewrite <- IH. ring. }
  rewrite sumn_rsum, Hf. f_equal. apply map_ext_in. intros (w, a) Hin. cbn [fst snd]. destruct (Hl w a Hin) as [La F]. rewrite sumn_scal. f_equal.
  rewrite (sumn_ext _ _ (fun i => rprod d (fun j => xi (nth j (multiindex k d i) O) ^ nth j a O * p (nth j (multiindex k d i) O) (x j)))).
  2: { intros i _. rewrite monomial_prod, La, tensor_prod, <- rprod_mult. reflexivity. }
  rewrite (sum_of_products k d (fun j m => xi m ^ nth j a O * p m (x j))).
  rewrite monomial_prod, La. apply rprod_ext. intros j Hj. rewrite <- La in Hj.
  rewrite Forall_forall in F. pose proof (F (nth j a O) (nth_In a O Hj)).
  apply (H1 (fun y => y ^ nth j a O)). apply (poly_le (S (nth j a O))); [lia|apply poly_pow].
Qed.
Lemma Q0_constant d f : in_Qk 0 d f -> forall x y, f x = f y.
Proof.
  intros (l & Hl & Hf) x y. rewrite !Hf. f_equal. apply map_ext_in. intros (w, a) Hin. cbn [fst snd]. destruct (Hl w a Hin) as [_ F]. f_equal. rewrite !monomial_prod. apply rprod_ext. intros j Hj.
  rewrite Forall_forall in F. pose proof (F (nth j a O) (nth_In a O Hj)). replace (nth j a O) with O by lia. reflexivity.
Qed.
Lemma size_0 d : qk_size 0 d = 1%nat. Proof. now destruct d. Qed.

Theorem reproduces_at xi k d f : (0 < d)%nat -> separate xi k -> in_Qk k d f ->
  forall x, combination (interpolate_at xi k d f) (evaluate_function (lagrange_at xi k) k d x) = f x.
Proof.
  intros Hd Hs Hf x. pose proof (reproduces_nodes (lagrange_at xi k) xi k d f Hd (fun g Hg => reproduce_1 xi k g Hs Hg) Hf x) as E.
  rewrite <- size_pow in E by assumption.
  assert (I : interpolate_at xi k d f = map (fun i => f (fun j => xi (nth j (multiindex k d i) O))) (seq 0 (qk_size k d))).
  { destruct k as [|k]; [|reflexivity]. rewrite size_0. cbn [interpolate_at seq map]. f_equal. now apply (Q0_constant d). }
  rewrite I, combination_sum. exact E.
Qed.
Lemma tensor_ext p q k d i x : (forall m y, (m <= k)%nat -> p m y = q m y) -> tensor p k d i x = tensor q k d i x.
Proof. intros H. rewrite !tensor_prod. apply rprod_ext. intros j _. apply H, multiindex_le. Qed.
Lemma function_ext p q k d x : (forall m y, (m <= k)%nat -> p m y = q m y) -> evaluate_function p k d x = evaluate_function q k d x.
Proof. intros H. apply map_ext. intros i. now apply tensor_ext. Qed.
Lemma interpolate_equi k d f : interpolate k d f = interpolate_at (equi k) k d f.
Proof.
  destruct k as [|k]; [reflexivity|]. unfold interpolate, interpolate_at. apply map_ext. intros i. f_equal. apply functional_extensionality. intros j. unfold equi. now rewrite Rmult_1_l.
Qed.

(** the nodal property *)
Lemma digits_differ k d i l : (i < (k + 1) ^ d)%nat -> (l < (k + 1) ^ d)%nat -> i <> l ->
  exists j, (j < d)%nat /\ nth j (multiindex k d i) O <> nth j (multiindex k d l) O.
Proof.
  intros Hi Hl N. destruct (forallb (fun j => nth j (multiindex k d i) O =? nth j (multiindex k d l) O)%nat (seq 0 d)) eqn:E.
  - exfalso. apply N. apply (multiindex_inj k d); auto. intros j Hj. rewrite forallb_forall in E. apply Nat.eqb_eq, E, in_seq. lia.
  - clear - E. revert E. cut (forall n s, forallb (fun j => nth j (multiindex k d i) O =? nth j (multiindex k d l) O)%nat (seq s n) = false ->
      exists j, (s <= j < s + n)%nat /\ nth j (multiindex k d i) O <> nth j (multiindex k d l) O).
    + intros H E. destruct (H d O E) as (j & Hj & D). exists j. split; [lia|assumption].
    + induction n as [|n IH]; intros s E; [discriminate|]. cbn [seq forallb] in E. apply andb_false_iff in E as [E|E].
      * exists s. split; [lia|]. now apply Nat.eqb_neq.
      * destruct (IH _ E) as (j & Hj & D). exists j. split; [lia|assumption].
Qed.
Theorem tensor_nodal xi k d i l : separate xi k -> (0 < d)%nat -> (i < qk_size k d)%nat -> (l < qk_size k d)%nat ->
  tensor (lagrange_at xi k) k d i (fun j => xi (nth j (multiindex k d l) O)) = if (i =? l)%nat then 1 else 0.
Proof.
  intros Hs Hd Hi Hl. rewrite size_pow in Hi, Hl by assumption. rewrite tensor_prod.
  destruct (Nat.eqb_spec i l) as [->|N].
  - apply rprod_one. intros j _. rewrite lagrange_nodal, Nat.eqb_refl by (auto; apply multiindex_le). reflexivity.
  - destruct (digits_differ k d i l Hi Hl N) as (j & Hj & D). apply (rprod_zero d j _ Hj). rewrite lagrange_nodal by (auto; apply multiindex_le).
    destruct (Nat.eqb_spec (nth j (multiindex k d l) O) (nth j (multiindex k d i) O)); [congruence|reflexivity].
Qed.

Theorem gradient p dp k d i j x : (forall m y, (m <= k)%nat -> derivable_pt_lim (p m) y (dp m y)) -> (j < d)%nat ->
  derivable_pt_lim (fun h => tensor p k d i (moved x j h)) (x j) (dtensor p dp k d i j x).
Proof.
  intros H Hj. unfold dtensor. rewrite (fold_prod (fun l => (l =? j)%nat)). cbn [Nat.add].
  set (rest := rprod d (fun l => if (l =? j)%nat then 1 else p (nth l (multiindex k d i) O) (x l))).
  apply (dlim_ext (fun h => p (nth j (multiindex k d i) O) h * rest)).
  { intros h. rewrite tensor_prod. unfold rest. rewrite <- rprod_at by assumption. apply rprod_ext. intros l _. unfold moved. now destruct (Nat.eqb_spec l j) as [->|]. }
  replace (dp (nth j (multiindex k d i) O) (x j) * rest) with (dp (nth j (multiindex k d i) O) (x j) * rest + p (nth j (multiindex k d i) O) (x j) * 0) by ring.
  apply (derivable_pt_lim_mult (p (nth j (multiindex k d i) O)) (fun _ => rest)); [apply H, multiindex_le|apply derivable_pt_lim_const].
Qed.

(** the basis functions are tensor product polynomials *)
Lemma peval_sum c : forall x, peval c x = rsum (map (fun n => nth n c 0 * x ^ n) (seq 0 (length c))).
Proof.
  induction c as [|a c IH]; intros x; [reflexivity|]. cbn [length seq map peval]. unfold rsum in *. cbn [fold_right nth pow]. rewrite IH. rewrite <- seq_shift, map_map. cbn [nth pow].
  rewrite Rmult_1_r. f_equal. clear. generalize (seq 0 (length c)) as l. induction l as [|n l IHl]; cbn [map fold_right]; [ring|]. rewrite <- IHl. ring.
Qed.
Lemma rsum_app l1 l2 : rsum (l1 ++ l2) = rsum l1 + rsum l2.
Proof. unfold rsum. induction l1 as [|a l IH]; cbn; [ring|]. rewrite IH. ring. Qed.
Lemma rsum_scal {A} w (f : A -> R) l : rsum (map (fun a => w * f a) l) = w * rsum (map f l).
Proof. unfold rsum. induction l as [|a l IH]; cbn; [ring|]. rewrite IH. ring. Qed.
Lemma tensor_Qk k d : forall g : nat -> R -> R, (forall j, (j < d)%nat -> is_poly (k + 1) (g j)) -> in_Qk k d (fun x => rprod d (fun j => g j (x j))).
Proof.
  induction d as [|d IH]; intros g Hg.
  - exists [(1, [])]. split; [intros w a [E|[]]; injection E as <- <-; split; [reflexivity|constructor]|]. intros x. unfold rsum. cbn. ring.
  - destruct (IH (fun j => g (S j)) (fun j Hj => Hg (S j) ltac:(lia))) as (l & Hl & El). destruct (Hg O ltac:(lia)) as (c & Lc & Hc).
    exists (flat_map (fun n => map (fun wa => (nth n c 0 * fst wa, n :: snd wa)) l) (seq 0 (length c))). split.
    + intros w a Hin. apply in_flat_map in Hin as (n & Hn & Hin). apply in_map_iff in Hin as ((w', a') & E & Hin). injection E as <- <-. cbn [snd length].
      apply in_seq in Hn. destruct (Hl w' a' Hin) as [La Fa]. split; [lia|]. constructor; [lia|assumption].
    + intros x. rewrite rprod_shift. rewrite (El (fun j => x (S j))), Hc, peval_sum. generalize (seq 0 (length c)) as ns. clear. induction ns as [|n ns IH]; [unfold rsum; cbn; ring|].
      cbn [flat_map map]. rewrite map_app, rsum_app, <- IH, map_map. cbn [fst snd monomial].
      rewrite (map_ext (fun wa : R * list nat => nth n c 0 * fst wa * (x O ^ n * monomial (snd wa) (fun j => x (S j)))) (fun wa => (nth n c 0 * x O ^ n) * (fst wa * monomial (snd wa) (fun j => x (S j)))))
        by (intros; ring).
      rewrite rsum_scal. unfold rsum at 1. cbn [fold_right]. fold (rsum (map (fun n0 => nth n0 c 0 * x O ^ n0) ns)). ring.
Qed.
Theorem tensor_in p k d i : (forall m, (m <= k)%nat -> is_poly (k + 1) (p m)) -> in_Qk k d (tensor p k d i).
Proof.
  intros H. destruct (tensor_Qk k d (fun j => p (nth j (multiindex k d i) O))) as (l & Hl & El).
  - intros j _. apply H, multiindex_le.
  - exists l. split; [assumption|]. intros x. now rewrite tensor_prod.
Qed.
