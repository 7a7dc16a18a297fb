(** Integrals over the reference elements. *)
From Coq Require Import Reals Lra Factorial.
From Verif Require Import Common CommonFacts ParSpec ParProofs2 DdProofs OrthModel OrthSpec OrthProofs.
Local Open Scope R_scope.
Local Arguments rsum : simpl never.

(** ** One variable *)

Lemma int_ext f g a b v : (forall x, a <= x <= b -> f x = g x) -> is_int f a b v -> is_int g a b v.
Proof. intros E (F & D & ->). exists F. split; auto. intros x H. rewrite <- E by auto. auto. Qed.
Lemma int_scale c f a b v : is_int f a b v -> is_int (fun x => c * f x) a b (c * v).
Proof.
  intros (F & D & ->). exists (fun x => c * F x). split; [|ring]. intros x H.
  exact (derivable_pt_lim_scal F c x (f x) (D x H)).
Qed.
Lemma int_plus f g a b v w : is_int f a b v -> is_int g a b w -> is_int (fun x => f x + g x) a b (v + w).
Proof.
  intros (F & D & ->) (G & E & ->). exists (fun x => F x + G x). split; [|ring]. intros x H.
  exact (derivable_pt_lim_plus F G x _ _ (D x H) (E x H)).
Qed.
Lemma int_0 a b : is_int (fun _ => 0) a b 0.
Proof. exists (fun _ => 0). split; [|ring]. intros x _. exact (derivable_pt_lim_const 0 x). Qed.
Lemma int_unique f a b v w : a <= b -> is_int f a b v -> is_int f a b w -> v = w.
Proof.
  intros L (F & D & ->) (G & E & ->). destruct L as [L| ->]; [|lra].
  destruct (MVT_cor2 (fun x => F x - G x) (fun _ => 0) a b L) as (c & H & _); [|lra].
  intros c H. replace 0 with (f c - f c) by ring. exact (derivable_pt_lim_minus F G c _ _ (D c H) (E c H)).
Qed.
Lemma antider_mono F f a b : a <= b -> (forall x, a <= x <= b -> derivable_pt_lim F x (f x)) ->
  (forall x, a <= x <= b -> 0 <= f x) -> F a <= F b.
Proof.
  intros [L| ->] D P; [|lra]. destruct (MVT_cor2 F f a b L D) as (c & H & C).
  assert (0 <= f c) by (apply P; lra). nra.
Qed.
Lemma int_nonneg f a b v : a <= b -> (forall x, a <= x <= b -> 0 <= f x) -> is_int f a b v -> 0 <= v.
Proof. intros L P (F & D & ->). pose proof (antider_mono F f a b L D P). lra. Qed.
Lemma int_zero f a b : (forall x, a <= x <= b -> 0 <= f x) -> is_int f a b 0 -> forall x, a < x < b -> f x = 0.
Proof.
  intros P (F & D & E) x H.
  assert (C : forall y, a <= y <= b -> F y = F a).
  { intros y Y. assert (F a <= F y) by (apply (antider_mono F f); [lra | intros; apply D; lra | intros; apply P; lra]).
    assert (F y <= F b) by (apply (antider_mono F f); [lra | intros; apply D; lra | intros; apply P; lra]). lra. }
  apply (uniqueness_limite F x); [apply D; lra|].
  intros eps He. assert (Hp : 0 < Rmin (x - a) (b - x)) by (apply Rmin_glb_lt; lra).
  exists (mkposreal _ Hp). intros h Hh Hd. cbn in Hd.
  assert (Rabs h < x - a) by (eapply Rlt_le_trans; [exact Hd | apply Rmin_l]).
  assert (Rabs h < b - x) by (eapply Rlt_le_trans; [exact Hd | apply Rmin_r]).
  assert (- Rabs h <= h <= Rabs h) by (split; [pose proof (Rle_abs (- h)); rewrite Rabs_Ropp in *; lra | apply Rle_abs]).
  rewrite (C (x + h)), (C x) by lra. replace ((F a - F a) / h - 0) with 0 by (field; auto). rewrite Rabs_R0; auto.
Qed.

(** ** Iterated integrals; [nxt s x] is the bound of the next coordinate *)

Fixpoint gint (nxt : R -> R -> R) (d : nat) (s : R) (f : list R -> R) (v : R) : Prop :=
  match d with
  | 0%nat => v = f []
  | S d' => exists g, (forall x, 0 <= x <= s -> gint nxt d' (nxt s x) (fun y => f (x :: y)) (g x)) /\ is_int g 0 s v
  end.
Fixpoint inner (nxt : R -> R -> R) (d : nat) (s : R) (x : list R) : Prop :=
  match d, x with
  | 0%nat, [] => True
  | S d', y :: x' => 0 < y < s /\ inner nxt d' (nxt s y) x'
  | _, _ => False
  end.
Definition nxt_of (s : shape) : R -> R -> R := match s with Cube => fun s _ => s | Simplex => fun s x => s - x end.

Lemma cube_gint d : forall f v, cube_int d f v <-> gint (nxt_of Cube) d 1 f v.
Proof.
  induction d as [|d IH]; intros f v; cbn [cube_int gint]; [tauto|].
  split; intros (g & H & I); exists g; split; auto; intros x X; apply IH; auto; apply H; auto.
Qed.
Lemma simplex_gint d : forall s f v, simplex_int d s f v <-> gint (nxt_of Simplex) d s f v.
Proof.
  induction d as [|d IH]; intros s f v; cbn [simplex_int gint]; [tauto|].
  split; intros (g & H & I); exists g; split; auto; intros x X; apply IH; auto; apply H; auto.
Qed.
Lemma element_gint s d f v : element_int s d f v <-> gint (nxt_of s) d 1 f v.
Proof. destruct s; [apply cube_gint | apply simplex_gint]. Qed.

Lemma gint_ext nxt d : forall s f g v, (forall x, length x = d -> f x = g x) -> gint nxt d s f v -> gint nxt d s g v.
Proof.
  induction d as [|d IH]; intros s f g v E H; cbn [gint] in *; [rewrite <- E; auto|].
  destruct H as (h & H & I). exists h. split; auto. intros x X. eapply IH; [|apply H; auto]. intros y L. apply E. cbn. now rewrite L.
Qed.
Lemma gint_scale nxt c d : forall s f v, gint nxt d s f v -> gint nxt d s (fun x => c * f x) (c * v).
Proof.
  induction d as [|d IH]; intros s f v H; cbn [gint] in *; [now rewrite H|].
  destruct H as (h & H & I). exists (fun x => c * h x). split; [|now apply int_scale]. intros x X. apply IH. auto.
Qed.
Lemma gint_plus nxt d : forall s f g v w, gint nxt d s f v -> gint nxt d s g w -> gint nxt d s (fun x => f x + g x) (v + w).
Proof.
  induction d as [|d IH]; intros s f g v w H K; cbn [gint] in *; [now rewrite H, K|].
  destruct H as (h & H & I), K as (h' & K & J). exists (fun x => h x + h' x). split; [|now apply int_plus].
  intros x X. apply IH; auto.
Qed.
Lemma gint_0 nxt d : forall s, gint nxt d s (fun _ => 0) 0.
Proof. induction d as [|d IH]; intros s; cbn [gint]; auto. exists (fun _ => 0). split; auto using int_0. Qed.
Lemma gint_sum nxt d s {A} (F : A -> list R -> R) (V : A -> R) l : (forall j, In j l -> gint nxt d s (F j) (V j)) ->
  gint nxt d s (fun x => rsum (fun j => F j x) l) (rsum V l).
Proof.
  induction l as [|j l IH]; intros H; [apply gint_0|].
  rewrite rsum_cons. apply (gint_ext _ _ _ (fun x => F j x + rsum (fun j => F j x) l)); [reflexivity|].
  apply gint_plus; [apply H; now left | apply IH; intros; apply H; now right].
Qed.

Definition shrinking (nxt : R -> R -> R) := forall s x, 0 <= x <= s -> 0 <= nxt s x.
Lemma nxt_shrinking s : shrinking (nxt_of s).
Proof. intros t x H. destruct s; cbn; lra. Qed.
Lemma gint_unique nxt d : shrinking nxt -> forall s f v w, 0 <= s -> gint nxt d s f v -> gint nxt d s f w -> v = w.
Proof.
  intros N. induction d as [|d IH]; intros s f v w S H K; cbn [gint] in *; [congruence|].
  destruct H as (h & H & I), K as (h' & K & J). apply (int_unique h 0 s); auto.
  eapply int_ext; [|exact J]. intros x X. eapply IH; [apply (N s x X) | apply K; auto | apply H; auto].
Qed.
Lemma gint_nonneg nxt d : shrinking nxt -> forall s f v, 0 <= s -> (forall x, 0 <= f x) -> gint nxt d s f v -> 0 <= v.
Proof.
  intros N. induction d as [|d IH]; intros s f v S P H; cbn [gint] in *; [rewrite H; auto|].
  destruct H as (h & H & I). apply (int_nonneg h 0 s); auto. intros x X. apply (IH (nxt s x) (fun y => f (x :: y)) (h x)); auto.
Qed.
Lemma gint_zero nxt d : shrinking nxt -> forall s f, 0 <= s -> (forall x, 0 <= f x) -> gint nxt d s f 0 ->
  forall x, inner nxt d s x -> f x = 0.
Proof.
  intros N. induction d as [|d IH]; intros s f S P H x X; destruct x as [|y x]; cbn [gint inner] in *; try tauto; try congruence.
  destruct H as (h & H & I). destruct X as [Y X].
  assert (Z : h y = 0).
  { apply (int_zero h 0 s); auto. intros z Hz. apply (gint_nonneg nxt d N (nxt s z) (fun y => f (z :: y)) (h z)); auto. }
  assert (Y' : 0 <= y <= s) by lra. specialize (H y Y'). rewrite Z in H.
  apply (IH (nxt s y) (fun y0 => f (y :: y0)) (N s y Y')); auto.
Qed.

(** ** Monomials *)

Fixpoint fprod (a : multiindex) : R := match a with [] => 1 | e :: a' => INR (fact e) * fprod a' end.
Lemma fact_ne n : INR (fact n) <> 0. Proof. apply INR_fact_neq_0. Qed.
Lemma fact_S' n : INR (fact (S n)) = (INR n + 1) * INR (fact n).
Proof. rewrite fact_simpl, mult_INR, S_INR. reflexivity. Qed.

Lemma deriv_spow s m x : derivable_pt_lim (fun y => (s - y) ^ m) x (- (INR m * (s - x) ^ pred m)).
Proof.
  replace (- (INR m * (s - x) ^ pred m)) with ((INR m * (s - x) ^ pred m) * (0 - 1)) by ring.
  apply (derivable_pt_lim_comp (fun y => s - y) (fun z => z ^ m)).
  - apply (derivable_pt_lim_minus (fun _ => s) (fun y => y)); [apply derivable_pt_lim_const | apply derivable_pt_lim_id].
  - apply derivable_pt_lim_pow.
Qed.
Lemma beta_int s m : forall n, is_int (fun x => x ^ n * (s - x) ^ m) 0 s
  (s ^ (n + m + 1) * (INR (fact n) * INR (fact m) / INR (fact (n + m + 1)))).
Proof.
  induction m as [|m IH]; intros n.
  - exists (fun x => / (INR n + 1) * x ^ (S n)). assert (P : INR n + 1 <> 0) by (pose proof (pos_INR n); lra). split.
    + intros x _. replace (x ^ n * (s - x) ^ 0) with (/ (INR n + 1) * (INR (S n) * x ^ pred (S n))).
      * apply derivable_pt_lim_scal, derivable_pt_lim_pow.
      * rewrite S_INR. cbn [pred pow]. field. auto.
    + replace (n + 0 + 1)%nat with (S n) by lia. rewrite fact_S'. cbn [fact INR]. rewrite (pow_ne_zero (S n)) by lia.
      field. split; auto. apply fact_ne.
  - destruct (IH (S n)) as (F & D & E). assert (P : INR n + 1 <> 0) by (pose proof (pos_INR n); lra).
    exists (fun x => / (INR n + 1) * (x ^ S n * (s - x) ^ S m) + (INR m + 1) / (INR n + 1) * F x). split.
    + intros x X.
      replace (x ^ n * (s - x) ^ S m) with
        (/ (INR n + 1) * ((INR (S n) * x ^ pred (S n)) * (s - x) ^ S m + x ^ S n * (- (INR (S m) * (s - x) ^ pred (S m))))
         + (INR m + 1) / (INR n + 1) * (x ^ S n * (s - x) ^ m)).
      * apply (derivable_pt_lim_plus (fun x => / (INR n + 1) * (x ^ S n * (s - x) ^ S m)) (fun x => (INR m + 1) / (INR n + 1) * F x)).
        -- apply (derivable_pt_lim_scal (fun x => x ^ S n * (s - x) ^ S m)).
           apply (derivable_pt_lim_mult (fun x => x ^ S n) (fun x => (s - x) ^ S m)); [apply derivable_pt_lim_pow | apply deriv_spow].
        -- apply (derivable_pt_lim_scal F). apply D; auto.
      * rewrite !S_INR. cbn [pred]. cbn [pow]. field. auto.
    + replace (s - s) with 0 by ring. rewrite (pow_ne_zero (S m)) by lia. rewrite (pow_ne_zero (S n)) by lia.
      replace (n + S m + 1)%nat with (S n + m + 1)%nat by lia.
      assert (E' : F s - F 0 = s ^ (S n + m + 1) * (INR (fact (S n)) * INR (fact m) / INR (fact (S n + m + 1)))) by (rewrite <- E; reflexivity).
      transitivity ((INR m + 1) / (INR n + 1) * (F s - F 0)); [|ring]. rewrite E', !fact_S'. field. split; auto. apply fact_ne.
Qed.

Lemma simplex_monomial a : forall s, gint (nxt_of Simplex) (length a) s (monomial a)
  (s ^ (sum_nat a + length a) * (fprod a / INR (fact (sum_nat a + length a)))).
Proof.
  induction a as [|e a IH]; intros s.
  - cbn. field.
  - cbn [length gint]. set (m := (sum_nat a + length a)%nat) in *.
    exists (fun x => x ^ e * ((s - x) ^ m * (fprod a / INR (fact m)))). split.
    + intros x _. apply (gint_ext _ _ _ (fun y => x ^ e * monomial a y)); [reflexivity|]. apply gint_scale. apply IH.
    + replace (sum_nat (e :: a) + S (length a))%nat with (e + m + 1)%nat by (unfold m, sum_nat; cbn; lia).
      replace (s ^ (e + m + 1) * (fprod (e :: a) / INR (fact (e + m + 1)))) with
        (fprod a / INR (fact m) * (s ^ (e + m + 1) * (INR (fact e) * INR (fact m) / INR (fact (e + m + 1)))))
        by (cbn [fprod]; field; split; apply fact_ne).
      apply (int_ext (fun x => fprod a / INR (fact m) * (x ^ e * (s - x) ^ m))); [intros; ring|].
      apply int_scale, beta_int.
Qed.
Fixpoint cprod (a : multiindex) : R := match a with [] => 1 | e :: a' => / (INR e + 1) * cprod a' end.
Lemma cube_monomial a : gint (nxt_of Cube) (length a) 1 (monomial a) (cprod a).
Proof.
  induction a as [|e a IH]; [reflexivity|]. cbn [length gint nxt_of]. exists (fun x => x ^ e * cprod a). split.
  - intros x _. apply (gint_ext _ _ _ (fun y => x ^ e * monomial a y)); [reflexivity|]. now apply gint_scale.
  - cbn [cprod]. rewrite Rmult_comm. apply (int_ext (fun x => cprod a * (x ^ e * (1 - x) ^ 0))); [intros; cbn; ring|].
    replace (/ (INR e + 1)) with (1 ^ (e + 0 + 1) * (INR (fact e) * INR (fact 0) / INR (fact (e + 0 + 1)))).
    + apply int_scale, beta_int.
    + replace (e + 0 + 1)%nat with (S e) by lia. rewrite fact_S', pow1. cbn [fact INR]. field.
      split; first [apply fact_ne | pose proof (pos_INR e); lra].
Qed.

(** ** Binomial coefficients *)

Fixpoint choose (n k : nat) : nat :=
  match n, k with
  | _, 0 => 1
  | 0, S _ => 0
  | S n', S k' => choose n' k' + choose n' (S k')
  end%nat.
Lemma choose_0 n : choose n 0 = 1%nat. Proof. destruct n; reflexivity. Qed.
Lemma choose_gt n : forall k, (n < k)%nat -> choose n k = 0%nat.
Proof. induction n as [|n IH]; intros [|k] H; cbn; try lia. rewrite !IH by lia. reflexivity. Qed.
Lemma choose_fact n : forall k, (k <= n)%nat -> (choose n k * fact k * fact (n - k) = fact n)%nat.
Proof.
  induction n as [|n IH]; intros k H; [destruct k; [reflexivity | lia]|].
  destruct k as [|k]; [cbn [choose]; rewrite Nat.sub_0_r; cbn [fact]; lia|].
  cbn [choose Nat.sub]. destruct (Nat.eq_dec k n) as [->|D].
  - rewrite (choose_gt n (S n)) by lia. rewrite Nat.sub_diag. specialize (IH n ltac:(lia)). rewrite Nat.sub_diag in IH.
    cbn [fact] in *. nia.
  - pose proof (IH k ltac:(lia)) as A. pose proof (IH (S k) ltac:(lia)) as B.
    replace (n - k)%nat with (S (n - S k)) in * by lia. rewrite (fact_simpl (n - S k)) in *.
    rewrite (fact_simpl k) in *. rewrite (fact_simpl n).
    transitivity (S k * (choose n k * fact k * (S (n - S k) * fact (n - S k))) + S (n - S k) * (choose n (S k) * (S k * fact k) * fact (n - S k)))%nat; [ring|].
    rewrite A, B, <- Nat.mul_add_distr_r. f_equal. lia.
Qed.
Lemma long_product_fact a : forall b p, (a <= b)%nat -> long_product (Z.of_nat a + 1) (Z.of_nat b) = Ok p ->
  (p * Z.of_nat (fact a) = Z.of_nat (fact b))%Z.
Proof.
  intros b p L. unfold long_product. replace (Z.to_nat (Z.of_nat b - (Z.of_nat a + 1) + 1)) with (b - a)%nat by lia.
  assert (G : forall m q, foldM (fun p i => to_long (p * (Z.of_nat a + 1 + Z.of_nat i))) (seq 0 m) 1%Z = Ok q ->
    (q * Z.of_nat (fact a) = Z.of_nat (fact (a + m)))%Z).
  { induction m as [|m IH]; intros q H.
    - injection H as <-. rewrite Nat.add_0_r. lia.
    - rewrite seq_S, foldM_app in H. destruct (foldM _ (seq 0 m) 1%Z) as [r| |]; cbn in H; try discriminate.
      unfold to_long in H. destruct (_ && _)%bool; cbn in H; try discriminate. injection H as <-.
      rewrite Nat.add_succ_r, fact_simpl, Nat2Z.inj_mul, <- (IH r eq_refl). rewrite Nat2Z.inj_succ, Nat2Z.inj_add. ring. }
  intros H. rewrite (G _ _ H). f_equal. f_equal. lia.
Qed.
Lemma long_product_fact2 m p : long_product 2 (Z.of_nat m) = Ok p -> p = Z.of_nat (fact m).
Proof.
  destruct m as [|m]; [intros H; injection H as <-; reflexivity|].
  intros H. apply (long_product_fact 1) in H; [|lia]. change (fact 1) with 1%nat in H. lia.
Qed.
Lemma binomial_choose n k v : (k <= n)%nat -> binomial (Z.of_nat n) (Z.of_nat k) = Ok v -> v = Z.of_nat (choose n k).
Proof.
  intros L. unfold binomial. pose proof (choose_fact n k L) as C.
  assert (Fk : (0 < Z.of_nat (fact k))%Z) by (pose proof (lt_O_fact k); lia).
  assert (Fn : (0 < Z.of_nat (fact (n - k)))%Z) by (pose proof (lt_O_fact (n - k)); lia).
  destruct (_ <=? _)%Z; intros H; apply bind_ok in H; destruct H as (p & P & H); apply bind_ok in H; destruct H as (q & Q & H);
    injection H as <-.
  - apply long_product_fact in P; auto. replace (Z.of_nat n - Z.of_nat k)%Z with (Z.of_nat (n - k)) in Q by lia.
    apply long_product_fact2 in Q. subst q. symmetry. apply Z.div_unique_exact; [lia|].
    apply (Z.mul_reg_r _ _ (Z.of_nat (fact k))); [lia|]. rewrite P, <- C, !Nat2Z.inj_mul. ring.
  - replace (Z.of_nat n - Z.of_nat k)%Z with (Z.of_nat (n - k)) in P by lia.
    apply long_product_fact in P; [|lia]. apply long_product_fact2 in Q. subst q. symmetry. apply Z.div_unique_exact; [lia|].
    apply (Z.mul_reg_r _ _ (Z.of_nat (fact (n - k)))); [lia|]. rewrite P, <- C, !Nat2Z.inj_mul. ring.
Qed.
Lemma binomial_fits n k : (k <= n)%nat -> (n <= 29)%nat -> exists v, binomial (Z.of_nat n) (Z.of_nat k) = Ok v.
Proof.
  intros L N.
  assert (G : forallb (fun n => forallb (fun k => match binomial (Z.of_nat n) (Z.of_nat k) with Ok _ => true | _ => false end) (seq 0 (n + 1)))
                (seq 0 30) = true) by (vm_compute; reflexivity).
  rewrite forallb_forall in G. specialize (G n ltac:(apply in_seq; lia)). rewrite forallb_forall in G.
  specialize (G k ltac:(apply in_seq; lia)). destruct (binomial _ _); try discriminate. eauto.
Qed.

(** ** The alternating sums *)

Definition altsum (m n : nat) : R := rsum (fun k => (-1) ^ k * INR (choose m k) / INR (n + k + 1)) (seq 0 (m + 1)).
Lemma altsum_eq m : forall n, altsum m n = INR (fact n) * INR (fact m) / INR (fact (n + m + 1)).
Proof.
  assert (INRS : forall a, INR (a + 1) <> 0) by (intros; apply not_0_INR; lia).
  induction m as [|m IH]; intros n.
  - unfold altsum. cbn [seq Nat.add]. rewrite rsum_cons. cbn [choose pow]. change (rsum _ []) with 0.
    rewrite Nat.add_0_r. replace (n + 1)%nat with (S n) by lia. rewrite fact_S', !S_INR. change (INR (fact 0)) with 1. change (INR 0) with 0. field.
    split; first [apply fact_ne | pose proof (pos_INR n); lra].
  - assert (R : altsum (S m) n = altsum m n - altsum m (S n)).
    { unfold altsum. replace (S m + 1)%nat with (S (m + 1)) by lia. cbn [seq]. rewrite rsum_cons, <- seq_shift.
      assert (M : forall f l, rsum f (map S l) = rsum (fun k => f (S k)) l) by (intros f l; induction l; cbn; auto; rewrite !rsum_cons; congruence).
      rewrite M. cbn [choose].
      rewrite (rsum_ext _ (fun k => - 1 * ((-1) ^ k * INR (choose m k) / INR (S n + k + 1)) + (-1) ^ S k * INR (choose m (S k)) / INR (n + S k + 1))).
      2:{ intros k _. rewrite plus_INR. replace (S n + k + 1)%nat with (n + S k + 1)%nat by lia. cbn [pow]. field. apply INRS. }
      rewrite rsum_plus, rsum_scale.
      replace (rsum (fun k => (-1) ^ k * INR (choose m k) / INR (n + k + 1)) (seq 0 (m + 1)))
        with ((-1) ^ 0 * INR 1 / INR (n + 0 + 1) + rsum (fun k => (-1) ^ S k * INR (choose m (S k)) / INR (n + S k + 1)) (seq 0 (m + 1))).
      - ring.
      - rewrite <- (M (fun k => (-1) ^ k * INR (choose m k) / INR (n + k + 1))), seq_shift.
        replace 1%nat with (choose m 0) at 1 by apply choose_0.
        rewrite <- (rsum_cons (fun k => (-1) ^ k * INR (choose m k) / INR (n + k + 1))).
        change (0%nat :: seq 1 (m + 1)) with (seq 0 (S (m + 1))). rewrite seq_S, rsum_app, rsum_cons. change (rsum _ []) with 0.
        rewrite (choose_gt m (0 + (m + 1))) by lia. change (INR 0) with 0. unfold Rdiv. ring. }
    rewrite R, !IH. replace (S n + m + 1)%nat with (S (n + m + 1)) by lia. replace (n + S m + 1)%nat with (S (n + m + 1)) by lia.
    rewrite !fact_S', !plus_INR. change (INR 1) with 1. field. split; first [apply fact_ne | pose proof (pos_INR n); pose proof (pos_INR m); lra].
Qed.
Lemma foldM_sum {A B} (f : A -> res B) (h : A -> B -> R) (t : A -> R) l : (forall k b, In k l -> f k = Ok b -> h k b = t k) ->
  forall s v, foldM (fun s k => let* b := f k in Ok (s + h k b)) l s = Ok v -> v = s + rsum t l.
Proof.
  induction l as [|k l IH]; intros H s v E; [injection E as <-; unfold rsum; cbn; ring|].
  cbn [foldM] in E. destruct (f k) as [b| |] eqn:F; cbn [bind] in E; try discriminate.
  rewrite rsum_cons. rewrite (H k b) in E by (auto; now left). apply IH in E; [rewrite E; ring|]. intros; apply H; auto; now right.
Qed.
Lemma pow_m1_mod k : (-1) ^ k = IZR (if (k mod 2 =? 1)%nat then -1 else 1).
Proof.
  rewrite (Nat.div_mod k 2) at 1 by lia. rewrite pow_add, pow_mult. replace ((-1) ^ 2) with 1 by ring. rewrite pow1.
  pose proof (Nat.mod_upper_bound k 2 ltac:(lia)). destruct (k mod 2) as [|[|]] eqn:E; cbn; try lia; ring.
Qed.
Lemma alternating_sum_eq m n v : alternating_sum m n = Ok v -> v = INR (fact n) * INR (fact m) / INR (fact (n + m + 1)).
Proof.
  intros H. unfold alternating_sum in H.
  apply foldM_sum with (t := fun k => (-1) ^ k * INR (choose m k) / INR (n + k + 1)) in H.
  - rewrite H, Rplus_0_l. apply altsum_eq.
  - intros k b I E. apply in_seq in I. apply binomial_choose in E; [|lia]. subst b.
    rewrite mult_IZR, <- INR_IZR_INZ, pow_m1_mod. reflexivity.
Qed.
Lemma foldM_total {A S} (f : S -> A -> res S) l : (forall k s, In k l -> exists t, f s k = Ok t) -> forall s, exists t, foldM f l s = Ok t.
Proof.
  induction l as [|k l IH]; intros H s; cbn; [eauto|]. destruct (H k s (or_introl eq_refl)) as (t & ->). cbn. apply IH.
  intros; apply H; now right.
Qed.
Lemma alternating_sum_fits m n : (m <= 29)%nat -> exists v, alternating_sum m n = Ok v.
Proof.
  intros M. apply foldM_total. intros k s I. apply in_seq in I. destruct (binomial_fits m k) as (v & ->); try lia. cbn. eauto.
Qed.

(** ** The integrators *)

Lemma cube_fold a : forall r, fold_left (fun result i => result / INR (nth i a 0%nat + 1)) (seq 0 (length a)) r = r * cprod a.
Proof.
  induction a as [|e a IH]; intros r; [cbn; ring|]. cbn [length seq fold_left]. rewrite <- seq_shift.
  assert (M : forall l r, fold_left (fun result i => result / INR (nth i (e :: a) 0%nat + 1)) (map S l) r =
    fold_left (fun result i => result / INR (nth i a 0%nat + 1)) l r) by (induction l; intros; cbn; auto).
  rewrite M, IH. cbn [nth cprod]. rewrite plus_INR. change (INR 1) with 1. field. pose proof (pos_INR e). lra.
Qed.
Lemma integrate_gint s d a v : length a = d -> integrate s d a = Ok v -> gint (nxt_of s) d 1 (monomial a) v.
Proof.
  intros L H. assert (NZ : forall e, INR e + 1 <> 0) by (intros e; pose proof (pos_INR e); lra). subst d. destruct s.
  - assert (E : v = 1 * cprod a) by (rewrite <- cube_fold; destruct (length a); injection H as <-; reflexivity).
    rewrite E, Rmult_1_l. apply cube_monomial.
  - pose proof (simplex_monomial a 1) as G. rewrite pow1, Rmult_1_l in G.
    destruct a as [|e0 [|e1 [|e2 [|]]]]; cbn [length integrate nth] in H; try discriminate; cbn [length] in *.
    + injection H as <-. replace (1 / INR (e0 + 1)) with (fprod [e0] / INR (fact (sum_nat [e0] + 1))); auto.
      cbn [fprod sum_nat fold_right]. rewrite Nat.add_0_r. replace (e0 + 1)%nat with (S e0) by lia. rewrite fact_S', S_INR.
      field. split; first [apply fact_ne | auto].
    + apply bind_ok in H. destruct H as (v1 & A & H). injection H as <-. apply alternating_sum_eq in A. subst v1.
      match goal with |- gint _ _ _ _ ?w => replace w with (fprod [e0; e1] / INR (fact (sum_nat [e0; e1] + 2))); auto end.
      cbn [fprod sum_nat fold_right]. replace (e0 + (e1 + 1) + 1)%nat with (e0 + (e1 + 0) + 2)%nat by lia.
      replace (e1 + 1)%nat with (S e1) by lia. rewrite fact_S', S_INR. field. repeat split; first [apply fact_ne | apply NZ].
    + apply bind_ok in H. destruct H as (v1 & A & H). apply bind_ok in H. destruct H as (v2 & B & H). injection H as <-.
      apply alternating_sum_eq in A, B. subst v1 v2.
      match goal with |- gint _ _ _ _ ?w => replace w with (fprod [e0; e1; e2] / INR (fact (sum_nat [e0; e1; e2] + 3))); auto end.
      cbn [fprod sum_nat fold_right]. replace (e0 + (e1 + e2 + 2) + 1)%nat with (e0 + (e1 + (e2 + 0)) + 3)%nat by lia.
      replace (e1 + (e2 + 1) + 1)%nat with (e1 + e2 + 2)%nat by lia.
      replace (e2 + 1)%nat with (S e2) by lia. rewrite fact_S', S_INR. field. repeat split; first [apply fact_ne | apply NZ].
Qed.
