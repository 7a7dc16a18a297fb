(** Proofs about the hybrid DG/AMG preconditioner (C135). *)
From Coq Require Import Reals Lra.
From Verif Require Import Common ParSpec ParProofs2 DdProofs AmgModel AmgSpec.
Local Arguments rsum : simpl never.

Section algebra.
  Context {I J : Type}.
  Implicit Types (l : list I) (k : list J).
  Lemma fold_plus {B} (f : B -> R) (l : list B) a : fold_left (fun s j => s + f j)%R l a = (a + rsum f l)%R.
  Proof. apply fold_rsum. Qed.
  Lemma fold_minus {B} (f : B -> R) (l : list B) : forall a, fold_left (fun s j => s - f j)%R l a = (a - rsum f l)%R.
  Proof.
    induction l as [|x l IH]; intros a; cbn [fold_left].
    - replace (rsum f []) with 0%R by reflexivity. lra.
    - rewrite IH, rsum_cons. lra.
  Qed.
  Lemma lin_ext k (M : I -> J -> R) v w i : (forall j, In j k -> v j = w j) -> lin k M v i = lin k M w i.
  Proof. intros H. apply rsum_ext. intros j Hj. now rewrite H. Qed.
  Lemma lin_plus k (M : I -> J -> R) v w i : lin k M (fun j => v j + w j)%R i = (lin k M v i + lin k M w i)%R.
  Proof. unfold lin. rewrite <- rsum_plus. apply rsum_ext. intros; lra. Qed.
  Lemma lin_minus k (M : I -> J -> R) v w i : lin k M (fun j => v j - w j)%R i = (lin k M v i - lin k M w i)%R.
  Proof.
    enough (lin k M v i = lin k M (fun j => v j - w j)%R i + lin k M w i)%R by lra.
    rewrite <- lin_plus. apply lin_ext. intros; lra.
  Qed.
  Lemma lin_zero k (M : I -> J -> R) v i : (forall j, In j k -> v j = 0%R) -> lin k M v i = 0%R.
  Proof. intros H. apply rsum_zero. intros j Hj. rewrite H by auto. lra. Qed.
  Lemma inner_ext l a b c d : (forall i, In i l -> a i = c i) -> (forall i, In i l -> b i = d i) -> inner l a b = inner l c d.
  Proof. intros H K. apply rsum_ext. intros i Hi. now rewrite H, K. Qed.
  Lemma inner_comm l a b : inner l a b = inner l b a. Proof. apply rsum_ext. intros; lra. Qed.
  Lemma inner_plus_l l a b c : inner l (fun i => a i + b i)%R c = (inner l a c + inner l b c)%R.
  Proof. unfold inner. rewrite <- rsum_plus. apply rsum_ext. intros; lra. Qed.
  Lemma inner_minus_l l a b c : inner l (fun i => a i - b i)%R c = (inner l a c - inner l b c)%R.
  Proof.
    enough (inner l a c = inner l (fun i => a i - b i)%R c + inner l b c)%R by lra.
    rewrite <- inner_plus_l. apply inner_ext; intros; lra.
  Qed.
  Lemma inner_minus_r l a b c : inner l c (fun i => a i - b i)%R = (inner l c a - inner l c b)%R.
  Proof. rewrite inner_comm, inner_minus_l, (inner_comm l a), (inner_comm l b). reflexivity. Qed.
  Lemma inner_zero_l l a b : (forall i, In i l -> a i = 0%R) -> inner l a b = 0%R.
  Proof. intros H. apply rsum_zero. intros i Hi. rewrite H by auto. lra. Qed.
  Lemma inner_lin l k (M : I -> J -> R) v a : inner l (lin k M v) a = inner k v (lin l (transposed M) a).
  Proof.
    unfold inner, lin, transposed.
    rewrite (rsum_ext _ (fun i => rsum (fun j => M i j * v j * a i)%R k)). 2: { intros i _. rewrite Rmult_comm, <- rsum_scale. apply rsum_ext. intros; lra. }
    rewrite rsum_swap. apply rsum_ext. intros j _. rewrite <- rsum_scale. apply rsum_ext. intros; lra.
  Qed.
End algebra.
Lemma inner_sym {I} (l : list I) (M : I -> I -> R) v a : symmetric l M -> inner l (lin l M v) a = inner l v (lin l M a).
Proof.
  intros S. rewrite inner_lin. apply inner_ext; auto. intros i Hi. apply rsum_ext. intros j Hj. unfold transposed. now rewrite S.
Qed.

Lemma iter_inner {B} (f : B -> B) n x : Nat.iter (S n) f x = Nat.iter n f (f x).
Proof.
  induction n as [|n IH]; [reflexivity|]. change (Nat.iter (S (S n)) f x) with (f (Nat.iter (S n) f x)). rewrite IH. reflexivity.
Qed.

Section hybrid.
  Context {D E : Type}.
  Variables (fine : list D) (coarse : list E) (h : hybrid D E).
  Let A := dgmatrix h.
  Let P := prol h.

  Lemma mmv_lin v d i : mmv fine A v d i = (d i - lin fine A v i)%R.
  Proof. unfold mmv. now rewrite (fold_minus (fun j => A i j * v j)%R). Qed.
  Lemma mtv_lin d k : mtv fine P d k = lin fine (transposed P) d k.
  Proof. unfold mtv. rewrite (fold_plus (fun i => P i k * d i)%R). unfold lin, transposed. lra. Qed.
  Lemma mv_lin w i : mv coarse P w i = lin coarse P w i.
  Proof. unfold mv. rewrite (fold_plus (fun k => P i k * w k)%R). unfold lin. lra. Qed.

  (** Steps that add a correction of the defect to x and keep the defect. *)
  Definition keeps (T : dgvec D * dgvec D -> dgvec D * dgvec D) : Prop :=
    forall x d, (forall i, fst (T (x, d)) i = x i + fst (T (fun _ => 0, d)) i)%R /\ snd (T (x, d)) = snd (T (fun _ => 0%R, d)) /\
      forall i, In i fine -> (snd (T (x, d)) i = d i - lin fine A (fst (T (fun _ => 0, d))) i)%R.

  Lemma keeps_one (f : dgvec D -> dgvec D) (T : dgvec D * dgvec D -> dgvec D * dgvec D) :
    (forall x d, T (x, d) = (add x (f d), mmv fine A (f d) d)) -> keeps T.
  Proof.
    intros H x d. rewrite !H. cbn [fst snd]. split; [|split; auto].
    - intros i. unfold add. lra.
    - intros i _. rewrite mmv_lin. f_equal. apply lin_ext. intros. unfold add. lra.
  Qed.

  Lemma keeps_comp T U : keeps T -> keeps U -> keeps (fun xd => U (T xd)).
  Proof.
    intros HT HU x d.
    destruct (T (x, d)) as [x1 d1] eqn:E1. destruct (T (fun _ => 0%R, d)) as [x2 d2] eqn:E2.
    destruct (HT x d) as (T1 & T2 & T3). rewrite E1, E2 in *. cbn [fst snd] in *. subst d2.
    destruct (HU x1 d1) as (U1 & U2 & U3). destruct (HU x2 d1) as (V1 & V2 & V3).
    split; [|split].
    - intros i. rewrite U1, V1, T1. lra.
    - now rewrite U2, V2.
    - intros i Hi. rewrite U3, T3 by auto.
      rewrite (lin_ext fine A (fst (U (x2, d1))) (fun i => x2 i + fst (U (fun _ => 0, d1)) i)%R) by auto. rewrite lin_plus. lra.
  Qed.

  Lemma keeps_id : keeps (fun xd => xd).
  Proof. intros x d. cbn. split; [intros; lra|]. split; auto. intros i Hi. rewrite lin_zero by auto. lra. Qed.

  Lemma keeps_iter T n : keeps T -> keeps (Nat.iter n T).
  Proof.
    intros H. induction n as [|n IH]; [apply keeps_id|].
    change (keeps (fun xd => T (Nat.iter n T xd))). now apply keeps_comp.
  Qed.

  Lemma keeps_smooth n : keeps (smooth fine h n).
  Proof. apply keeps_iter. eapply (keeps_one (fun d => dgprec h (fun _ => 0%R) d)). reflexivity. Qed.
  Lemma keeps_coarse : keeps (coarse_step fine coarse h).
  Proof. eapply (keeps_one (fun d => mv coarse (prol h) (cgprec h (fun _ => 0%R) (mtv fine (prol h) d)))). reflexivity. Qed.

  Definition cycle (a b : Z) (xd : dgvec D * dgvec D) := smooth fine h b (coarse_step fine coarse h (smooth fine h a xd)).
  Lemma keeps_cycle a b : keeps (cycle a b).
  Proof.
    exact (keeps_comp _ _ (keeps_comp _ _ (keeps_smooth a) keeps_coarse) (keeps_smooth b)).
  Qed.

  Variables (S : D -> D -> R) (C : E -> E -> R).
  Hypothesis HS : acts_as fine (dgprec h) S.
  Hypothesis HC : acts_as coarse (cgprec h) C.

  (** The error behind x is e and the defect is A e. *)
  Definition state (xs : dgvec D) (e : dgvec D) (xd : dgvec D * dgvec D) : Prop :=
    forall i, In i fine -> (xs i - fst xd i = e i /\ snd xd i = lin fine A e i)%R.

  Lemma smooth_state xs e xd : state xs e xd -> state xs (smoothing_error fine A S e) (smooth_step fine h xd).
  Proof.
    destruct xd as [x d]. intros H. unfold smooth_step.
    assert (V : forall i, In i fine -> dgprec h (fun _ => 0%R) d i = lin fine S (lin fine A e) i).
    { intros i Hi. rewrite HS by auto. apply lin_ext. intros j Hj. apply (H j Hj). }
    intros i Hi. cbn [fst snd]. split.
    - unfold add, smoothing_error. rewrite V by auto. destruct (H i Hi) as [<- _]. cbn [fst]. lra.
    - fold A. rewrite mmv_lin. unfold smoothing_error. rewrite lin_minus. f_equal; [apply (H i Hi)|now apply lin_ext].
  Qed.

  Lemma iter_state xs n : forall e xd, state xs e xd ->
    state xs (Nat.iter n (smoothing_error fine A S) e) (Nat.iter n (smooth_step fine h) xd).
  Proof. induction n as [|n IH]; intros e xd H; cbn [Nat.iter]; auto. apply smooth_state. now apply IH. Qed.

  Lemma coarse_state xs e xd : state xs e xd -> state xs (coarse_error fine coarse A P C e) (coarse_step fine coarse h xd).
  Proof.
    destruct xd as [x d]. intros H. unfold coarse_step.
    assert (V : forall i, mv coarse (prol h) (cgprec h (fun _ => 0%R) (mtv fine (prol h) d)) i =
                          lin coarse P (lin coarse C (lin fine (transposed P) (lin fine A e))) i).
    { intros i. fold P. rewrite mv_lin. apply lin_ext. intros k Hk. rewrite HC by auto. apply lin_ext. intros k' Hk'.
      rewrite mtv_lin. apply lin_ext. intros j Hj. apply (H j Hj). }
    intros i Hi. cbn [fst snd]. split.
    - unfold add, coarse_error. rewrite V. destruct (H i Hi) as [<- _]. cbn [fst]. lra.
    - fold A. rewrite mmv_lin. unfold coarse_error. rewrite lin_minus. f_equal; [apply (H i Hi)|now apply lin_ext].
  Qed.

  Theorem hybrid_error xs x b : (forall i, In i fine -> b i = lin fine A (fun j => xs j - x j)%R i) -> forall i, In i fine ->
    (xs i - hybrid_apply fine coarse h x b i)%R =
    Nat.iter (Z.to_nat (n2 h)) (smoothing_error fine A S) (coarse_error fine coarse A P C
      (Nat.iter (Z.to_nat (n1 h)) (smoothing_error fine A S) (fun j => xs j - x j)%R)) i.
  Proof.
    intros H i Hi. unfold hybrid_apply, smooth.
    refine (proj1 (iter_state xs (Z.to_nat (n2 h)) _ _ (coarse_state xs _ _ (iter_state xs (Z.to_nat (n1 h)) _ (x, b) _)) i Hi)).
    intros j Hj. cbn [fst snd]. auto.
  Qed.

  (** ** Energy *)
  Lemma coarse_energy e : symmetric fine A -> (forall v, (0 <= energy fine A v)%R) -> solves_cg fine coarse A P C ->
    (forall k, In k coarse -> lin fine (transposed P) (lin fine A (coarse_error fine coarse A P C e)) k = 0%R) /\
    (energy fine A (coarse_error fine coarse A P C e) <= energy fine A e)%R.
  Proof.
    intros SA PA CE. set (w := lin coarse C (lin fine (transposed P) (lin fine A e))).
    set (e' := coarse_error fine coarse A P C e).
    assert (O : forall k, In k coarse -> lin fine (transposed P) (lin fine A e') k = 0%R).
    { intros k Hk.
      assert (Q : forall i, lin fine A e' i = (lin fine A e i - lin fine A (lin coarse P w) i)%R).
      { intros i. unfold e', coarse_error. now rewrite lin_minus. }
      rewrite (lin_ext fine _ (lin fine A e') (fun i => lin fine A e i - lin fine A (lin coarse P w) i)%R) by auto.
      rewrite lin_minus. pose proof (CE (lin fine (transposed P) (lin fine A e)) k Hk) as G. unfold galerkin_product in G. fold w in G. lra. }
    split; [exact O|].
    assert (Z : inner fine (lin coarse P w) (lin fine A e') = 0%R).
    { rewrite inner_lin, inner_comm. apply inner_zero_l. exact O. }
    assert (Q : (energy fine A e = energy fine A e' + energy fine A (lin coarse P w))%R).
    { unfold energy.
      rewrite (inner_ext fine e (lin fine A e) (fun i => e' i + lin coarse P w i)%R (lin fine A (fun i => e' i + lin coarse P w i)%R)).
      - rewrite inner_plus_l. rewrite !(inner_comm fine _ (lin fine A (fun i => e' i + lin coarse P w i)%R)).
        rewrite (inner_ext fine (lin fine A (fun i => e' i + lin coarse P w i)%R) e' (fun i => lin fine A e' i + lin fine A (lin coarse P w) i)%R e') by (intros; auto using lin_plus).
        rewrite (inner_ext fine (lin fine A (fun i => e' i + lin coarse P w i)%R) (lin coarse P w) (fun i => lin fine A e' i + lin fine A (lin coarse P w) i)%R (lin coarse P w)) by (intros; auto using lin_plus).
        rewrite !inner_plus_l. rewrite (inner_sym fine A (lin coarse P w) e') by auto. rewrite (inner_comm fine (lin fine A e') (lin coarse P w)), Z.
        rewrite (inner_comm fine e' (lin fine A e')), (inner_comm fine (lin coarse P w) (lin fine A (lin coarse P w))). lra.
      - intros i _. unfold e', coarse_error. fold w. lra.
      - intros i _. apply lin_ext. intros j _. unfold e', coarse_error. fold w. lra. }
    pose proof (PA (lin coarse P w)). lra.
  Qed.

  Lemma energy_ext e f : (forall i, In i fine -> e i = f i) -> energy fine A e = energy fine A f.
  Proof. intros H. apply inner_ext; auto. intros i Hi. now apply lin_ext. Qed.

  Lemma iter_energy n : (forall e, (energy fine A (smoothing_error fine A S e) <= energy fine A e)%R) ->
    forall e, (energy fine A (Nat.iter n (smoothing_error fine A S) e) <= energy fine A e)%R.
  Proof. intros H e. induction n as [|n IH]; [apply Rle_refl|]. eapply Rle_trans; [apply H|exact IH]. Qed.

  (** ** Symmetry *)
  Definition corr (n : nat) (b : dgvec D) : dgvec D := fst (cycle (Z.of_nat n) (Z.of_nat n) (fun _ => 0%R, b)).

  Lemma corr_0 b i : In i fine -> corr 0 b i = lin coarse P (lin coarse C (lin fine (transposed P) b)) i.
  Proof.
    intros Hi. change (corr 0 b i) with (0 + mv coarse P (cgprec h (fun _ => 0%R) (mtv fine P b)) i)%R. rewrite mv_lin, Rplus_0_l.
    apply lin_ext. intros k Hk. rewrite HC by auto. apply lin_ext. intros k' _. apply mtv_lin.
  Qed.

  Definition after (b : dgvec D) : dgvec D := mmv fine A (dgprec h (fun _ => 0%R) b) b.

  Lemma corr_S n b i : In i fine ->
    (corr (Datatypes.S n) b i = lin fine S b i + corr n (after b) i + lin fine S (fun j => after b j - lin fine A (corr n (after b)) j) i)%R.
  Proof.
    intros Hi. unfold corr at 1, cycle, smooth. rewrite !Nat2Z.id. rewrite (iter_inner (smooth_step fine h) n (fun _ => 0%R, b)).
    change (Nat.iter (Datatypes.S n) (smooth_step fine h) ?y) with (smooth_step fine h (Nat.iter n (smooth_step fine h) y)).
    change (smooth_step fine h (fun _ => 0%R, b)) with (add (fun _ => 0%R) (dgprec h (fun _ => 0%R) b), after b).
    set (x1 := add (fun _ => 0%R) (dgprec h (fun _ => 0%R) b)).
    destruct (keeps_cycle (Z.of_nat n) (Z.of_nat n) x1 (after b)) as (K1 & K2 & K3).
    unfold cycle, smooth in K1, K2, K3. rewrite !Nat2Z.id in K1, K2, K3.
    destruct (Nat.iter n (smooth_step fine h) (coarse_step fine coarse h (Nat.iter n (smooth_step fine h) (x1, after b)))) as [x2 d2] eqn:Q.
    cbn [fst snd] in K1, K3. cbn [smooth_step fst]. unfold add. rewrite K1, HS by auto.
    assert (X1 : x1 i = lin fine S b i). { unfold x1, add. rewrite HS by auto. lra. }
    rewrite X1. f_equal.
    - f_equal. unfold corr, cycle, smooth. now rewrite !Nat2Z.id.
    - apply lin_ext. intros j Hj. rewrite K3 by auto. unfold corr, cycle, smooth. now rewrite !Nat2Z.id.
  Qed.

  Lemma after_lin b i : after b i = (b i - lin fine A (lin fine S b) i)%R.
  Proof. unfold after. rewrite mmv_lin. f_equal. apply lin_ext. intros j Hj. now apply HS. Qed.

  Lemma corr_form n a b : symmetric fine A -> symmetric fine S ->
    (inner fine (corr (Datatypes.S n) a) b =
     inner fine (lin fine S a) b + inner fine a (lin fine S b) - inner fine (lin fine A (lin fine S a)) (lin fine S b)
     + inner fine (corr n (after a)) (after b))%R.
  Proof.
    intros SA SS.
    rewrite (inner_ext fine (corr (Datatypes.S n) a) b
      (fun i => (fun i => lin fine S a i + corr n (after a) i) i + lin fine S (fun j => after a j - lin fine A (corr n (after a)) j) i)%R b)
      by (auto; intros i Hi; now apply corr_S).
    set (z := fun j => (after a j - lin fine A (corr n (after a)) j)%R).
    rewrite (inner_plus_l fine (fun i => lin fine S a i + corr n (after a) i)%R (lin fine S z) b).
    rewrite (inner_plus_l fine (lin fine S a) (corr n (after a)) b).
    rewrite (inner_sym fine S z b SS). unfold z. rewrite (inner_minus_l fine (after a) (lin fine A (corr n (after a)))).
    rewrite (inner_ext fine (after a) (lin fine S b) (fun i => a i - lin fine A (lin fine S a) i)%R (lin fine S b)) by (auto; intros; apply after_lin).
    rewrite inner_minus_l.
    rewrite (inner_sym fine A (corr n (after a)) (lin fine S b) SA).
    rewrite (inner_ext fine (corr n (after a)) (after b) (corr n (after a)) (fun i => b i - lin fine A (lin fine S b) i)%R) by (auto; intros; apply after_lin).
    rewrite inner_minus_r. lra.
  Qed.

  Lemma corr_base a b : (inner fine (corr 0 a) b = inner coarse (lin coarse C (lin fine (transposed P) a)) (lin fine (transposed P) b))%R.
  Proof.
    rewrite (inner_ext fine (corr 0 a) b (lin coarse P (lin coarse C (lin fine (transposed P) a))) b) by (auto; intros; now apply corr_0).
    apply inner_lin.
  Qed.

  Lemma corr_symmetric n : symmetric fine A -> symmetric fine S -> symmetric coarse C ->
    forall a b, inner fine (corr n a) b = inner fine a (corr n b).
  Proof.
    intros SA SS SC. induction n as [|n IH]; intros a b.
    - rewrite corr_base, (inner_comm fine a), corr_base, (inner_sym coarse C _ _ SC). apply inner_comm.
    - rewrite corr_form, (inner_comm fine a (corr _ b)), corr_form by auto.
      rewrite IH, (inner_comm fine (after a)).
      rewrite (inner_sym fine A (lin fine S a) (lin fine S b) SA), (inner_comm fine (lin fine S a) (lin fine A (lin fine S b))).
      rewrite (inner_comm fine (lin fine S b) a), (inner_comm fine b (lin fine S a)). lra.
  Qed.

  Lemma corr_nonneg n : symmetric fine A -> symmetric fine S ->
    (forall g, (0 <= inner coarse (lin coarse C g) g)%R) ->
    (forall a, (inner fine (lin fine A (lin fine S a)) (lin fine S a) <= 2 * inner fine (lin fine S a) a)%R) ->
    forall a, (0 <= inner fine (corr n a) a)%R.
  Proof.
    intros SA SS PC PS. induction n as [|n IH]; intros a.
    - rewrite corr_base. apply PC.
    - rewrite corr_form by auto. rewrite (inner_comm fine a). pose proof (PS a). pose proof (IH (after a)). lra.
  Qed.

  Lemma hybrid_corr n b : n1 h = n -> n2 h = n -> forall x i, hybrid_apply fine coarse h x b i = (x i + corr (Z.to_nat n) b i)%R.
  Proof.
    intros H1 H2 x i. destruct (keeps_cycle (n1 h) (n2 h) x b) as (K & _).
    unfold hybrid_apply, corr. fold (cycle (n1 h) (n2 h) (x, b)). rewrite K. f_equal.
    unfold cycle, smooth. now rewrite H1, H2, !Nat2Z.id.
  Qed.
End hybrid.

(** ** Damping *)
Lemma truncate_fraction w : (0 <= w < 1)%R -> truncate w = 0%Z.
Proof.
  intros [A B]. unfold truncate. destruct (Rlt_dec w 0); [lra|].
  rewrite <- (tech_up w 1); [reflexivity|cbn; lra|cbn; lra].
Qed.

Lemma truncate_integer z : truncate (IZR z) = z.
Proof.
  unfold truncate. destruct (Rlt_dec (IZR z) 0).
  - rewrite <- (tech_up (- IZR z) (- z + 1)); [lia| |]; rewrite plus_IZR, opp_IZR; lra.
  - rewrite <- (tech_up (IZR z) (z + 1)); [lia| |]; rewrite plus_IZR; lra.
Qed.

Lemma idle_smoothing {D E} (fine : list D) (h : hybrid D E) : (forall d i, dgprec h (fun _ => 0%R) d i = 0%R) ->
  forall n x d, (forall i, fst (Nat.iter n (smooth_step fine h) (x, d)) i = x i) /\ (forall i, snd (Nat.iter n (smooth_step fine h) (x, d)) i = d i).
Proof.
  intros Z n x d. induction n as [|n [I1 I2]]; [split; reflexivity|].
  change (Nat.iter (S n) (smooth_step fine h) (x, d)) with (smooth_step fine h (Nat.iter n (smooth_step fine h) (x, d))).
  destruct (Nat.iter n (smooth_step fine h) (x, d)) as [x1 d1]. cbn [fst snd] in I1, I2. cbn [smooth_step fst snd]. split; intros i.
  - unfold add. rewrite Z, I1. lra.
  - rewrite mmv_lin, lin_zero by auto. rewrite I2. lra.
Qed.

Lemma idle_hybrid {D E} (fine : list D) (coarse : list E) (h : hybrid D E) C : (forall d i, dgprec h (fun _ => 0%R) d i = 0%R) ->
  acts_as coarse (cgprec h) C -> forall x b i,
  hybrid_apply fine coarse h x b i = (x i + lin coarse (prol h) (lin coarse C (lin fine (transposed (prol h)) b)) i)%R.
Proof.
  intros Z HC x b i. unfold hybrid_apply, smooth.
  destruct (idle_smoothing fine h Z (Z.to_nat (n1 h)) x b) as [I1 I2].
  destruct (Nat.iter (Z.to_nat (n1 h)) (smooth_step fine h) (x, b)) as [x1 d1]. cbn [fst snd] in I1, I2.
  cbn [coarse_step]. rewrite (proj1 (idle_smoothing fine h Z (Z.to_nat (n2 h)) _ _)). unfold add. rewrite I1. f_equal.
  rewrite mv_lin. apply lin_ext. intros k Hk. rewrite HC by auto. apply lin_ext. intros k' _. rewrite mtv_lin. apply lin_ext. auto.
Qed.

Lemma triple_galerkin {D E} (fine : list D) (coarse : list E) P A w k :
  lin coarse (triple_product fine P A) w k = galerkin_product fine coarse A P w k.
Proof.
  unfold galerkin_product. 
  transitivity (rsum (fun l => rsum (fun j => rsum (fun i => P i k * A i j) fine * (P j l * w l)) fine) coarse)%R.
  - unfold lin. apply rsum_ext. intros l _. unfold triple_product.
    rewrite (fold_plus (fun j => fold_left (fun s i => s + P i k * A i j)%R fine 0%R * P j l)%R), Rplus_0_l.
    rewrite Rmult_comm, <- rsum_scale. apply rsum_ext. intros j _.
    rewrite (fold_plus (fun i => P i k * A i j)%R), Rplus_0_l. lra.
  - rewrite rsum_swap. 
    transitivity (rsum (fun j => rsum (fun i => P i k * (A i j * lin coarse P w j)) fine) fine)%R.
    + apply rsum_ext. intros j _. rewrite rsum_scale. fold (lin coarse P w j). rewrite Rmult_comm, <- rsum_scale.
      apply rsum_ext. intros i _. lra.
    + rewrite rsum_swap. unfold lin at 2. apply rsum_ext. intros i _. rewrite rsum_scale. reflexivity.
Qed.
