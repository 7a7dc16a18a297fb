(** The Gram matrix of the monomials is positive definite; the Gram-Schmidt process. *)
From Coq Require Import Reals Lra.
From Verif Require Import Common CommonFacts ParSpec ParProofs2 DdProofs OrthModel OrthSpec OrthProofs OrthProofs2.
Local Open Scope R_scope.
Local Arguments rsum : simpl never.

(** ** Polynomials that vanish on a box *)

Lemma rsum_abs {A} (f : A -> R) l : Rabs (rsum f l) <= rsum (fun x => Rabs (f x)) l.
Proof.
  induction l as [|x l IH]; [unfold rsum; cbn; rewrite Rabs_R0; lra|]. rewrite !rsum_cons.
  eapply Rle_trans; [apply Rabs_triang|]. lra.
Qed.
Lemma rsum_le {A} (f g : A -> R) l : (forall x, In x l -> f x <= g x) -> rsum f l <= rsum g l.
Proof.
  induction l as [|x l IH]; intros H; [unfold rsum; cbn; lra|]. rewrite !rsum_cons.
  assert (f x <= g x) by (apply H; now left). assert (rsum f l <= rsum g l) by (apply IH; intros; apply H; now right). lra.
Qed.
Lemma rsum_map {A B} (f : B -> R) (h : A -> B) l : rsum f (map h l) = rsum (fun x => f (h x)) l.
Proof. induction l as [|x l IH]; [reflexivity|]. cbn [map]. now rewrite !rsum_cons, IH. Qed.

Lemma univariate_zero eps N : 0 < eps <= 1 -> forall q, (forall x, 0 < x < eps -> rsum (fun e => q e * x ^ e) (seq 0 N) = 0) ->
  forall e, (e < N)%nat -> q e = 0.
Proof.
  intros E. induction N as [|N IH]; intros q H e L; [lia|].
  assert (S1 : forall x, rsum (fun e => q e * x ^ e) (seq 0 (S N)) = q 0%nat + x * rsum (fun e => q (S e) * x ^ e) (seq 0 N)).
  { intros x. cbn [seq]. rewrite rsum_cons, <- seq_shift, rsum_map, <- rsum_scale. cbn [pow]. f_equal; [ring|].
    apply rsum_ext. intros; ring. }
  assert (Q0 : q 0%nat = 0).
  { set (M := rsum (fun e => Rabs (q (S e))) (seq 0 N)).
    assert (M0 : 0 <= M) by (apply rsum_nonneg; intros; apply Rabs_pos).
    destruct (Req_dec (q 0%nat) 0) as [|D]; auto. exfalso.
    assert (P : 0 < Rabs (q 0%nat)) by now apply Rabs_pos_lt.
    set (x := Rmin (eps / 2) (Rabs (q 0%nat) / (2 * (M + 1)))).
    assert (X : 0 < x) by (apply Rmin_glb_lt; [lra | apply Rdiv_lt_0_compat; lra]).
    assert (X1 : x <= eps / 2) by apply Rmin_l. assert (X2 : x <= Rabs (q 0%nat) / (2 * (M + 1))) by apply Rmin_r.
    specialize (H x ltac:(lra)). rewrite S1 in H.
    assert (B : Rabs (rsum (fun e => q (S e) * x ^ e) (seq 0 N)) <= M).
    { eapply Rle_trans; [apply rsum_abs|]. apply rsum_le. intros i _. rewrite Rabs_mult.
      assert (0 <= x ^ i <= 1) by (split; [apply pow_le; lra | rewrite <- (pow1 i); apply pow_incr; lra]).
      rewrite (Rabs_pos_eq (x ^ i)) by lra. pose proof (Rabs_pos (q (S i))). nra. }
    assert (A : Rabs (q 0%nat) = x * Rabs (rsum (fun e => q (S e) * x ^ e) (seq 0 N))).
    { replace (q 0%nat) with (- (x * rsum (fun e => q (S e) * x ^ e) (seq 0 N))) by lra.
      rewrite Rabs_Ropp, Rabs_mult, (Rabs_pos_eq x) by lra. reflexivity. }
    assert (C : x * (2 * (M + 1)) <= Rabs (q 0%nat)).
    { apply (Rmult_le_compat_r (2 * (M + 1))) in X2; [|lra]. field_simplify in X2; lra. }
    nra. }
  destruct e as [|e]; [exact Q0|]. apply (IH (fun e => q (S e))); [|lia].
  intros x X. specialize (H x X). rewrite S1, Q0 in H. apply (Rmult_eq_reg_l x); lra.
Qed.

Definition psum (L : list (R * list nat)) (x : list R) : R := rsum (fun p : R * list nat => fst p * monomial (snd p) x) L.
Definition part (e : nat) (L : list (R * list nat)) : list (R * list nat) :=
  map (fun p => (fst p, tl (snd p))) (filter (fun p => hd 0%nat (snd p) =? e) L).
Lemma psum_parts L d x y N : (forall p, In p L -> length (snd p) = S d /\ (hd 0 (snd p) < N)%nat) ->
  psum L (x :: y) = rsum (fun e => psum (part e L) y * x ^ e) (seq 0 N).
Proof.
  intros H. unfold psum. rewrite (rsum_ext (fun p => fst p * monomial (snd p) (x :: y))
    (fun p => rsum (fun e => if hd 0%nat (snd p) =? e then fst p * monomial (tl (snd p)) y * x ^ e else 0) (seq 0 N))).
  - rewrite rsum_swap. apply rsum_ext. intros e _. unfold part. rewrite rsum_map. cbn [fst snd]. rewrite rsum_filter.
    rewrite Rmult_comm, <- rsum_scale. apply rsum_ext. intros [r a] _. cbn [fst snd]. destruct (_ =? _); ring.
  - intros [r b] I. destruct (H _ I) as [L1 L2]. cbn [fst snd] in *. destruct b as [|e a]; [discriminate|]. cbn [hd tl monomial] in *.
    rewrite (rsum_one _ e); [rewrite Nat.eqb_refl; ring | apply seq_NoDup | apply in_seq; lia |].
    intros i _ D. destruct (Nat.eqb_spec e i); [congruence | reflexivity].
Qed.
Lemma in_part e L r a : In (r, a) (part e L) -> exists b, In (r, b) L /\ hd 0%nat b = e /\ a = tl b.
Proof.
  unfold part. rewrite in_map_iff. intros ((r' & b) & E & I). cbn in E. injection E as <- <-.
  apply filter_In in I. destruct I as [I Q]. apply Nat.eqb_eq in Q. cbn in Q. eauto.
Qed.
Lemma part_nodup e L d : (forall p, In p L -> length (snd p) = S d) -> NoDup (map snd L) -> NoDup (map snd (part e L)).
Proof.
  induction L as [|p L IH]; intros H N; [constructor|]. inversion N as [|? ? NI ND]; subst.
  assert (H' : forall q, In q L -> length (snd q) = S d) by (intros; apply H; now right).
  unfold part. cbn [filter]. destruct (Nat.eqb_spec (hd 0%nat (snd p)) e) as [E|]; [|now apply IH].
  cbn [map]. constructor; [|now apply IH]. cbn [snd]. intros I. apply in_map_iff in I. destruct I as ((r & a) & Q & I).
  change (In (r, a) (part e L)) in I. apply in_part in I. destruct I as (b & I & Eb & ->). cbn in Q.
  apply NI. apply in_map_iff. exists (r, b). split; auto. cbn.
  specialize (H p (or_introl eq_refl)). specialize (H' _ I). cbn in H'.
  destruct (snd p) as [|x t], b as [|x' t']; try discriminate. cbn in *. congruence.
Qed.
Lemma psum_zero eps d : 0 < eps <= 1 -> forall L, NoDup (map snd L) -> (forall p, In p L -> length (snd p) = d) ->
  (forall x, length x = d -> (forall y, In y x -> 0 < y < eps) -> psum L x = 0) -> forall p, In p L -> fst p = 0.
Proof.
  intros E. induction d as [|d IH]; intros L N LL H p I.
  - assert (S1 : L = [p]).
    { destruct L as [|q [|q' L]]; [destruct I | destruct I as [->|[]]; reflexivity |]. exfalso.
      assert (A : snd q = []) by (apply length_zero_iff_nil, LL; now left).
      assert (B : snd q' = []) by (apply length_zero_iff_nil, LL; right; now left).
      cbn in N. rewrite A, B in N. inversion N as [|? ? NI]; subst. apply NI. now left. }
    specialize (H [] eq_refl ltac:(intros y [])). rewrite S1 in H. unfold psum, rsum in H. cbn in H.
    assert (A : snd p = []) by (apply length_zero_iff_nil, LL; auto). rewrite A in H. cbn in H. lra.
  - destruct p as [r a]. specialize (LL _ I) as La. cbn in La. destruct a as [|e a]; [discriminate|].
    assert (Ip : In (r, a) (part e L)).
    { unfold part. apply in_map_iff. exists (r, e :: a). split; auto. apply filter_In. split; auto. cbn. apply Nat.eqb_refl. }
    apply (IH (part e L)) with (p := (r, a)); auto.
    + now apply part_nodup with d.
    + intros (r' & a') I'. apply in_part in I'. destruct I' as (b & Ib & _ & ->). specialize (LL _ Ib). cbn in *.
      destruct b; cbn in *; lia.
    + intros y Ly Hy. set (N' := S (sum_nat (map (fun p => hd 0%nat (snd p)) L))).
      assert (Bd : forall p, In p L -> (hd 0 (snd p) < N')%nat).
      { intros p Hp. unfold N'. apply (in_map (fun p => hd 0%nat (snd p))) in Hp. revert Hp. generalize (hd 0%nat (snd p)).
        generalize (map (fun p => hd 0%nat (snd p)) L). clear. unfold sum_nat.
        induction l as [|z l IH]; intros n []; cbn; [lia|]. specialize (IH _ H). lia. }
      apply (univariate_zero eps N' E (fun e => psum (part e L) y)).
      * intros x X. rewrite <- (psum_parts L d x y N'); [|intros p Hp; split; [now apply LL | now apply Bd]].
        apply H; [cbn; now rewrite Ly|]. intros z [<-|Hz]; auto.
      * apply (Bd _ I).
Qed.

(** ** The interior contains a box *)

Lemma inner_cube d : forall x, length x = d -> (forall y, In y x -> 0 < y < 1) -> inner (nxt_of Cube) d 1 x.
Proof.
  induction d as [|d IH]; intros [|y x] L H; try discriminate; cbn [inner]; auto. split; [apply H; now left|].
  apply IH; [now injection L | intros; apply H; now right].
Qed.
Lemma inner_simplex d : forall s x, length x = d -> (forall y, In y x -> 0 < y) -> rsum (fun y => y) x < s -> inner (nxt_of Simplex) d s x.
Proof.
  induction d as [|d IH]; intros s [|y x] L P H; try discriminate; cbn [inner]; auto. rewrite rsum_cons in H.
  assert (0 < y) by (apply P; now left).
  assert (0 <= rsum (fun y => y) x) by (apply rsum_nonneg; intros z Hz; left; apply P; now right). split; [lra|].
  apply IH; [now injection L | intros; apply P; now right | cbn; lra].
Qed.
Lemma inner_box s d : exists eps, 0 < eps <= 1 /\ forall x, length x = d -> (forall y, In y x -> 0 < y < eps) -> inner (nxt_of s) d 1 x.
Proof.
  destruct s.
  - exists 1. split; [lra|]. apply inner_cube.
  - assert (P : 0 < INR d + 1) by (pose proof (pos_INR d); lra). exists (/ (INR d + 1)). split.
    + split; [now apply Rinv_0_lt_compat|]. rewrite <- Rinv_1. apply Rinv_le_contravar; [lra|]. pose proof (pos_INR d). lra.
    + intros x L H. apply inner_simplex; auto; [intros; now apply H|].
      apply Rle_lt_trans with (rsum (fun _ => / (INR d + 1)) x); [apply rsum_le; intros y I; left; now apply H|].
      assert (E : forall l : list R, rsum (fun _ => / (INR d + 1)) l = INR (length l) * / (INR d + 1)).
      { induction l as [|z l IH]; [unfold rsum; cbn; ring|]. rewrite rsum_cons, IH. cbn [length]. rewrite S_INR. ring. }
      rewrite E, L. apply (Rmult_lt_reg_r (INR d + 1)); auto. rewrite Rmult_assoc, Rinv_l by lra. lra.
Qed.

(** ** Products of monomials *)

Lemma add_index_cons d x a y b : add_index (S d) (x :: a) (y :: b) = (x + y)%nat :: add_index d a b.
Proof. unfold add_index. cbn [seq map nth]. f_equal. rewrite <- seq_shift, map_map. reflexivity. Qed.
Lemma add_index_length d a b : length (add_index d a b) = d.
Proof. unfold add_index. now rewrite map_length, seq_length. Qed.
Lemma monomial_add d : forall a b x, length a = d -> length b = d -> monomial (add_index d a b) x = monomial a x * monomial b x.
Proof.
  induction d as [|d IH]; intros [|e a] [|e' b] x A B; try discriminate; [unfold add_index; cbn; ring|].
  rewrite add_index_cons. cbn [monomial]. destruct x as [|y x]; [ring|]. rewrite IH by (cbn in *; lia). rewrite pow_add. ring.
Qed.
Lemma add_index_comm d a b : add_index d a b = add_index d b a.
Proof. unfold add_index. apply map_ext. intros; lia. Qed.

(** ** Bilinear forms *)

  Lemma rsum_prefix n (f : nat -> R) j : (j < n)%nat -> (forall l, (j < l < n)%nat -> f l = 0) -> rsum f (seq 0 (j + 1)) = rsum f (seq 0 n).
  Proof.
    intros J Z. assert (E : seq 0 n = seq 0 (j + 1) ++ seq (j + 1) (n - (j + 1))).
    { etransitivity; [|exact (seq_app (j + 1) (n - (j + 1)) 0)]. f_equal. lia. }
    rewrite E, rsum_app, (rsum_zero f (seq (j + 1) (n - (j + 1)))); [ring|]. intros l L. apply in_seq in L. apply Z. lia.
  Qed.
  (** Lower triangular with nonzero diagonal: the first m rows generate the first m unit vectors. *)
  Lemma triangular_span (c : matrix) m : (forall a l, (a < l)%nat -> (a < m)%nat -> c a l = 0) -> (forall a, (a < m)%nat -> c a a <> 0) ->
    forall v, (forall l, (m <= l)%nat -> v l = 0) -> exists w, forall l, v l = rsum (fun i => w i * c i l) (seq 0 m).
  Proof.
    induction m as [|m IH]; intros T D v V.
    - exists (fun _ => 0). intros l. rewrite V by lia. reflexivity.
    - destruct (IH ltac:(intros; apply T; lia) ltac:(intros; apply D; lia) (fun l => v l - v m / c m m * c m l)) as (w & W).
      + intros l L. destruct (Nat.eq_dec l m) as [->|]; [field; apply D; lia|]. rewrite (V l), (T m l) by lia. ring.
      + exists (fun i => if (i =? m)%nat then v m / c m m else w i). intros l. rewrite seq_S, rsum_app, rsum_cons. change (rsum _ []) with 0.
        cbn [Nat.add]. rewrite Nat.eqb_refl. rewrite (rsum_ext _ (fun i => w i * c i l)).
        * rewrite <- W. ring.
        * intros i Hi. apply in_seq in Hi. destruct (Nat.eqb_spec i m); [lia | reflexivity].
  Qed.

Section form.
  Variable n : nat.
  Variable G : matrix.
  Definition form (u v : nat -> R) : R := rsum (fun l => rsum (fun m => u l * v m * G l m) (seq 0 n)) (seq 0 n).
  Definition unit (i l : nat) : R := if (i =? l)%nat then 1 else 0.
  Lemma form_ext u u' v v' : (forall l, (l < n)%nat -> u l = u' l) -> (forall l, (l < n)%nat -> v l = v' l) -> form u v = form u' v'.
  Proof.
    intros U V. apply rsum_ext. intros l L. apply rsum_ext. intros m M. apply in_seq in L, M. rewrite U, V by lia. reflexivity.
  Qed.
  Lemma form_sub_l u u' b v : form (fun l => u l - b * u' l) v = form u v - b * form u' v.
  Proof.
    unfold form. rewrite <- Rplus_0_r at 1. unfold Rminus at 2. rewrite Ropp_mult_distr_l, <- rsum_scale, <- rsum_plus, Rplus_0_r.
    apply rsum_ext. intros l _. rewrite <- rsum_scale, <- rsum_plus. apply rsum_ext. intros; ring.
  Qed.
  Lemma form_scale_l c u v : form (fun l => c * u l) v = c * form u v.
  Proof. unfold form. rewrite <- rsum_scale. apply rsum_ext. intros l _. rewrite <- rsum_scale. apply rsum_ext. intros; ring. Qed.
  Hypothesis sym : forall l m, (l < n)%nat -> (m < n)%nat -> G l m = G m l.
  Lemma form_sym u v : form u v = form v u.
  Proof.
    unfold form. rewrite rsum_swap. apply rsum_ext. intros m M. apply rsum_ext. intros l L. apply in_seq in L, M.
    rewrite sym by lia. ring.
  Qed.
  Lemma form_sub_r u v v' b : form u (fun l => v l - b * v' l) = form u v - b * form u v'.
  Proof. rewrite form_sym, form_sub_l, (form_sym v), (form_sym v'). reflexivity. Qed.
  Lemma form_scale_r c u v : form u (fun l => c * v l) = c * form u v.
  Proof. rewrite form_sym, form_scale_l, form_sym. reflexivity. Qed.
  Lemma form_unit_r u i : (i < n)%nat -> form u (unit i) = rsum (fun l => u l * G l i) (seq 0 n).
  Proof.
    intros I. unfold form. apply rsum_ext. intros l _. rewrite (rsum_one _ i); [unfold unit; rewrite Nat.eqb_refl; ring | apply seq_NoDup | apply in_seq; lia |].
    intros m _ D. unfold unit. destruct (Nat.eqb_spec i m); [congruence | ring].
  Qed.
  Lemma form_unit i : (i < n)%nat -> form (unit i) (unit i) = G i i.
  Proof.
    intros I. rewrite form_unit_r by auto. rewrite (rsum_one _ i); [unfold unit; rewrite Nat.eqb_refl; ring | apply seq_NoDup | apply in_seq; lia |].
    intros m _ D. unfold unit. destruct (Nat.eqb_spec i m); [congruence | ring].
  Qed.

  Variable g : matrix.
  Hypothesis gG : forall i l, (i < n)%nat -> (l <= i)%nat -> g i l = G i l.
  Hypothesis posdef : forall v l, (l < n)%nat -> v l <> 0 -> 0 < form v v.

  Definition done (c : matrix) (i : nat) : Prop :=
    (forall a l, (i <= a < n)%nat -> c a l = unit a l) /\
    (forall a l, (a < i)%nat -> (a < l)%nat -> c a l = 0) /\
    (forall a, (a < i)%nat -> 0 < c a a) /\
    (forall a b, (a < i)%nat -> (b < i)%nat -> form (c a) (c b) = unit a b).

  Lemma gs_coefficient_form c i j : (j < i)%nat -> (i < n)%nat -> (forall l, (j < l)%nat -> c j l = 0) -> gs_coefficient g c i j = form (c j) (unit i).
  Proof.
    intros J I Z. unfold gs_coefficient. rewrite fold_rsum, Rplus_0_l, form_unit_r by auto.
    rewrite (rsum_ext _ (fun l => c j l * G l i)) by (intros l L; apply in_seq in L; rewrite gG, sym by lia; reflexivity).
    apply (rsum_prefix n); [lia|]. intros l L. rewrite Z by lia. ring.
  Qed.

  Lemma gs_row_done c i : (i < n)%nat -> done c i -> done (gs_row g c i) (S i).
  Proof.
    intros I (D1 & D2 & D3 & D4). unfold gs_row.
    set (step := fun (st : matrix * list R) j => let '(c, bi) := st in _).
    set (bb := fun j => form (c j) (unit i)).
    assert (F : forall j, (j <= i)%nat -> exists c', fold_left step (seq 0 j) (c, []) = (c', map bb (seq 0 j)) /\
      (forall a l, a <> i -> c' a l = c a l) /\ (forall l, c' i l = unit i l - rsum (fun a => bb a * c a l) (seq 0 j))).
    { induction j as [|j IH]; intros J.
      - exists c. split; [reflexivity|]. split; auto. intros l. rewrite D1 by lia. unfold rsum; cbn. ring.
      - destruct (IH ltac:(lia)) as (c' & E & H1 & H2). rewrite seq_S, fold_left_app, E. cbn [fold_left Nat.add]. unfold step at 1.
        assert (B : gs_coefficient g c' i j = bb j).
        { rewrite gs_coefficient_form by (try lia; intros; rewrite H1 by lia; apply D2; lia). apply form_ext; auto.
          intros; apply H1; lia. }
        rewrite B. eexists. split; [rewrite map_app; reflexivity|]. split.
        + intros a l A. unfold gs_subtract. destruct (Nat.eqb_spec a i); [lia|]. cbn. now apply H1.
        + intros l. unfold gs_subtract. rewrite Nat.eqb_refl. cbn [andb]. rewrite rsum_app, rsum_cons. change (rsum _ []) with 0.
          destruct (Nat.leb_spec l j) as [Q|Q]; rewrite H2; [rewrite H1 by lia; ring|]. rewrite (D2 j l) by lia. ring. }
    destruct (F i (le_n i)) as (c' & E & H1 & H2). rewrite E. clear F E step.
    assert (S2 : forall l a, fold_left (fun s2 b => s2 - b * b) (map bb l) a = a - rsum (fun j => bb j * bb j) l).
    { induction l as [|x l IH]; intros a; cbn [map fold_left]; [unfold rsum; cbn; ring|]. rewrite IH, rsum_cons. ring. }
    rewrite S2, Rplus_0_l, gG by lia. clear S2. set (s2 := G i i - _).
    assert (O : forall k a, (k <= i)%nat -> (a < i)%nat ->
      form (fun l => unit i l - rsum (fun j => bb j * c j l) (seq 0 k)) (c a) = if (a <? k)%nat then 0 else bb a).
    { intros k a. induction k as [|k IH]; intros K A.
      - transitivity (form (unit i) (c a)); [apply form_ext; auto; intros; unfold rsum; cbn; ring | apply form_sym].
      - transitivity (form (fun l => (unit i l - rsum (fun j => bb j * c j l) (seq 0 k)) - bb k * c k l) (c a)).
        + apply form_ext; auto. intros l _. rewrite seq_S, rsum_app, rsum_cons. change (rsum _ []) with 0. cbn [Nat.add]. ring.
        + rewrite form_sub_l, IH, D4 by lia. unfold unit. destruct (Nat.eqb_spec k a) as [->|Q].
          * destruct (Nat.ltb_spec a a); [lia|]. destruct (Nat.ltb_spec a (S a)); [|lia]. ring.
          * destruct (Nat.ltb_spec a k), (Nat.ltb_spec a (S k)); try lia; ring. }
    assert (O' : forall a, (a < i)%nat -> form (c' i) (c a) = 0).
    { intros a A. transitivity (form (fun l => unit i l - rsum (fun j => bb j * c j l) (seq 0 i)) (c a)); [apply form_ext; auto|].
      rewrite O by lia. destruct (Nat.ltb_spec a i); [reflexivity | lia]. }
    assert (Q : form (c' i) (c' i) = s2).
    { transitivity (form (c' i) (fun l => unit i l - rsum (fun j => bb j * c j l) (seq 0 i))); [apply form_ext; auto|].
      assert (K : forall k, (k <= i)%nat -> form (c' i) (fun l => unit i l - rsum (fun j => bb j * c j l) (seq 0 k)) = form (c' i) (unit i)).
      { induction k as [|k IH]; intros K.
        - apply form_ext; auto. intros; unfold rsum; cbn; ring.
        - rewrite <- IH by lia. transitivity (form (c' i) (fun l => (unit i l - rsum (fun j => bb j * c j l) (seq 0 k)) - bb k * c k l)).
          + apply form_ext; auto. intros l _. rewrite seq_S, rsum_app, rsum_cons. change (rsum _ []) with 0. cbn [Nat.add]. ring.
          + rewrite form_sub_r, O' by lia. ring. }
      rewrite K by lia. unfold s2.
      transitivity (form (fun l => unit i l - rsum (fun j => bb j * c j l) (seq 0 i)) (unit i)); [apply form_ext; auto|].
      assert (M : forall k, (k <= i)%nat -> form (fun l => unit i l - rsum (fun j => bb j * c j l) (seq 0 k)) (unit i) = G i i - rsum (fun j => bb j * bb j) (seq 0 k)).
      { induction k as [|k IH]; intros K'.
        - rewrite <- (form_unit i) by auto. transitivity (form (unit i) (unit i)); [apply form_ext; auto; intros; unfold rsum; cbn; ring | unfold rsum; cbn; ring].
        - transitivity (form (fun l => (unit i l - rsum (fun j => bb j * c j l) (seq 0 k)) - bb k * c k l) (unit i)).
          + apply form_ext; auto. intros l _. rewrite seq_S, rsum_app, rsum_cons. change (rsum _ []) with 0. cbn [Nat.add]. ring.
          + rewrite form_sub_l, IH by lia. fold (bb k). rewrite seq_S, (rsum_app _ (seq 0 k)), rsum_cons. change (rsum _ []) with 0. cbn [Nat.add]. ring. }
      rewrite M by lia. reflexivity. }
    assert (Ci : c' i i = 1).
    { rewrite H2, rsum_zero; [unfold unit; rewrite Nat.eqb_refl; ring|]. intros a A. apply in_seq in A. rewrite D2 by lia. ring. }
    assert (P : 0 < s2) by (rewrite <- Q; apply (posdef (c' i) i); auto; lra).
    assert (SP : 0 < sqrt s2) by now apply sqrt_lt_R0.
    assert (SS : sqrt s2 * sqrt s2 = s2) by (apply sqrt_sqrt; lra).
    set (s := 1 / sqrt s2). match goal with |- done ?f _ => set (cc := f) end.
    assert (Ui : forall l, cc i l = s * c' i l).
    { intros l. unfold cc. rewrite Nat.eqb_refl. cbn [andb]. destruct (Nat.leb_spec l i) as [W|W]; auto.
      rewrite H2, rsum_zero; [unfold unit; destruct (Nat.eqb_spec i l); [lia | ring]|]. intros a A. apply in_seq in A. rewrite D2 by lia. ring. }
    assert (Ua : forall a l, a <> i -> cc a l = c a l).
    { intros a l A. unfold cc. destruct (Nat.eqb_spec a i); [lia|]. cbn. now apply H1. }
    repeat split.
    - intros a l A. rewrite Ua by lia. apply D1. lia.
    - intros a l A L. destruct (Nat.eq_dec a i) as [->|N]; [|rewrite Ua by lia; apply D2; lia].
      rewrite Ui, H2, rsum_zero; [unfold unit; destruct (Nat.eqb_spec i l); [lia | ring]|]. intros j A'. apply in_seq in A'. rewrite D2 by lia. ring.
    - intros a A. destruct (Nat.eq_dec a i) as [->|N]; [|rewrite Ua by lia; apply D3; lia].
      rewrite Ui, Ci. unfold s. apply Rmult_lt_0_compat; [|lra]. apply Rdiv_lt_0_compat; lra.
    - assert (Ra : forall a, (a < i)%nat -> form (cc i) (cc a) = 0).
      { intros a A. transitivity (form (fun l => s * c' i l) (c a)); [apply form_ext; intros; [apply Ui | apply Ua; lia]|].
        rewrite form_scale_l, O' by auto. ring. }
      intros a b A B. destruct (Nat.eq_dec a i) as [->|NA], (Nat.eq_dec b i) as [->|NB].
      + transitivity (form (fun l => s * c' i l) (fun l => s * c' i l)); [apply form_ext; intros; apply Ui|].
        rewrite form_scale_l, form_scale_r, Q. unfold unit. rewrite Nat.eqb_refl. unfold s.
        transitivity (1 / sqrt s2 * (1 / sqrt s2 * (sqrt s2 * sqrt s2))); [now rewrite SS|]. field. lra.
      + rewrite Ra by lia. unfold unit. destruct (Nat.eqb_spec i b); [lia | reflexivity].
      + rewrite form_sym, Ra by lia. unfold unit. destruct (Nat.eqb_spec a i); [lia | reflexivity].
      + transitivity (form (c a) (c b)); [apply form_ext; intros; apply Ua; lia|]. apply D4; lia.
  Qed.
  Lemma gram_schmidt_done : done (gram_schmidt n g) n.
  Proof.
    unfold gram_schmidt.
    assert (F : forall i, (i <= n)%nat -> done (fold_left (gs_row g) (seq 0 i) (fun i j => if i =? j then 1 else 0)) i).
    { induction i as [|i IH]; intros L.
      - repeat split; intros; lia.
      - rewrite seq_S, fold_left_app. cbn [fold_left Nat.add]. apply gs_row_done; [lia | apply IH; lia]. }
    apply F. lia.
  Qed.

End form.
