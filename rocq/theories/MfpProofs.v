(** Lemmas for the matrix-free preconditioners. *)
From Coq Require Import Reals Lra.
From Verif Require Import Common CommonFacts ParModel ParSpec ParProofs ParProofs2 DdProofs MfpModel MfpSpec.

Local Arguments rsum : simpl never.

Lemma fold_minus (f : nat -> R) l : forall r, fold_left (fun rhs j => rhs - f j)%R l r = (r - rsum f l)%R.
Proof.
  induction l as [|j l IH]; intros r; cbn [fold_left]; [unfold rsum; cbn; lra|]. rewrite IH, rsum_cons. lra.
Qed.
Lemma fold_plus (f : nat -> R) l : forall r, fold_left (fun s j => s + f j)%R l r = (r + rsum f l)%R.
Proof.
  induction l as [|j l IH]; intros r; cbn [fold_left]; [unfold rsum; cbn; lra|]. rewrite IH, rsum_cons. lra.
Qed.
Lemma rsum_rev {A} (f : A -> R) l : rsum f (rev l) = rsum f l.
Proof. apply rsum_perm, Permutation_sym, Permutation_rev. Qed.

(** ** The inverse permutation *)
Lemma inverse_spec n indices junk : (forall i k, i < n -> k < n -> indices i = indices k -> i = k) ->
  forall i, i < n -> inverse_permutation n indices junk (indices i) = i.
Proof.
  unfold inverse_permutation. induction n as [|n IH]; intros INJ i I; [lia|].
  rewrite seq_S, fold_left_app. cbn [fold_left Nat.add]. destruct (Nat.eqb_spec (indices i) (indices n)) as [E|E].
  - symmetry. apply INJ; lia.
  - apply IH; [intros; apply INJ; lia|]. assert (i <> n) by (intros ->; contradiction). lia.
Qed.

(** ** Triangular solves *)
Lemma forward_spec n lu perm z t0 : let t := forward_solve n lu perm z t0 in
  (forall i, i < n -> t i = (z (perm i) - rsum (fun j => lu i j * t j) (seq 0 i))%R) /\ (forall i, n <= i -> t i = t0 i).
Proof.
  unfold forward_solve. induction n as [|n (IH & IH')]; [split; [lia|auto]|].
  rewrite seq_S, fold_left_app. cbn [fold_left Nat.add]. set (t := fold_left _ (seq 0 n) t0) in *.
  set (new := fold_left _ (seq 0 n) (z (perm n))).
  assert (S1 : forall i, i <> n -> set t n new i = t i) by (intros i H; unfold set; now destruct (Nat.eqb_spec i n)).
  assert (SUM : forall i, i <= n -> rsum (fun j => lu i j * set t n new j)%R (seq 0 i) = rsum (fun j => lu i j * t j)%R (seq 0 i)).
  { intros i I. apply rsum_ext. intros j J. apply in_seq in J. rewrite S1 by lia. reflexivity. }
  split.
  - intros i I. rewrite SUM by lia. destruct (Nat.eq_dec i n) as [->|N].
    + unfold set at 1. rewrite Nat.eqb_refl. unfold new. now rewrite fold_minus.
    + rewrite S1 by auto. apply IH. lia.
  - intros i I. rewrite S1 by lia. apply IH'. lia.
Qed.

Lemma backward_step lu t n k : forall m y0, m + k = n -> (forall i, m <= i < n -> lu i i <> 0%R) ->
  let y := fold_left (fun y i => set y i (fold_left (fun rhs j => rhs - lu i j * y j)%R (rev (seq (i + 1) (n - 1 - i))) (t i) / lu i i)%R)
    (rev (seq m k)) y0 in
  (forall i, m <= i < n -> (lu i i * y i + rsum (fun j => lu i j * y j) (seq (i + 1) (n - 1 - i)) = t i)%R) /\
  (forall i, i < m \/ n <= i -> y i = y0 i).
Proof.
  induction k as [|k IH]; intros m y0 E NZ; [cbn; split; [lia|auto]|].
  cbn [seq rev]. rewrite fold_left_app. cbn [fold_left].
  destruct (IH (S m) y0) as (A & B); [lia|intros; apply NZ; lia|].
  set (y := fold_left _ (rev (seq (S m) k)) y0) in *. set (new := (_ / lu m m)%R).
  assert (S1 : forall i, i <> m -> set y m new i = y i) by (intros i H; unfold set; now destruct (Nat.eqb_spec i m)).
  assert (SUM : forall i, m <= i -> rsum (fun j => lu i j * set y m new j)%R (seq (i + 1) (n - 1 - i)) = rsum (fun j => lu i j * y j)%R (seq (i + 1) (n - 1 - i))).
  { intros i I. apply rsum_ext. intros j J. apply in_seq in J. rewrite S1 by lia. reflexivity. }
  split.
  - intros i I. rewrite SUM by lia. destruct (Nat.eq_dec i m) as [->|N].
    + unfold set. rewrite Nat.eqb_refl. unfold new. rewrite fold_minus, rsum_rev. field. apply NZ. lia.
    + rewrite S1 by auto. apply A. lia.
  - intros i I. rewrite S1 by lia. apply B. lia.
Qed.

Lemma seq_split n i : i < n -> seq 0 n = seq 0 i ++ i :: seq (i + 1) (n - 1 - i).
Proof.
  intros I. replace n with (i + (1 + (n - 1 - i))) at 1 by lia. rewrite seq_app. cbn [Nat.add seq app]. do 3 f_equal. lia.
Qed.

Lemma upper_row n lu y i : i < n ->
  rsum (fun j => upper lu i j * y j)%R (seq 0 n) = (lu i i * y i + rsum (fun j => lu i j * y j) (seq (i + 1) (n - 1 - i)))%R.
Proof.
  intros I. rewrite (seq_split n i I), rsum_app, rsum_cons. rewrite rsum_zero.
  - unfold upper at 1. rewrite Nat.leb_refl. rewrite (rsum_ext (fun j => upper lu i j * y j)%R (fun j => lu i j * y j)%R); [lra|].
    intros j J. apply in_seq in J. unfold upper. destruct (Nat.leb_spec i j); [reflexivity|lia].
  - intros j J. apply in_seq in J. unfold upper. destruct (Nat.leb_spec i j); [lia|lra].
Qed.
Lemma lower_row n lu t i : i < n ->
  rsum (fun k => lower lu i k * t k)%R (seq 0 n) = (rsum (fun j => lu i j * t j) (seq 0 i) + t i)%R.
Proof.
  intros I. rewrite (seq_split n i I), rsum_app, rsum_cons. f_equal.
  - apply rsum_ext. intros j J. apply in_seq in J. unfold lower. destruct (Nat.ltb_spec j i); [reflexivity|lia].
  - unfold lower at 1. rewrite Nat.ltb_irrefl, Nat.eqb_refl. rewrite rsum_zero; [lra|].
    intros j J. apply in_seq in J. unfold lower. destruct (Nat.ltb_spec j i); [lia|]. destruct (Nat.eqb_spec j i); [lia|lra].
Qed.

Lemma solve_spec n A lu indices junk z y0 : decomposes n A lu indices ->
  let y := block_solve n lu (inverse_permutation n indices junk) z y0 in
  (forall i, i < n -> times n A y i = z i) /\ (forall i, n <= i -> y i = y0 i).
Proof.
  intros [RNG INJ PR NZ] y. unfold block_solve in y. set (perm := inverse_permutation n indices junk) in *.
  destruct (forward_spec n lu perm z (fun _ => 0%R)) as (F & _). set (t := forward_solve n lu perm z (fun _ => 0%R)) in *.
  destruct (backward_step lu t n n 0 y0) as (B & B'); [lia|intros; apply NZ; lia|]. fold (backward_solve n lu t y0) in B, B'. fold y in B, B'.
  split; [|intros; apply B'; lia].
  intros i I. unfold times.
  rewrite (rsum_ext (fun j => A i j * y j)%R (fun j => rsum (fun k => lower lu (indices i) k * (upper lu k j * y j))%R (seq 0 n))).
  2:{ intros j J. apply in_seq in J. rewrite (PR i j) by lia. rewrite Rmult_comm, <- rsum_scale. apply rsum_ext. intros. lra. }
  rewrite rsum_swap. rewrite (rsum_ext _ (fun k => lower lu (indices i) k * t k)%R).
  2:{ intros k K. apply in_seq in K. rewrite rsum_scale. rewrite upper_row by lia. rewrite B by lia. reflexivity. }
  rewrite lower_row by auto. rewrite (F (indices i)) by auto. unfold perm at 1. rewrite inverse_spec by auto. lra.
Qed.

(** ** Block SOR *)
Lemma times_ext n (A : mat) x x' i : (forall j, j < n -> x j = x' j) -> times n A x i = times n A x' i.
Proof. intros E. apply rsum_ext. intros j J. apply in_seq in J. rewrite E by lia. reflexivity. Qed.

Section sor.
  Variables (n : nat) (omega weight : R) (offdiag : nat -> nat -> mat) (jacobi : nat -> vector -> vector -> vector).
  Notation visit := (sor_visit n omega weight offdiag jacobi).
  Notation sweep := (sor_apply n omega weight offdiag jacobi).

  (** What the sides of a cell contribute. *)
  Definition coupling (c : sor_cell) (y : nat -> vector) : vector := fun i =>
    if interior c then rsum (fun k => weight * times n (offdiag (cid c) k) (y (nth k (sides c) 0%nat)) i)%R (seq 0 (length (sides c))) else 0%R.

  Lemma visit_defect c y l : forall a i,
    fold_left (fun a k => if interior c then apply_side n weight offdiag (cid c) k (y (nth k (sides c) 0%nat)) a else a) l a i =
    (a i + if interior c then rsum (fun k => weight * times n (offdiag (cid c) k) (y (nth k (sides c) 0%nat)) i) l else 0)%R.
  Proof.
    induction l as [|k l IH]; intros a i; cbn [fold_left]; [destruct (interior c); unfold rsum; cbn; lra|].
    rewrite IH. destruct (interior c); [|lra]. rewrite rsum_cons. unfold apply_side.
    rewrite (fold_plus (fun j => offdiag (cid c) k i j * y (nth k (sides c) 0%nat) j)%R). unfold times at 2. lra.
  Qed.

  Lemma sweep_other cells z : forall y c, ~ In c (map cid cells) -> sweep cells z y c = y c.
  Proof.
    unfold sor_apply. induction cells as [|c0 cells IH]; intros y c N; cbn [fold_left]; auto. cbn in N.
    rewrite IH by tauto. unfold sor_visit. destruct (Nat.eqb_spec c (cid c0)) as [->|]; tauto.
  Qed.

  Lemma coupling_ext c y y' i : (forall k j, k < length (sides c) -> j < n -> y (nth k (sides c) 0%nat) j = y' (nth k (sides c) 0%nat) j) ->
    coupling c y i = coupling c y' i.
  Proof.
    intros E. unfold coupling. destruct (interior c); auto. apply rsum_ext. intros k K. apply in_seq in K. f_equal.
    apply times_ext. intros. apply E; lia.
  Qed.
  Lemma times_scale A a x i : times n A (fun j => a * x j)%R i = (a * times n A x i)%R.
  Proof. unfold times. rewrite <- rsum_scale. apply rsum_ext. intros. lra. Qed.

  Lemma sweep_app c1 c2 z y : sweep (c1 ++ c2) z y = sweep c2 z (sweep c1 z y).
  Proof. unfold sor_apply. now rewrite fold_left_app. Qed.

  Lemma sweep_cell before c after z y (D : mat) :
    NoDup (map cid (before ++ c :: after)) ->
    (forall a i, i < n -> times n D (jacobi (cid c) a (fun _ => 0%R)) i = a i) ->
    let y' := sweep (before ++ c :: after) z y in
    forall i, i < n -> times n D (fun j => y' (cid c) j - (1 - omega) * y (cid c) j)%R i =
      (omega * (z (cid c) i - coupling c (fun c' => if existsb (Nat.eqb c') (map cid before) then y' c' else y c') i))%R.
  Proof.
    intros N DJ y' i I. rewrite map_app in N. cbn in N. apply NoDup_remove in N as (N1 & N2).
    assert (NB : ~ In (cid c) (map cid before)) by (intros H; apply N2, in_or_app; auto).
    assert (NA : ~ In (cid c) (map cid after)) by (intros H; apply N2, in_or_app; auto).
    unfold y'. rewrite sweep_app. change (sweep (c :: after) z ?y) with (sweep after z (visit z y c)).
    set (yb := sweep before z y). rewrite (sweep_other after z (visit z yb c) (cid c) NA).
    assert (EB : yb (cid c) = y (cid c)) by (apply sweep_other; auto).
    unfold sor_visit at 1. rewrite Nat.eqb_refl, EB. cbv zeta.
    match goal with |- context [jacobi (cid c) ?a _] => set (a2 := a) end.
    rewrite (times_ext n D _ (fun j => (- omega) * jacobi (cid c) a2 (fun _ => 0%R) j)%R) by (intros; lra).
    rewrite times_scale, DJ by auto. unfold a2. rewrite visit_defect.
    match goal with |- context [coupling c ?f i] => set (Y := f) end.
    replace (if interior c then rsum (fun k => weight * times n (offdiag (cid c) k) (yb (nth k (sides c) 0%nat)) i)%R (seq 0 (length (sides c))) else 0%R)
      with (coupling c Y i); [lra|]. fold (coupling c yb i). apply coupling_ext.
    intros k j _ J. unfold Y. set (c' := nth k (sides c) 0).
    destruct (existsb (Nat.eqb c') (map cid before)) eqn:X.
    - apply existsb_exists in X as (x & H & E). apply Nat.eqb_eq in E. subst x.
      rewrite sweep_other.
      + unfold sor_visit. destruct (Nat.eqb_spec c' (cid c)) as [E|]; [rewrite E in H; contradiction|reflexivity].
      + intros H'. clear - N1 H H'. induction (map cid before) as [|b l IH]; [destruct H|]. cbn in N1. inversion N1; subst.
        destruct H as [->|H]; [apply H2, in_or_app; auto|auto].
    - unfold yb. rewrite sweep_other; auto. intros H. assert (existsb (Nat.eqb c') (map cid before) = true); [|congruence].
      apply existsb_exists. exists c'. split; auto. apply Nat.eqb_refl.
  Qed.
End sor.

(** ** Statistics *)
Lemma foldM_collect {A} (f : nat -> res A) (g : nat -> A) l : forall acc, (forall q, In q l -> f q = Ok (g q)) ->
  foldM (fun l q => let* x := f q in Ok (l ++ [x])) l acc = Ok (acc ++ map g l).
Proof.
  induction l as [|q l IH]; intros acc H; cbn [foldM map]; [now rewrite app_nil_r|].
  rewrite H by now left. cbn [bind]. rewrite IH by (intros; apply H; now right). now rewrite <- app_assoc.
Qed.
Lemma collect_ok {A} ranks (f : nat -> res A) l : collect ranks f = Ok l -> length l = ranks /\ forall q x, nth_error l q = Some x -> f q = Ok x.
Proof.
  unfold collect. revert l. induction ranks as [|r IH]; intros l H.
  - injection H as <-. split; auto. intros [|q] x E; discriminate.
  - rewrite seq_S in H.
    assert (FA : forall l1 acc l2, foldM (fun l q => let* x := f q in Ok (l ++ [x])) (l1 ++ l2) acc =
      let* m := foldM (fun l q => let* x := f q in Ok (l ++ [x])) l1 acc in foldM (fun l q => let* x := f q in Ok (l ++ [x])) l2 m).
    { induction l1 as [|a l1 IH1]; intros acc l2; cbn; auto. destruct (f a); cbn; auto. }
    rewrite FA in H. destruct (foldM _ (seq 0 r) []) as [m| |] eqn:E; cbn [bind] in H; try discriminate.
    cbn in H. destruct (f r) as [x| |] eqn:FX; cbn in H; try discriminate. injection H as <-.
    destruct (IH m eq_refl) as (L & G). rewrite app_length. cbn. split; [lia|]. intros q v NV.
    destruct (Nat.lt_ge_cases q r) as [Q|Q].
    + rewrite nth_error_app1 in NV by lia. auto.
    + rewrite nth_error_app2 in NV by lia. rewrite L in NV. destruct (q - r) as [|k] eqn:QR; [|destruct k; discriminate].
      cbn in NV. injection NV as <-. replace q with r by lia. exact FX.
Qed.

Lemma to_int_ok z x : to_int z = Ok x -> x = z /\ (int_min <= z <= int_max)%Z.
Proof. unfold to_int. destruct ((int_min <=? z) && (z <=? int_max))%Z eqn:E; [|discriminate]. intros H. injection H as <-. split; auto. lia. Qed.
Lemma zsum_cons x l : zsum (x :: l) = (x + zsum l)%Z. Proof. reflexivity. Qed.
Local Arguments zsum : simpl never.
Lemma accumulate_ok l : forall a s, foldM (fun s x => to_int (s + x)) l a = Ok s -> s = (a + zsum l)%Z.
Proof.
  induction l as [|x l IH]; intros a s H; cbn in *; [injection H as <-; unfold zsum; cbn; lia|].
  destruct (to_int (a + x)) as [y| |] eqn:E; try discriminate. apply to_int_ok in E as (-> & _). apply IH in H. rewrite ?zsum_cons. lia.
Qed.
Definition squares (l : list Z) : list Z := map (fun x => x * x)%Z l.
Lemma inner_ok l : forall a s, foldM (fun s x => let* p := to_int (x * x) in to_int (s + p)) l a = Ok s -> s = (a + zsum (squares l))%Z.
Proof.
  induction l as [|x l IH]; intros a s H; cbn in *; [injection H as <-; unfold zsum; cbn; lia|].
  destruct (to_int (x * x)) as [y| |] eqn:E; try discriminate. apply to_int_ok in E as (-> & _). cbn in H.
  destruct (to_int (a + x * x)) as [y| |] eqn:E; try discriminate. apply to_int_ok in E as (-> & _). apply IH in H. unfold squares in *. cbn [map]. rewrite ?zsum_cons. lia.
Qed.
Lemma zsum_nonneg l : (forall x, In x l -> 0 <= x)%Z -> (0 <= zsum l)%Z.
Proof. induction l as [|x l IH]; intros H; [unfold zsum; cbn; lia|]. rewrite zsum_cons. assert (X : (0 <= x)%Z) by (apply H; now left). assert (0 <= zsum l)%Z by (apply IH; intros; apply H; now right). lia. Qed.
Lemma accumulate_fits l : forall a, (0 <= a)%Z -> (forall x, In x l -> 0 <= x)%Z ->
  foldM (fun s x => to_int (s + x)) l a = if (a + zsum l <=? int_max)%Z || match l with [] => true | _ => false end then Ok (a + zsum l)%Z else UB.
Proof.
  induction l as [|x l IH]; intros a A H; cbn [foldM]; [rewrite orb_true_r; f_equal; unfold zsum; cbn; lia|]. rewrite zsum_cons.
  assert (X : (0 <= x)%Z) by (apply H; now left). assert (HL : forall x, In x l -> (0 <= x)%Z) by (intros; apply H; now right).
  pose proof (zsum_nonneg l HL) as ZN. rewrite orb_false_r. unfold to_int.
  destruct ((int_min <=? a + x) && (a + x <=? int_max))%Z eqn:E; cbn [bind].
  - rewrite IH by (auto; lia). destruct l as [|y l].
    + rewrite orb_true_r. change (zsum []) with 0%Z. destruct (Z.leb_spec (a + (x + 0)) int_max); [f_equal; lia|lia].
    + rewrite orb_false_r. rewrite Z.add_assoc. reflexivity.
  - destruct (Z.leb_spec (a + (x + zsum l)) int_max) as [L|L]; auto. exfalso. unfold int_min in *. lia.
Qed.
Lemma inner_fits l : (forall x, In x l -> 0 <= x)%Z -> forall a, (0 <= a)%Z ->
  foldM (fun s x => let* p := to_int (x * x) in to_int (s + p)) l a =
  if (a + zsum (squares l) <=? int_max)%Z || match l with [] => true | _ => false end then Ok (a + zsum (squares l))%Z else UB.
Proof.
  induction l as [|x l IH]; intros H a A; cbn [foldM squares map]; [rewrite orb_true_r; f_equal; unfold zsum; cbn; lia|]. rewrite zsum_cons.
  assert (HL : forall x, In x l -> (0 <= x)%Z) by (intros; apply H; now right).
  assert (X : (0 <= x * x)%Z) by nia.
  assert (ZN : (0 <= zsum (squares l))%Z).
  { apply zsum_nonneg. intros y Y. apply in_map_iff in Y as (w & <- & _). nia. }
  rewrite orb_false_r. fold (squares l). unfold to_int at 1.
  destruct ((int_min <=? x * x) && (x * x <=? int_max))%Z eqn:E1; cbn [bind].
  - unfold to_int at 1. destruct ((int_min <=? a + x * x) && (a + x * x <=? int_max))%Z eqn:E; cbn [bind].
    + rewrite IH by (auto; lia). destruct l as [|y l].
      * rewrite orb_true_r. change (zsum (squares [])) with 0%Z. destruct (Z.leb_spec (a + (x * x + 0)) int_max); [f_equal; lia|lia].
      * rewrite orb_false_r. rewrite Z.add_assoc. reflexivity.
    + destruct (Z.leb_spec (a + (x * x + zsum (squares l))) int_max) as [L|L]; auto. exfalso. unfold int_min in *. lia.
  - destruct (Z.leb_spec (a + (x * x + zsum (squares l))) int_max) as [L|L]; auto. exfalso. unfold int_min in *. lia.
Qed.

Lemma fold_zadd l : forall a, fold_left Z.add l a = (a + zsum l)%Z.
Proof. induction l as [|x l IH]; intros a; cbn; [unfold zsum; cbn; lia|]. rewrite IH, zsum_cons. lia. Qed.
Lemma zsum_app a b : zsum (a ++ b) = (zsum a + zsum b)%Z.
Proof. induction a as [|x a IH]; auto. cbn [app]. rewrite !zsum_cons, IH. lia. Qed.
Lemma zsum_rsum l : IZR (zsum l) = rsum IZR l.
Proof. induction l as [|x l IH]; [reflexivity|]. now rewrite rsum_cons, <- IH, zsum_cons, plus_IZR. Qed.

Lemma list_ext {A} (l : list A) : forall l', (forall i, nth_error l i = nth_error l' i) -> l = l'.
Proof.
  induction l as [|x l IH]; intros [|x' l'] H; auto; [specialize (H 0); discriminate|specialize (H 0); discriminate|].
  f_equal; [specialize (H 0); now injection H|]. apply IH. intros i. exact (H (S i)).
Qed.
Lemma collect_sum ranks (f : nat -> res Z) (g : nat -> list Z) l : collect ranks f = Ok l -> (forall q s, f q = Ok s -> s = zsum (g q)) ->
  comm_sum l = zsum (flat_map g (seq 0 ranks)).
Proof.
  intros C H. apply collect_ok in C as (L & N). unfold comm_sum. rewrite fold_zadd. cbn.
  assert (E : l = map (fun q => zsum (g q)) (seq 0 ranks)).
  { apply list_ext. intros q. destruct (Nat.lt_ge_cases q ranks) as [Q|Q].
    - destruct (nth_error l q) as [x|] eqn:X; [|apply nth_error_None in X; lia].
      assert (SQ : nth_error (seq 0 ranks) q = Some q).
      { rewrite nth_error_nth' with (d := 0) by now rewrite seq_length. now rewrite seq_nth. }
      rewrite (map_nth_error _ q _ SQ).
      f_equal. apply H. apply N. exact X.
    - rewrite (proj2 (nth_error_None l q)) by lia. symmetry. apply nth_error_None. rewrite map_length, seq_length. lia. }
  rewrite E. clear. induction (seq 0 ranks) as [|q s IH]; auto. cbn [map flat_map]. now rewrite zsum_cons, zsum_app, IH.
Qed.

Lemma collect_fail {A} ranks (f : nat -> res A) q : q < ranks -> f q = UB -> (forall s, f s <> Throw) -> collect ranks f = UB.
Proof.
  intros Q U T. unfold collect.
  assert (K : forall l acc, In q l -> foldM (fun l q => let* x := f q in Ok (l ++ [x])) l acc = UB).
  { induction l as [|x l IH]; intros acc I; [destruct I|]. cbn [foldM].
    destruct (Nat.eq_dec x q) as [->|N]; [now rewrite U|]. destruct I as [->|I]; [contradiction|].
    destruct (f x) eqn:E; cbn [bind]; auto. destruct (T x E). }
  apply K, in_seq. lia.
Qed.

Lemma size_spec ranks data : stat_size ranks data = length (all_values ranks data).
Proof.
  unfold stat_size, all_values.
  assert (K : forall l a, fold_left (fun s q => s + length (data q)) l a = a + length (flat_map data l)).
  { induction l as [|q l IH]; intros a; cbn; [lia|]. rewrite IH, app_length. lia. }
  apply K.
Qed.

Lemma best_fold (better : Z -> Z -> Z) (le : Z -> Z -> Prop) :
  (forall a, le a a) -> (forall a b c, le a b -> le b c -> le a c) ->
  (forall a b, (better a b = a \/ better a b = b) /\ le (better a b) a /\ le (better a b) b) ->
  forall l m, comm_best better l = Ok m -> In m l /\ forall x, In x l -> le m x.
Proof.
  intros RE TR BE [|x l] m H; [discriminate|]. cbn in H. injection H as <-.
  revert x. induction l as [|y l IH]; intros x; cbn [fold_left]; [split; [now left|]; intros z [<-|[]]; apply RE|].
  destruct (IH (better x y)) as (A & B). destruct (BE x y) as (C & D & E). split.
  - destruct A as [A|A]; [|right; now right]. rewrite <- A. destruct C as [->| ->]; cbn; auto.
  - intros z [<-|[<-|H]].
    + eapply TR; [apply B; now left|exact D].
    + eapply TR; [apply B; now left|exact E].
    + apply B. now right.
Qed.
Lemma stat_best_spec (better : Z -> Z -> Z) (le : Z -> Z -> Prop) ranks data :
  (forall a, le a a) -> (forall a b c, le a b -> le b c -> le a c) ->
  (forall a b, (better a b = a \/ better a b = b) /\ le (better a b) a /\ le (better a b) b) ->
  0 < ranks -> (forall q, q < ranks -> data q <> []) ->
  exists m, stat_best ranks data better = Ok m /\ In m (all_values ranks data) /\ forall x, In x (all_values ranks data) -> le m x.
Proof.
  intros RE TR BE R0 NE. unfold stat_best, collect.
  set (g := fun q => match data q with [] => 0%Z | x :: t => fold_left better t x end).
  assert (G : forall q, q < ranks -> comm_best better (data q) = Ok (g q)).
  { intros q Q. unfold g. specialize (NE q Q). destruct (data q); [contradiction|reflexivity]. }
  rewrite (foldM_collect _ g) by (intros q Q; apply in_seq in Q; apply G; lia). cbn [bind app].
  destruct (comm_best better (map g (seq 0 ranks))) as [m| |] eqn:E.
  - exists m. split; auto. apply (best_fold better le RE TR BE) in E as (A & B). split.
    + apply in_map_iff in A as (q & <- & Q). apply in_flat_map. exists q. split; auto.
      apply in_seq in Q. destruct (best_fold better le RE TR BE _ _ (G q ltac:(lia))). auto.
    + intros x X. apply in_flat_map in X as (q & Q & X). pose proof Q as Q'. apply in_seq in Q.
      destruct (best_fold better le RE TR BE _ _ (G q ltac:(lia))) as (_ & C). eapply TR; [|apply C; exact X].
      apply B. apply in_map. exact Q'.
  - unfold comm_best in E. destruct (map g (seq 0 ranks)); discriminate.
  - unfold comm_best in E. destruct (map g (seq 0 ranks)) as [|a l] eqn:X; [|discriminate].
    destruct ranks; [lia|discriminate].
Qed.

Lemma deviation_sum (l : list Z) : l <> [] ->
  rsum (fun x => (IZR x - mean l) * (IZR x - mean l))%R l = (rsum (fun x => IZR x * IZR x) l - rsum IZR l * rsum IZR l / INR (length l))%R.
Proof.
  intros NE. assert (N : INR (length l) <> 0%R) by (apply not_0_INR; destruct l; [contradiction|discriminate]).
  set (m := mean l).
  assert (K : forall k, rsum (fun x => (IZR x - m) * (IZR x - m))%R k = (rsum (fun x => IZR x * IZR x) k - 2 * m * rsum IZR k + INR (length k) * (m * m))%R).
  { induction k as [|x k IH]; [unfold rsum; cbn; lra|]. rewrite !rsum_cons, IH. cbn [length]. rewrite S_INR. lra. }
  rewrite K. unfold m, mean. field. exact N.
Qed.
Lemma zsum_squares l : IZR (zsum (squares l)) = rsum (fun x => IZR x * IZR x)%R l.
Proof. induction l as [|x l IH]; [reflexivity|]. unfold squares in *. cbn [map]. now rewrite rsum_cons, <- IH, zsum_cons, plus_IZR, mult_IZR. Qed.
Lemma squares_flat (data : nat -> list Z) l : flat_map (fun q => squares (data q)) l = squares (flat_map data l).
Proof. induction l as [|q l IH]; auto. cbn. rewrite IH. unfold squares. now rewrite map_app. Qed.
