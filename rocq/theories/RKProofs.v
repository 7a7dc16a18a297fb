(** Proofs about the time stepping tables. *)
From Verif Require Import RKModel RKSpec.
Local Open Scope R_scope.

Lemma rsum_ext n f g : (forall i, (i < n)%nat -> f i = g i) -> rsum n f = rsum n g.
Proof. induction n as [|n IH]; intros H; cbn; auto. rewrite IH, (H n) by auto with arith. auto. Qed.
Lemma rsum_plus n f g : rsum n (fun i => f i + g i) = rsum n f + rsum n g.
Proof. induction n as [|n IH]; cbn; [lra|]. rewrite IH; lra. Qed.
Lemma rsum_scal n x f : rsum n (fun i => x * f i) = x * rsum n f.
Proof. induction n as [|n IH]; cbn; [lra|]. rewrite IH; lra. Qed.
Lemma rsum_zero n f : (forall i, (i < n)%nat -> f i = 0) -> rsum n f = 0.
Proof. induction n as [|n IH]; intros H; cbn; auto. rewrite IH, (H n) by auto with arith. lra. Qed.
Lemma rsum_swap n m f : rsum n (fun i => rsum m (fun j => f i j)) = rsum m (fun j => rsum n (fun i => f i j)).
Proof.
  induction n as [|n IH]; cbn.
  - symmetry. now apply rsum_zero.
  - rewrite IH. symmetry. apply rsum_plus.
Qed.
Lemma rsum_single n k f : (k < n)%nat -> (forall i, (i < n)%nat -> i <> k -> f i = 0) -> rsum n f = f k.
Proof.
  induction n as [|n IH]; intros K H; [lia|]. cbn. destruct (Nat.eq_dec k n) as [->|E].
  - rewrite rsum_zero; [lra|]. intros i Hi. apply H; lia.
  - rewrite IH; [rewrite (H n) by lia; lra|lia|]. intros i Hi. apply H; lia.
Qed.

(** A table and a Butcher tableau describe the same method when sum_i a(r,i) al(i,j) = b(r,j). *)
Definition reduces (T : tab) (al : nat -> nat -> R) : Prop :=
  (forall j, (j <= stages T)%nat -> al O j = 0) /\
  forall r j, (1 <= r <= stages T)%nat -> (j <= stages T)%nat ->
    rsum (S (stages T)) (fun i => a T r i * al i j) = b T r j.

Lemma reduces_equivalent T al : causal T -> unit_diagonal T -> zero_row_sums T -> reduces T al -> equivalent_to T al.
Proof.
  intros C U Z [R0 R] K f t h u. set (s := stages T) in *.
  set (F j := f (t + d T j * h) (u j)).
  set (e r k := u r k - u O k - h * rsum (S s) (fun j => al r j * F j k)).
  assert (key : forall r k, (1 <= r <= s)%nat ->
    rsum (S s) (fun i => a T r i * u i k - h * b T r i * F i k) = rsum (S s) (fun i => a T r i * e i k)).
  { intros r k Hr. unfold e.
    rewrite (rsum_ext _ (fun i => a T r i * (u i k - u O k - h * rsum (S s) (fun j => al i j * F j k)))
      (fun i => a T r i * u i k + ((- u O k) * a T r i + (- h) * rsum (S s) (fun j => a T r i * al i j * F j k)))).
    2: { intros i Hi.
         assert (E : rsum (S s) (fun j => a T r i * al i j * F j k) = a T r i * rsum (S s) (fun j => al i j * F j k)).
         { rewrite <- rsum_scal. apply rsum_ext. intros; lra. }
         rewrite E. ring. }
    rewrite rsum_plus, rsum_plus, !rsum_scal, Z, rsum_swap by auto.
    rewrite (rsum_ext _ (fun j => rsum (S s) (fun i => a T r i * al i j * F j k)) (fun j => b T r j * F j k)).
    2: { intros j Hj. rewrite <- (R r j) by lia. rewrite Rmult_comm, <- rsum_scal. apply rsum_ext. intros; ring. }
    rewrite (rsum_ext _ (fun i => a T r i * u i k - h * b T r i * F i k)
      (fun i => a T r i * u i k + (- h) * (b T r i * F i k))) by (intros; ring).
    rewrite rsum_plus, rsum_scal. ring. }
  assert (e0 : forall k, e O k = 0).
  { intros k. unfold e. rewrite rsum_zero; [ring|]. intros j Hj. rewrite R0 by lia. ring. }
  split.
  - intros H r Hr k. enough (E : e r k = 0) by (unfold e in E; unfold F in E; lra).
    revert Hr. induction r as [r IH] using (well_founded_induction Wf_nat.lt_wf). intros Hr.
    specialize (H r Hr k). change (rsum (S s) (fun i => a T r i * u i k - h * b T r i * F i k) = 0) in H.
    rewrite key in H by auto. rewrite (rsum_single _ r) in H.
    + rewrite U in H by auto. lra.
    + lia.
    + intros i Hi Hne. destruct (Nat.lt_ge_cases r i) as [L|L].
      * destruct (C r i Hr L) as [-> _]. ring.
      * destruct i as [|i]; [rewrite e0; ring|]. rewrite IH by lia. ring.
  - intros H r Hr k. change (rsum (S s) (fun i => a T r i * u i k - h * b T r i * F i k) = 0).
    rewrite key by auto. apply rsum_zero. intros i Hi. destruct i as [|i]; [rewrite e0; ring|].
    assert (E : e (S i) k = 0); [|rewrite E; ring].
    unfold e. rewrite (H (S i)) by lia. fold F. unfold F. ring.
Qed.

(** Exactness on polynomials from the quadrature conditions. *)
Lemma poly_exact T al p : equivalent_to T al -> has_order (stages T) al (d T) 0 p -> (1 <= stages T)%nat ->
  exact_on_polynomials p T.
Proof.
  intros EQ (RS & O1 & O2 & O3 & O4 & Hp) Hs q t h u Hq Hu H0.
  apply EQ in Hu. specialize (Hu (stages T)). rewrite Hu by lia. rewrite H0. clear Hu H0 EQ.
  set (s := stages T) in *. set (w := al s). set (c := d T).
  assert (N0 : forall x y, near 0 x y -> x = y).
  { intros x y N. unfold near in N. destruct (Req_dec (x - y) 0) as [E|E]; [lra|].
    pose proof (Rabs_pos_lt _ E). lra. }
  assert (Q0 : rsum (S s) w = 1) by (apply N0; exact O1).
  assert (Q1 : (2 <= p)%nat -> rsum (S s) (fun i => w i * c i) = 1/2) by (intros; now apply N0, O2).
  assert (Q2 : (3 <= p)%nat -> rsum (S s) (fun i => w i * c i ^ 2) = 1/3) by (intros; now apply N0, O3).
  assert (Q3 : (4 <= p)%nat -> rsum (S s) (fun i => w i * c i ^ 3) = 1/4) by (intros; now apply N0, O4).
  clear O1 O2 O3 O4.
  assert (S4 : forall k0 k1 k2 k3, rsum (S s) (fun j => k0 * w j + (k1 * (w j * c j) + (k2 * (w j * c j ^ 2) + k3 * (w j * c j ^ 3)))) =
     k0 * rsum (S s) w + (k1 * rsum (S s) (fun j => w j * c j) + (k2 * rsum (S s) (fun j => w j * c j ^ 2) + k3 * rsum (S s) (fun j => w j * c j ^ 3)))).
  { intros. now rewrite !rsum_plus, !rsum_scal. }
  destruct q as [|c0 [|c1 [|c2 [|c3 [|c4 [|c5 q]]]]]]; cbn [length] in Hq; try lia;
    cbn [poly dpoly dpoly_from fold_right].
  - rewrite rsum_zero; [ring|intros; ring].
  - rewrite rsum_zero; [ring|intros; ring].
  - rewrite (rsum_ext _ _ (fun j => c1 * w j + (0 * (w j * c j) + (0 * (w j * c j ^ 2) + 0 * (w j * c j ^ 3)))))
      by (intros; unfold w; cbn [INR]; ring).
    rewrite S4, Q0. cbn [INR]. field.
  - rewrite (rsum_ext _ _ (fun j => (c1 + 2 * c2 * t) * w j + (2 * c2 * h * (w j * c j) + (0 * (w j * c j ^ 2) + 0 * (w j * c j ^ 3)))))
      by (intros; unfold w, c; cbn [INR]; ring).
    rewrite S4, Q0, Q1 by lia. field.
  - rewrite (rsum_ext _ _ (fun j => (c1 + 2 * c2 * t + 3 * c3 * t ^ 2) * w j + ((2 * c2 * h + 6 * c3 * t * h) * (w j * c j) + (3 * c3 * h ^ 2 * (w j * c j ^ 2) + 0 * (w j * c j ^ 3)))))
      by (intros; unfold w, c; cbn [INR]; ring).
    rewrite S4, Q0, Q1, Q2 by lia. field.
  - rewrite (rsum_ext _ _ (fun j => (c1 + 2 * c2 * t + 3 * c3 * t ^ 2 + 4 * c4 * t ^ 3) * w j + ((2 * c2 * h + 6 * c3 * t * h + 12 * c4 * t ^ 2 * h) * (w j * c j) + ((3 * c3 * h ^ 2 + 12 * c4 * t * h ^ 2) * (w j * c j ^ 2) + 4 * c4 * h ^ 3 * (w j * c j ^ 3)))))
      by (intros; unfold w, c; cbn [INR]; ring).
    rewrite S4, Q0, Q1, Q2, Q3 by lia. field.
Qed.

(** ** The Butcher tableaux of the shipped schemes *)

Definition butcher (rows : list (list R)) (r j : nat) : R := nth j (nth r rows []) 0.

Definition al_theta (th : R) := butcher [[]; [1 - th; th]].
Definition al_heun := butcher [[]; [1]; [1/2; 1/2]].
Definition al_shu3 := butcher [[]; [1]; [1/4; 1/4]; [1/6; 1/6; 2/3]].
Definition al_rk4 := butcher [[]; [1/2]; [0; 1/2]; [0; 0; 1]; [1/6; 1/3; 1/3; 1/6]].
Definition al_of_B (T : tab) := butcher ([] :: B T).
Definition al_frac (th : R) :=
  let al := 2 * th in let be := 1 - al in let thp := 1 - 2 * th in
  butcher [[]; [be * th; al * th]; [be * th; al * th + al * thp; al * th];
           [be * th; al * th + al * thp; al * th + be * th; al * th]].

Lemma near_eq eps x y : 0 <= eps -> x = y -> near eps x y.
Proof. intros E ->. unfold near. rewrite Rminus_diag_eq, Rabs_R0; auto. Qed.

(** Bounded case analysis on a stage index. *)
Ltac stage r := destruct r as [|[|[|[|[|r]]]]]; try (exfalso; lia).

Lemma causal_lists T : table_shape T ->
  (forall r i, (1 <= r <= stages T)%nat -> (r < i <= stages T)%nat -> a T r i = 0 /\ b T r i = 0) -> causal T.
Proof.
  intros (LD & LA & LB & FA & FB) H r i Hr Hi.
  destruct (Nat.le_gt_cases i (stages T)) as [L|L]; [apply H; lia|].
  rewrite Forall_forall in FA, FB.
  split; unfold a, b; apply nth_overflow.
  - rewrite (FA (nth (r - 1) (A T) [])); [lia|]. apply nth_In. lia.
  - rewrite (FB (nth (r - 1) (B T) [])); [lia|]. apply nth_In. lia.
Qed.

Ltac shape := unfold table_shape; cbn; repeat split; repeat constructor.
Ltac structure tabname :=
  repeat match goal with
  | |- causal _ => apply causal_lists; [shape|intros r i Hr Hi; cbn in Hr, Hi; stage r; stage i; unfold a, b; cbn; split; lra]
  | |- unit_diagonal _ => intros r Hr; cbn in Hr; stage r; unfold a; cbn; lra
  | |- zero_row_sums _ => intros r Hr; cbn in Hr; stage r; unfold a; cbn; lra
  end.

Definition well_structured (T : tab) : Prop :=
  table_shape T /\ causal T /\ unit_diagonal T /\ zero_row_sums T.

Lemma theta_structured th : well_structured (one_step_theta th).
Proof. unfold well_structured. split; [shape|]. split; [structure 0|]. split; structure 0. Qed.
Lemma heun_structured : well_structured heun.
Proof. unfold well_structured. split; [shape|]. split; [structure 0|]. split; structure 0. Qed.
Lemma shu3_structured : well_structured shu3.
Proof. unfold well_structured. split; [shape|]. split; [structure 0|]. split; structure 0. Qed.
Lemma rk4_structured : well_structured rk4.
Proof. unfold well_structured. split; [shape|]. split; [structure 0|]. split; structure 0. Qed.
Lemma alexander2_structured : well_structured alexander2.
Proof. unfold well_structured. split; [shape|]. split; [structure 0|]. split; structure 0. Qed.
Lemma fractional_step_structured : well_structured fractional_step.
Proof. unfold well_structured. split; [shape|]. split; [structure 0|]. split; structure 0. Qed.
Lemma alexander3_structured al : well_structured (alexander3_of al).
Proof. unfold well_structured. split; [shape|]. split; [structure 0|]. split; structure 0. Qed.

Lemma structured_equivalent T al : well_structured T -> reduces T al -> equivalent_to T al.
Proof. intros (_ & C & U & Z) R. now apply reduces_equivalent. Qed.

Lemma sqrt2_sq : sqrt 2 * sqrt 2 = 2.
Proof. apply sqrt_sqrt. lra. Qed.

Ltac reduce :=
  split; [intros j Hj; cbn in Hj; stage j; reflexivity
         |intros r j Hr Hj; cbn in Hr, Hj; stage r; stage j; unfold a, b; cbn; try lra].

Lemma theta_reduces th : reduces (one_step_theta th) (al_theta th).
Proof. reduce. Qed.
Lemma heun_reduces : reduces heun al_heun.
Proof. reduce. Qed.
Lemma shu3_reduces : reduces shu3 al_shu3.
Proof. reduce. Qed.
Lemma rk4_reduces : reduces rk4 al_rk4.
Proof. reduce. Qed.
Lemma alexander2_reduces : reduces alexander2 (al_of_B alexander2).
Proof. reduce. Qed.
Lemma alexander3_reduces al : reduces (alexander3_of al) (al_of_B (alexander3_of al)).
Proof. reduce. Qed.
Lemma fractional_step_reduces : reduces fractional_step (al_frac (1 - 0.5 * sqrt 2)).
Proof. pose proof sqrt2_sq. reduce; nra. Qed.
