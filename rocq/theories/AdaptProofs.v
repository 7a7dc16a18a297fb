(** Error fractions, marking and the time step strategy. *)
From Verif Require Import AdaptModel AdaptSpec CommonFacts.
From Coq Require Import Lra.
Local Open Scope R_scope.

Lemma leb_iff a b : leb a b = true <-> a <= b.
Proof. unfold leb. destruct (Rle_dec a b); split; congruence || tauto || auto. Qed.
Lemma ltb_iff a b : ltb a b = true <-> a < b.
Proof. unfold ltb. destruct (Rlt_dec a b); split; congruence || tauto || auto. Qed.
Lemma ltb_false a b : ltb a b = false <-> b <= a.
Proof. unfold ltb. destruct (Rlt_dec a b); split; intros; try congruence; lra. Qed.

Lemma sum_alpha_above w x eta : sum_alpha w x eta = above w eta x.
Proof.
  unfold sum_alpha. replace (above w eta x) with (0 + above w eta x) by ring. generalize 0. induction x as [|e x IH]; intros s; cbn; [ring|].
  rewrite IH. unfold leb. destruct (Rle_dec eta e); ring.
Qed.
Lemma sum_beta_below w x eta : sum_beta w x eta = below w eta x.
Proof.
  unfold sum_beta. replace (below w eta x) with (0 + below w eta x) by ring. generalize 0. induction x as [|e x IH]; intros s; cbn; [ring|].
  rewrite IH. unfold ltb. destruct (Rlt_dec e eta); ring.
Qed.
Definition nonneg (w : R -> R) (x : list R) : Prop := forall e, In e x -> 0 <= w e.
Lemma above_mono w x a b : nonneg w x -> a <= b -> above w b x <= above w a x.
Proof.
  intros H L. induction x as [|e x IH]; cbn; [lra|]. pose proof (H e (or_introl eq_refl)).
  assert (nonneg w x) by (intros q I; apply H; right; exact I). specialize (IH H1). destruct (Rle_dec b e), (Rle_dec a e); lra.
Qed.
Lemma below_mono w x a b : nonneg w x -> a <= b -> below w a x <= below w b x.
Proof.
  intros H L. induction x as [|e x IH]; cbn; [lra|]. pose proof (H e (or_introl eq_refl)).
  assert (nonneg w x) by (intros q I; apply H; right; exact I). specialize (IH H1). destruct (Rlt_dec e a), (Rlt_dec e b); lra.
Qed.
Lemma total_nonneg w x : nonneg w x -> 0 <= total_of w x.
Proof.
  intros H. induction x as [|e x IH]; cbn; [lra|]. pose proof (H e (or_introl eq_refl)).
  assert (nonneg w x) by (intros q I; apply H; right; exact I). specialize (IH H1). lra.
Qed.
Lemma above_none w x eta : (forall e, In e x -> e < eta) -> above w eta x = 0.
Proof.
  intros H. induction x as [|e x IH]; cbn; [reflexivity|]. pose proof (H e (or_introl eq_refl)).
  rewrite IH by (intros; apply H; right; assumption). destruct (Rle_dec eta e); lra.
Qed.
Lemma below_none w x eta : (forall e, In e x -> eta <= e) -> below w eta x = 0.
Proof.
  intros H. induction x as [|e x IH]; cbn; [reflexivity|]. pose proof (H e (or_introl eq_refl)).
  rewrite IH by (intros; apply H; right; assumption). destruct (Rlt_dec e eta); lra.
Qed.

Lemma within_iff frac s T : within frac s T = true <-> T <> 0 /\ Rabs (frac - s / T) <= 1/100.
Proof. unfold within. destruct (Req_EM_T T 0); [split; [discriminate|tauto]|]. rewrite leb_iff. tauto. Qed.

(** ** The bisection *)
Lemma bisect_S n w x total alpha beta al ar bl br ea0 eb0 : bisect (S n) w x total alpha beta al ar bl br ea0 eb0 =
  let ea := 1/2 * (al + ar) in
  let eb := 1/2 * (bl + br) in
  let sa := above w ea x in
  let sb := below w eb x in
  if within alpha sa total && within beta sb total then (ea, eb)
  else bisect n w x total alpha beta
         (if ltb (alpha * total) sa then ea else al) (if ltb (alpha * total) sa then ar else ea)
         (if ltb (beta * total) sb then bl else eb) (if ltb (beta * total) sb then eb else br) ea eb.
Proof. cbn zeta. rewrite <- sum_alpha_above, <- sum_beta_below. reflexivity. Qed.
Section Bisect.
  Variables (w : R -> R) (x : list R) (T alpha beta m : R).
  Let F eta := above w eta x.
  Let G eta := below w eta x.
  Definition inv (al ar bl br h : R) : Prop :=
    ar - al = h /\ br - bl = h /\ 0 <= al /\ al <= ar /\ ar <= m /\ 0 <= bl /\ bl <= br /\ br <= m /\
    (al = 0 \/ F al > alpha * T) /\ (ar = m \/ F ar <= alpha * T) /\
    (bl = 0 \/ G bl <= beta * T) /\ (br = m \/ G br > beta * T).
  Lemma bisect_spec n : forall al ar bl br ea0 eb0 h ea eb, inv al ar bl br h ->
    bisect (S n) w x T alpha beta al ar bl br ea0 eb0 = (ea, eb) ->
    (T <> 0 /\ Rabs (alpha - F ea / T) <= 1/100 /\ Rabs (beta - G eb / T) <= 1/100 /\ 0 <= ea <= m /\ 0 <= eb <= m) \/
    exists al' ar' bl' br', inv al' ar' bl' br' (h / 2 ^ n) /\ ea = 1/2 * (al' + ar') /\ eb = 1/2 * (bl' + br').
  Proof.
    induction n as [|n IH]; intros al ar bl br ea0 eb0 h ea eb I B.
    - rewrite bisect_S in B. assert (E : (1/2 * (al + ar), 1/2 * (bl + br)) = (ea, eb)).
      { cbn [bisect] in B. cbn zeta in B. match type of B with (if ?b then _ else _) = _ => destruct b end; exact B. }
      injection E as <- <-. right. exists al, ar, bl, br. cbn [pow]. replace (h / 1) with h by field. auto.
    - rewrite bisect_S in B. cbn zeta in B. fold (F (1/2 * (al + ar))) in B. fold (G (1/2 * (bl + br))) in B.
      destruct (within alpha (F (1/2 * (al + ar))) T && within beta (G (1/2 * (bl + br))) T) eqn:W.
      + injection B as <- <-. apply andb_prop in W. destruct W as (W1 & W2). apply within_iff in W1, W2. left.
        destruct I as (I1 & I2 & I3 & I4 & I5 & I6 & I7 & I8 & _). repeat split; try tauto; lra.
      + apply IH with (h := h / 2) in B.
        * destruct B as [B|(a1 & a2 & b1 & b2 & I' & E)]; [left; exact B|]. right. exists a1, a2, b1, b2. split; [|exact E].
          replace (h / 2 ^ S n) with (h / 2 / 2 ^ n); [exact I'|]. cbn [pow]. field. apply pow_nonzero. lra.
        * destruct I as (I1 & I2 & I3 & I4 & I5 & I6 & I7 & I8 & I9 & I10 & I11 & I12). unfold inv.
          destruct (ltb (alpha * T) (F (1/2 * (al + ar)))) eqn:C1; [apply ltb_iff in C1|apply ltb_false in C1];
            (destruct (ltb (beta * T) (G (1/2 * (bl + br)))) eqn:C2; [apply ltb_iff in C2|apply ltb_false in C2]);
            repeat split; try lra; try tauto; try (right; lra).
  Qed.
End Bisect.

Lemma infinity_norm_max x : (forall e, In e x -> 0 <= e) -> is_max (infinity_norm x) x.
Proof.
  intros H. split; [|split].
  - intros e I. induction x as [|y x IH]; [destruct I|]. cbn [infinity_norm fold_right]. destruct I as [->|I].
    + eapply Rle_trans; [apply RRle_abs|]. apply Rmax_l.
    + eapply Rle_trans; [apply IH; [intros; apply H; right; assumption|exact I]|]. apply Rmax_r.
  - intros ->. reflexivity.
  - intros N. induction x as [|y x IH]; [congruence|]. cbn [infinity_norm fold_right]. rewrite (Rabs_pos_eq y) by (apply H; left; reflexivity).
    destruct x as [|z x].
    + cbn. rewrite Rmax_left by (apply H; left; reflexivity). auto.
    + change (fold_right (fun e s => Rmax (Rabs e) s) 0 (z :: x)) with (infinity_norm (z :: x)).
      apply Rmax_case; [left; reflexivity|]. right. apply IH; [|discriminate]. intros; apply H; right; assumption.
Qed.
Lemma infinity_norm_nonneg x : 0 <= infinity_norm x.
Proof. induction x as [|y x IH]; cbn; [lra|]. eapply Rle_trans; [apply Rabs_pos|]. apply Rmax_l. Qed.

Lemma fraction_spec w x alpha beta ea0 eb0 ea eb : (forall e, In e x -> 0 <= e) -> nonneg w x -> 0 <= alpha -> 0 <= beta ->
  bisect 20 w x (total_of w x) alpha beta 0 (infinity_norm x) 0 (infinity_norm x) ea0 eb0 = (ea, eb) ->
  0 <= ea <= infinity_norm x /\ 0 <= eb <= infinity_norm x /\
  (meets w x alpha beta ea eb \/ brackets w x (infinity_norm x) alpha beta (infinity_norm x / 2 ^ 20) ea eb).
Proof.
  intros Hx Hw A0 B0 B. set (m := infinity_norm x) in *. set (T := total_of w x) in *. pose proof (infinity_norm_nonneg x) as M. fold m in M.
  destruct (infinity_norm_max x Hx) as (M1 & _ & _). fold m in M1. pose proof (total_nonneg w x Hw) as T0. fold T in T0.
  assert (I : inv w x T alpha beta m 0 m 0 m m) by (unfold inv; repeat split; lra || auto).
  destruct (bisect_spec w x T alpha beta m 19 _ _ _ _ _ _ _ _ _ I B) as [(X1 & X2 & X3 & X4 & X5)|(al & ar & bl & br & I' & E1 & E2)].
  - split; [exact X4|]. split; [exact X5|]. left. unfold meets. auto.
  - set (h := m / 2 ^ 20). assert (H2 : m / 2 ^ 19 = 2 * h).
    { unfold h. change (2 ^ 20) with (2 * 2 ^ 19). assert (2 ^ 19 <> 0) by (apply pow_nonzero; lra). field; lra. }
    rewrite H2 in I'. clear H2. destruct I' as (I1 & I2 & I3 & I4 & I5 & I6 & I7 & I8 & I9 & I10 & I11 & I12).
    split; [lra|]. split; [lra|]. right. unfold brackets. fold T. repeat split.
    + intros eta (P1 & P2). assert (eta <= al) by lra. destruct I9 as [I9|I9]; [lra|]. pose proof (above_mono w x eta al Hw H). lra.
    + intros eta P1 P2. assert (ar <= eta) by lra. destruct I10 as [I10|I10].
      * rewrite above_none; [nra|]. intros e Ie. specialize (M1 e Ie). lra.
      * pose proof (above_mono w x ar eta Hw H). lra.
    + intros eta P1. assert (eta <= bl) by lra. destruct I11 as [I11|I11].
      * rewrite below_none; [nra|]. intros e Ie. specialize (Hx e Ie). lra.
      * pose proof (below_mono w x eta bl Hw H). lra.
    + intros eta (P1 & P2). assert (br <= eta) by lra. destruct I12 as [I12|I12]; [lra|].
      pose proof (below_mono w x br eta Hw H). lra.
Qed.
Lemma one_norm_total x : one_norm x = total_of Rabs x.
Proof. induction x as [|e x IH]; cbn; [reflexivity|]. unfold one_norm in IH. rewrite IH. reflexivity. Qed.
Lemma one_norm_pos x : (forall e, In e x -> 0 <= e) -> one_norm x = total_of (fun e => e) x.
Proof.
  intros H. rewrite one_norm_total. induction x as [|e x IH]; cbn; [reflexivity|].
  rewrite IH, Rabs_pos_eq by (try (apply H; left; reflexivity); intros; apply H; right; assumption). reflexivity.
Qed.
Lemma length_total x : INR (length x) = total_of (fun _ => 1) x.
Proof. induction x as [|e x IH]; [reflexivity|]. cbn [length total_of]. rewrite S_INR, IH. ring. Qed.

(** ** A vector whose dominating elements are coarsened *)
Definition dominated : list R := 1 :: repeat (1/2) 18.
Lemma dominated_above eta : 1/2 < eta <= 1 -> above (fun e => e) eta dominated = 1.
Proof.
  intros H. unfold dominated. cbn [above repeat].
  destruct (Rle_dec eta 1); [|lra]. destruct (Rle_dec eta (1/2)); [lra|]. ring.
Qed.
Lemma dominated_below eta : 1/2 < eta <= 1 -> below (fun e => e) eta dominated = 9.
Proof.
  intros H. unfold dominated. cbn [below repeat].
  destruct (Rlt_dec 1 eta); [lra|]. destruct (Rlt_dec (1/2) eta); [|lra]. field.
Qed.
Lemma dominated_total : one_norm dominated = 10.
Proof. unfold dominated. cbn [one_norm fold_right repeat]. rewrite !Rabs_pos_eq by lra. field. Qed.
Lemma dominated_max : infinity_norm dominated = 1.
Proof.
  unfold dominated. cbn [infinity_norm fold_right repeat]. rewrite !(Rabs_pos_eq (1/2)), Rabs_pos_eq by lra.
  assert (E : Rmax (1/2) (Rmax (1/2) 0) = Rmax (1/2) 0) by (rewrite (Rmax_left (1/2) 0) by lra; apply Rmax_left; lra).
  rewrite !E. rewrite !(Rmax_left (1/2) 0) by lra. apply Rmax_left. lra.
Qed.
Lemma dominated_steps n : forall d ea eb, 0 < d <= 1/2 ->
  bisect n (fun e => e) dominated 10 (7/10) (2/10) (1/2) (1/2 + d) (1/2) (1/2 + d) ea eb =
  match n with O => (ea, eb) | _ => (1/2 + d / 2 ^ n, 1/2 + d / 2 ^ n) end.
Proof.
  induction n as [|n IH]; intros d ea eb D; [reflexivity|]. rewrite bisect_S. cbn zeta.
  replace (1/2 * (1/2 + (1/2 + d))) with (1/2 + d / 2) by field. rewrite dominated_above, dominated_below by lra.
  assert (W : within (7/10) 1 10 = false).
  { destruct (within (7/10) 1 10) eqn:W; [|reflexivity]. apply within_iff in W. destruct W as (_ & W). replace (7/10 - 1/10) with (6/10) in W by field.
    rewrite Rabs_pos_eq in W by lra. lra. }
  rewrite W. cbn [andb]. replace (ltb (7/10 * 10) 1) with false by (symmetry; apply ltb_false; lra).
  replace (ltb (2/10 * 10) 9) with true by (symmetry; apply ltb_iff; lra). rewrite (IH (d / 2)) by lra.
  destruct n as [|n]; [cbn [pow]; f_equal; field|]. cbn [pow]. f_equal; field; apply pow_nonzero; lra.
Qed.
Lemma dominated_fraction ea0 eb0 : error_fraction dominated (7/10) (2/10) ea0 eb0 = (1/2 + 1/2 / 2 ^ 19, 1/2 + 1/2 / 2 ^ 19).
Proof.
  unfold error_fraction. rewrite dominated_total, dominated_max. rewrite bisect_S. cbn zeta.
  replace (1/2 * (0 + 1)) with (1/2) by field.
  assert (A : above (fun e => e) (1/2) dominated = 10).
  { unfold dominated. cbn [above repeat]. destruct (Rle_dec (1/2) 1); [|lra]. destruct (Rle_dec (1/2) (1/2)); [|lra]. field. }
  assert (Bz : below (fun e => e) (1/2) dominated = 0).
  { unfold dominated. cbn [below repeat]. destruct (Rlt_dec 1 (1/2)); [lra|]. destruct (Rlt_dec (1/2) (1/2)); [lra|]. ring. }
  rewrite A, Bz.
  assert (W : within (7/10) 10 10 = false).
  { destruct (within (7/10) 10 10) eqn:W; [|reflexivity]. apply within_iff in W. destruct W as (_ & W). replace (7/10 - 10/10) with (- (3/10)) in W by field.
    rewrite Rabs_Ropp, Rabs_pos_eq in W by lra. lra. }
  rewrite W. cbn [andb]. replace (ltb (7/10 * 10) 10) with true by (symmetry; apply ltb_iff; lra).
  replace (ltb (2/10 * 10) 0) with false by (symmetry; apply ltb_false; lra). 
  pose proof (dominated_steps 19 (1/2) (1/2) (1/2)) as S. replace (1/2 + 1/2) with 1 in S by field. apply S. lra.
Qed.

(** ** Marks *)
Lemma mark_from_in f : forall cs k q, In q (mark_from f k cs) <-> exists i c, nth_error cs i = Some c /\ In q (f (k + i)%nat c).
Proof.
  induction cs as [|c cs IH]; intros k q; cbn [mark_from].
  - split; [intros []|intros (i & c & N & _); destruct i; discriminate].
  - rewrite in_app_iff, IH. split.
    + intros [H|(i & c' & N & H)]; [exists 0%nat, c; rewrite Nat.add_0_r; auto|]. exists (S i), c'. replace (k + S i)%nat with (S k + i)%nat by lia. auto.
    + intros ([|i] & c' & N & H); cbn in N; [injection N as ->; rewrite Nat.add_0_r in H; auto|]. right. exists i, c'. replace (S k + i)%nat with (k + S i)%nat by lia. auto.
Qed.
Lemma mark_grid_iff cs refine coarsen minl maxl a i : In (a, i) (mark_grid cs refine coarsen minl maxl) <->
  exists c, nth_error cs i = Some c /\
    ((a = 1%Z /\ refine <= err c /\ (forall m, maxl = Some m -> (level c < m)%Z)) \/
     (a = (-1)%Z /\ err c <= coarsen /\ (minl < level c)%Z)).
Proof.
  unfold mark_grid. rewrite mark_from_in. cbn [Nat.add]. split.
  - intros (k & c & N & H). unfold mark_cell in H. apply in_app_or in H. destruct H as [H|H].
    + destruct (leb refine (err c) && _) eqn:B; [|destruct H]. destruct H as [H|[]]. injection H as <- <-. apply andb_prop in B. destruct B as (B1 & B2).
      apply leb_iff in B1. exists c. split; [exact N|]. left. split; [reflexivity|]. split; [exact B1|]. intros m ->. lia.
    + destruct (leb (err c) coarsen && _) eqn:B; [|destruct H]. destruct H as [H|[]]. injection H as <- <-. apply andb_prop in B. destruct B as (B1 & B2).
      apply leb_iff in B1. exists c. split; [exact N|]. right. split; [reflexivity|]. split; [exact B1|]. lia.
  - intros (c & N & [(-> & H1 & H2)|(-> & H1 & H2)]); exists i, c; (split; [exact N|]); unfold mark_cell; apply in_or_app.
    + left. apply leb_iff in H1. rewrite H1. destruct maxl as [m|]; [|left; reflexivity]. specialize (H2 m eq_refl). apply Z.ltb_lt in H2. rewrite H2. left. reflexivity.
    + right. apply leb_iff in H1. apply Z.ltb_lt in H2. rewrite H1, H2. left. reflexivity.
Qed.
Lemma mark_coarsening_iff cs refine coarsen a i : In (a, i) (mark_grid_for_coarsening cs refine coarsen) <->
  exists c, nth_error cs i = Some c /\ a = (-1)%Z /\ (refine <= err c \/ err c <= coarsen).
Proof.
  unfold mark_grid_for_coarsening. rewrite mark_from_in. cbn [Nat.add]. split.
  - intros (k & c & N & H). apply in_app_or in H. destruct H as [H|H].
    + destruct (leb refine (err c)) eqn:B; [|destruct H]. destruct H as [H|[]]. injection H as <- <-. apply leb_iff in B. eauto.
    + destruct (leb (err c) coarsen) eqn:B; [|destruct H]. destruct H as [H|[]]. injection H as <- <-. apply leb_iff in B. eauto.
  - intros (c & N & -> & [H|H]); exists i, c; (split; [exact N|]); apply in_or_app; apply leb_iff in H; rewrite H; [left|right]; left; reflexivity.
Qed.
Lemma mark_grid_once cs refine coarsen minl maxl : NoDup (mark_grid cs refine coarsen minl maxl).
Proof.
  unfold mark_grid. generalize 0%nat. induction cs as [|c cs IH]; intros k; cbn [mark_from]; [constructor|].
  assert (F : forall q, In q (mark_from (mark_cell refine coarsen minl maxl) (S k) cs) -> (k < snd q)%nat).
  { intros (b, j) I. apply mark_from_in in I. destruct I as (i & c' & _ & I). unfold mark_cell in I. apply in_app_or in I.
    destruct I as [I|I]; [destruct (leb refine (err c') && _)|destruct (leb (err c') coarsen && _)]; first [destruct I as [I|[]]; injection I as _ <-; cbn; lia|destruct I]. }
  unfold mark_cell at 1. specialize (IH (S k)).
  assert (N : forall b, ~ In (b, k) (mark_from (mark_cell refine coarsen minl maxl) (S k) cs)) by (intros b I; apply F in I; cbn in I; lia).
  destruct (leb refine (err c) && _), (leb (err c) coarsen && _); cbn [app]; repeat constructor; auto.
  intros [E|I]; [discriminate|]. exact (N _ I).
Qed.

(** ** Strategy *)
Lemma norm1_one_norm x : one_norm x = norm1 x. Proof. apply one_norm_total. Qed.
Ltac branches := repeat match goal with
  | |- context [if ?b then _ else _] => destruct b eqn:?
  | |- context [let (_, _) := error_fraction ?a ?b ?c ?d ?e in _] => destruct (error_fraction a b c d e) eqn:?
  end.
Ltac fin := cbn [fst snd accept adapt_dt adapt_grid newdt have_decreased accumulated] in *; try discriminate; repeat split; intros; auto; try congruence; try lra; try tauto; try (match goal with H : _ \/ _ |- _ => destruct H as [H|H]; congruence || tauto end).
Lemma evaluate_spec p s dt space time energy : let r := evaluate p s dt space time energy in
  (accept (fst r) = true <-> no_adapt p = true \/ estimate p space time <= allowance p dt energy) /\
  accumulated (fst r) = accumulated s + (if accept (fst r) then estimate p space time else 0) /\
  (newdt (fst r) = dt \/ (adapt_dt (fst r) = true /\ (newdt (fst r) = increase p * dt \/ newdt (fst r) = decrease p * dt))) /\
  (adapt_dt (fst r) = false -> newdt (fst r) = dt) /\
  (accept (fst r) = false -> adapt_dt (fst r) = true \/ adapt_grid (fst r) = true) /\
  (adapt_grid (fst r) = false -> snd r = []) /\
  (have_decreased s = true -> accept (fst r) = false -> newdt (fst r) = dt \/ newdt (fst r) = decrease p * dt) /\
  (have_decreased s = true -> have_decreased (fst r) = true) /\
  (no_adapt p = true -> newdt (fst r) = dt /\ snd r = []).
Proof.
  cbn zeta. assert (ES : estimate p space time = one_norm (map err space) + scaling p * one_norm time) by (unfold estimate; rewrite !norm1_one_norm; reflexivity).
  assert (EA : allowance p dt energy = tol p * tol p * (energy + minenergy_rate p * dt)) by (unfold allowance; ring).
  rewrite ES, EA. unfold evaluate. cbn zeta. destruct (no_adapt p).
  { cbn. repeat split; auto; intros; try congruence; try tauto. }
  destruct (leb _ _) eqn:C.
  - apply leb_iff in C. branches; fin.
  - assert (C' : ~ one_norm (map err space) + scaling p * one_norm time <= tol p * tol p * (energy + minenergy_rate p * dt)).
    { intros H. apply leb_iff in H. congruence. }
    branches; fin.
Qed.

Lemma history_spec p es : forall s, accumulated (fold_left (play p) es s) =
  accumulated s + total_of (fun x => x) (map (event_estimate p) (accepted p s es)).
Proof.
  induction es as [|e es IH]; intros s; cbn [fold_left accepted]; [cbn; ring|]. destruct e as [|dt sp ti en].
  - rewrite IH. reflexivity.
  - rewrite IH. cbn [play]. destruct (evaluate_spec p s dt sp ti en) as (_ & A & _). cbn zeta in A. rewrite A.
    destruct (accept (fst (evaluate p s dt sp ti en))); [cbn [map total_of event_estimate]|]; ring.
Qed.
Lemma history_bound p es : no_adapt p = false -> forall s, accumulated (fold_left (play p) es s) <=
  accumulated s + total_of (fun x => x) (map (event_allowance p) (accepted p s es)).
Proof.
  intros NA. induction es as [|e es IH]; intros s; cbn [fold_left accepted]; [cbn; lra|]. destruct e as [|dt sp ti en].
  - exact (IH (start_time_step s)).
  - specialize (IH (play p s (Evaluate dt sp ti en))). cbn [play] in *. destruct (evaluate_spec p s dt sp ti en) as (B & A & _). cbn zeta in A, B.
    destruct (accept (fst (evaluate p s dt sp ti en))); [cbn [map total_of event_allowance]|rewrite A in IH; lra].
    destruct B as (B & _). destruct (B eq_refl) as [B'|B']; [congruence|]. lra.
Qed.
Lemma decreased_kept p es : forall s, have_decreased s = true -> ~ In Start es -> have_decreased (fold_left (play p) es s) = true.
Proof.
  induction es as [|e es IH]; intros s H N; [exact H|]. cbn [fold_left]. apply IH; [|intros I; apply N; right; exact I].
  destruct e as [|dt sp ti en]; [exfalso; apply N; left; reflexivity|]. cbn [play]. apply (evaluate_spec p s dt sp ti en). exact H.
Qed.

(** ** Verbosity *)
Definition vparams (v : Z) : params := mkparams 0 (1/2) (1/3) 0 v false (7/10) (2/10) (2/10) (1/2) (3/2) 0.
Definition vcells : list cell := map (mkcell 1) dominated.
Lemma vmarks v : snd (evaluate (vparams v) (mkstate false false false 1 false 0) 1 vcells [] 0) =
  mark_grid vcells (1/2 + 1/2 / 2 ^ 19) (1/2 + 1/2 / 2 ^ 19) v None.
Proof.
  assert (M : map err vcells = dominated) by (unfold vcells; rewrite map_map; apply map_id).
  unfold evaluate. cbn zeta. rewrite M. unfold vparams.
  cbn [scaling coarsen_limit balance_limit tol verbose no_adapt refine_fraction_refinement coarsen_fraction_refinement
      coarsen_fraction_coarsening decrease increase minenergy_rate have_decreased accumulated].
  rewrite dominated_total. cbn [one_norm fold_right].
  replace (leb (10 + 0 * 0) (0 * 0 * (0 + 0 * 1))) with false.
  2:{ symmetry. destruct (leb _ _) eqn:L; [|reflexivity]. apply leb_iff in L. lra. }
  replace (quotient (0 * 0) (10 + 0 * 0)) with (Some 0).
  2:{ unfold quotient. destruct (Req_EM_T (10 + 0 * 0) 0); [lra|]. f_equal. field. }
  cbn [qgt qlt]. replace (ltb (1 - 1/3) 0) with false by (symmetry; apply ltb_false; lra).
  rewrite dominated_fraction. destruct (ltb 0 (1/3)); reflexivity.
Qed.
Lemma verbosity_changes_marks : exists p v dt space time energy s, snd (evaluate p s dt space time energy) <>
  snd (evaluate (mkparams (scaling p) (coarsen_limit p) (balance_limit p) (tol p) v (no_adapt p) (refine_fraction_refinement p)
                   (coarsen_fraction_refinement p) (coarsen_fraction_coarsening p) (decrease p) (increase p) (minenergy_rate p)) s dt space time energy).
Proof.
  exists (vparams 0), 1%Z, 1, vcells, [], 0, (mkstate false false false 1 false 0).
  change (mkparams _ _ _ _ 1 _ _ _ _ _ _ _) with (vparams 1). rewrite !vmarks. intros E.
  assert (P : 0 < 1/2 / 2 ^ 19) by (apply Rdiv_lt_0_compat; [lra|apply pow_lt; lra]).
  assert (I : In ((-1)%Z, 1%nat) (mark_grid vcells (1/2 + 1/2 / 2 ^ 19) (1/2 + 1/2 / 2 ^ 19) 0 None)).
  { apply mark_grid_iff. exists (mkcell 1 (1/2)). split; [reflexivity|]. right. cbn [err level]. split; [reflexivity|]. split; [lra|lia]. }
  rewrite E in I. apply mark_grid_iff in I. destruct I as (c & N & [(I & _)|(_ & _ & I)]); [discriminate|].
  cbn in N. injection N as <-. cbn in I. lia.
Qed.

Lemma error_fraction_total x alpha beta ea eb : (forall e, In e x -> 0 <= e) ->
  error_fraction x alpha beta ea eb = bisect 20 (fun e => e) x (total_of (fun e => e) x) alpha beta 0 (infinity_norm x) 0 (infinity_norm x) ea eb.
Proof. intros H. unfold error_fraction. rewrite <- (one_norm_pos x H). reflexivity. Qed.
Lemma element_fraction_total x alpha beta ea eb :
  element_fraction x alpha beta ea eb = bisect 20 (fun _ => 1) x (total_of (fun _ => 1) x) alpha beta 0 (infinity_norm x) 0 (infinity_norm x) ea eb.
Proof. unfold element_fraction. rewrite <- (length_total x). reflexivity. Qed.
