(** C32, C33, C35: error fractions, marking and time step adaptation. *)
From Verif Require Import AdaptModel AdaptSpec AdaptProofs.
From Coq Require Import Lra.
Local Open Scope R_scope.

(** C32.  For every vector of nonnegative errors and all fractions, the thresholds of error_fraction lie between 0 and the
    largest error and either select the requested fractions of the error to one percent or are off by at most the largest
    error times 2^-20. *)
Theorem c32_error_fraction : forall x alpha beta ea0 eb0 ea eb, (forall e, In e x -> 0 <= e) -> 0 <= alpha -> 0 <= beta ->
  error_fraction x alpha beta ea0 eb0 = (ea, eb) ->
  exists m, is_max m x /\ 0 <= ea <= m /\ 0 <= eb <= m /\
    (meets (fun e => e) x alpha beta ea eb \/ brackets (fun e => e) x m alpha beta (m / 2 ^ 20) ea eb).
Proof.
  intros x alpha beta ea0 eb0 ea eb H A B E. rewrite (error_fraction_total x alpha beta ea0 eb0 H) in E. exists (infinity_norm x).
  split; [apply infinity_norm_max, H|]. exact (fraction_spec (fun e => e) x alpha beta ea0 eb0 ea eb H H A B E).
Qed.
Print Assumptions c32_error_fraction.

(** C32.  The same for element_fraction, with numbers of elements instead of error sums. *)
Theorem c32_element_fraction : forall x alpha beta ea0 eb0 ea eb, (forall e, In e x -> 0 <= e) -> 0 <= alpha -> 0 <= beta ->
  element_fraction x alpha beta ea0 eb0 = (ea, eb) ->
  exists m, is_max m x /\ 0 <= ea <= m /\ 0 <= eb <= m /\
    (meets (fun _ => 1) x alpha beta ea eb \/ brackets (fun _ => 1) x m alpha beta (m / 2 ^ 20) ea eb).
Proof.
  intros x alpha beta ea0 eb0 ea eb H A B E. rewrite (element_fraction_total x alpha beta ea0 eb0) in E. exists (infinity_norm x).
  split; [apply infinity_norm_max, H|]. refine (fraction_spec (fun _ => 1) x alpha beta ea0 eb0 ea eb H _ A B E). intros e _. lra.
Qed.
Print Assumptions c32_element_fraction.
Example c32_meets : (forall e, In e [1; 3; 0; 2] -> 0 <= e) /\ 0 <= 7/10 /\ is_max 3 [1; 3; 0; 2].
Proof.
  split; [|split; [lra|split; [|split]]].
  - intros e I. repeat (destruct I as [<-|I]; [lra|]). destruct I.
  - intros e I. repeat (destruct I as [<-|I]; [lra|]). destruct I.
  - discriminate.
  - intros _. cbn. auto.
Qed.

(** C32, finding: when many elements share one error the two thresholds can coincide just above it.  With the default
    fractions (refine 70%, coarsen 20%) the elements carrying 90% of the error are then marked for coarsening and none of
    them for refinement. *)
Theorem c32_dominant_coarsened_refuted : exists x ea eb, (forall e, In e x -> 0 <= e) /\ error_fraction x (7/10) (2/10) 0 0 = (ea, eb) /\
  total_of (fun e => e) x = 10 /\ above (fun e => e) ea x = 1 /\ below (fun e => e) eb x = 9.
Proof.
  exists dominated, (1/2 + 1/2 / 2 ^ 19), (1/2 + 1/2 / 2 ^ 19).
  assert (P : 0 < 1/2 / 2 ^ 19 <= 1/2).
  { assert (1 <= 2 ^ 19) by (apply pow_R1_Rle; lra). split; [apply Rdiv_lt_0_compat; lra|]. unfold Rdiv. rewrite <- (Rmult_1_r (1 * / 2)) at 2.
    apply Rmult_le_compat_l; [lra|]. rewrite <- Rinv_1. apply Rinv_le_contravar; lra. }
  assert (N : forall e, In e dominated -> 0 <= e).
  { intros e [<-|I]; [lra|]. apply repeat_spec in I. lra. }
  split; [exact N|]. split; [apply dominated_fraction|]. split; [rewrite <- (one_norm_pos _ N); apply dominated_total|].
  split; [apply dominated_above|apply dominated_below]; lra.
Qed.
Print Assumptions c32_dominant_coarsened_refuted.

(** C33.  mark_grid asks for refinement of exactly the cells whose error reaches the refine threshold and whose level is
    below the maximal level, and for coarsening of exactly those whose error is at most the coarsen threshold and whose
    level is above the minimal level; no call is made twice. *)
Theorem c33_mark_grid : forall cells refine coarsen minl maxl,
  let calls := mark_grid cells refine coarsen minl maxl in
  NoDup calls /\ forall mark i, In (mark, i) calls <->
  exists c, nth_error cells i = Some c /\
    ((mark = 1%Z /\ refine <= err c /\ (forall m, maxl = Some m -> (level c < m)%Z)) \/
     (mark = (-1)%Z /\ err c <= coarsen /\ (minl < level c)%Z)).
Proof. intros cells refine coarsen minl maxl. split; [apply mark_grid_once|]. intros mark i. apply mark_grid_iff. Qed.
Print Assumptions c33_mark_grid.
(** C33.  No cell is marked for both when the coarsen threshold is below the refine threshold. *)
Theorem c33_never_both : forall cells refine coarsen minl maxl i, coarsen < refine ->
  ~ (In (1%Z, i) (mark_grid cells refine coarsen minl maxl) /\ In ((-1)%Z, i) (mark_grid cells refine coarsen minl maxl)).
Proof.
  intros cells refine coarsen minl maxl i L (A & B). apply mark_grid_iff in A, B.
  destruct A as (c & N & [(_ & A & _)|(A & _)]); [|discriminate]. destruct B as (c' & N' & [(B & _)|(_ & B & _)]); [discriminate|].
  rewrite N in N'. injection N' as <-. lra.
Qed.
Print Assumptions c33_never_both.
(** C33.  mark_grid_for_coarsening only asks for coarsening, of the cells below the coarsen threshold and of those that reach
    the refine threshold. *)
Theorem c33_for_coarsening : forall cells refine coarsen mark i, In (mark, i) (mark_grid_for_coarsening cells refine coarsen) <->
  exists c, nth_error cells i = Some c /\ mark = (-1)%Z /\ (refine <= err c \/ err c <= coarsen).
Proof. exact mark_coarsening_iff. Qed.
Print Assumptions c33_for_coarsening.
Example c33_meets : 1 < 2 /\ In (1%Z, 0%nat) (mark_grid [mkcell 0 3; mkcell 1 1] 2 1 0 (Some 5%Z)) /\
  In ((-1)%Z, 1%nat) (mark_grid [mkcell 0 3; mkcell 1 1] 2 1 0 (Some 5%Z)).
Proof.
  split; [lra|]. split; apply mark_grid_iff.
  - exists (mkcell 0 3). split; [reflexivity|]. left. cbn. split; [reflexivity|]. split; [lra|]. intros m E. injection E as <-. lia.
  - exists (mkcell 1 1). split; [reflexivity|]. right. cbn. split; [reflexivity|]. split; [lra|lia].
Qed.
(** C33 fails for overlapping thresholds: both calls are made for the same cell, ... *)
Theorem c33_both_refuted : exists cells refine coarsen i,
  In (1%Z, i) (mark_grid cells refine coarsen 0 None) /\ In ((-1)%Z, i) (mark_grid cells refine coarsen 0 None).
Proof.
  exists [mkcell 1 1], 1, 1, 0%nat. split; apply mark_grid_iff; exists (mkcell 1 1); (split; [reflexivity|]); cbn.
  - left. split; [reflexivity|]. split; [lra|]. discriminate.
  - right. split; [reflexivity|]. split; [lra|lia].
Qed.
Print Assumptions c33_both_refuted.
(** ... and when coarsening, a cell with the largest error is marked for coarsening. *)
Theorem c33_largest_coarsened_refuted : exists cells refine coarsen, coarsen < refine /\
  In ((-1)%Z, 0%nat) (mark_grid_for_coarsening cells refine coarsen) /\ exists c, nth_error cells 0 = Some c /\ forall d, In d cells -> err d <= err c.
Proof.
  exists [mkcell 1 5; mkcell 1 1], 4, 2. split; [lra|]. split.
  - apply mark_coarsening_iff. exists (mkcell 1 5). split; [reflexivity|]. split; [reflexivity|]. left. cbn. lra.
  - exists (mkcell 1 5). split; [reflexivity|]. intros d [<-|[<-|[]]]; cbn; lra.
Qed.
Print Assumptions c33_largest_coarsened_refuted.
(** The time step strategy passes its verbosity as the minimal level, so the marks depend on the verbosity. *)
Theorem c33_verbosity_refuted : exists p v dt space time energy s, snd (evaluate p s dt space time energy) <>
  snd (evaluate (mkparams (scaling p) (coarsen_limit p) (balance_limit p) (tol p) v (no_adapt p) (refine_fraction_refinement p)
                   (coarsen_fraction_refinement p) (coarsen_fraction_coarsening p) (decrease p) (increase p) (minenergy_rate p)) s dt space time energy).
Proof. exact verbosity_changes_marks. Qed.
Print Assumptions c33_verbosity_refuted.

(** C35.  One evaluation: the step is accepted exactly if adaptation is off or the estimate is within the allowance; the
    accumulated error grows by the estimate of an accepted step and by nothing otherwise; the suggested step is the
    current one or the increased or decreased one, and differs from the current one only if adaptDT(); a rejected step
    always asks for another step size or another grid; the grid is only marked if adaptGrid(); with adaptation off
    neither the step nor the grid changes. *)
Theorem c35_evaluation : forall p s dt space time energy s' marks, evaluate p s dt space time energy = (s', marks) ->
  (accept s' = true <-> no_adapt p = true \/ estimate p space time <= allowance p dt energy) /\
  accumulated s' = accumulated s + (if accept s' then estimate p space time else 0) /\
  (newdt s' = dt \/ newdt s' = increase p * dt \/ newdt s' = decrease p * dt) /\
  (adapt_dt s' = false -> newdt s' = dt) /\
  (accept s' = false -> adapt_dt s' = true \/ adapt_grid s' = true) /\
  (adapt_grid s' = false -> marks = []) /\
  (no_adapt p = true -> newdt s' = dt /\ marks = []).
Proof.
  intros p s dt space time energy s' marks E. pose proof (evaluate_spec p s dt space time energy) as H. cbn zeta in H. rewrite E in H. cbn [fst snd] in H. tauto.
Qed.
Print Assumptions c35_evaluation.

(** C35.  Over every run, the accumulated error is the sum of the estimates of the accepted evaluations, and with adaptation
    on it is at most the sum of their allowances. *)
Theorem c35_accumulated : forall p s es, let s' := fold_left (play p) es s in
  accumulated s' = accumulated s + total_of (fun x => x) (map (event_estimate p) (accepted p s es)) /\
  (no_adapt p = false -> accumulated s' <= accumulated s + total_of (fun x => x) (map (event_allowance p) (accepted p s es))).
Proof. intros p s es. split; [apply history_spec|]. intros N. apply history_bound, N. Qed.
Print Assumptions c35_accumulated.

(** C35.  Once a time step has been redone with a smaller step, it is not redone with a larger one until startTimeStep(). *)
Theorem c35_no_increase : forall p s dt sp ti en es dt' sp' ti' en', 0 < dt' -> decrease p < 1 -> 1 < increase p ->
  let s1 := play p s (Evaluate dt sp ti en) in 0 < dt -> newdt s1 < dt -> ~ In Start es ->
  let s2 := play p (fold_left (play p) es s1) (Evaluate dt' sp' ti' en') in accept s2 = false -> newdt s2 <= dt'.
Proof.
  intros p s dt sp ti en es dt' sp' ti' en' D' DE IN s1 D L N s2 A.
  assert (H1 : have_decreased s1 = true).
  { unfold s1 in *. cbn [play] in *. revert L. unfold evaluate. cbn zeta. branches; cbn [fst newdt have_decreased]; intros L; try reflexivity; nra. }
  pose proof (decreased_kept p es s1 H1 N) as H2. pose proof (evaluate_spec p (fold_left (play p) es s1) dt' sp' ti' en') as S. cbn zeta in S.
  destruct S as (_ & _ & _ & _ & _ & _ & S & _). unfold s2 in *. cbn [play] in *. destruct (S H2 A) as [E|E]; rewrite E; nra.
Qed.
Print Assumptions c35_no_increase.

(** C35.  startTimeStep() forgets the history of the step: the first decision after it depends on the estimates only. *)
Theorem c35_start_forgets : forall p s1 s2 dt space time energy,
  let r1 := evaluate p (start_time_step s1) dt space time energy in
  let r2 := evaluate p (start_time_step s2) dt space time energy in
  accept (fst r1) = accept (fst r2) /\ adapt_dt (fst r1) = adapt_dt (fst r2) /\ adapt_grid (fst r1) = adapt_grid (fst r2) /\
  newdt (fst r1) = newdt (fst r2) /\ have_decreased (fst r1) = have_decreased (fst r2) /\ snd r1 = snd r2.
Proof.
  intros p s1 s2 dt space time energy. unfold evaluate, start_time_step. cbn zeta. cbn [have_decreased accumulated].
  branches; cbn [fst snd accept adapt_dt adapt_grid newdt have_decreased]; auto 10.
Qed.
Print Assumptions c35_start_forgets.

(** The constructor's parameters. *)
Definition defaults (tol_ : R) : params := mkparams 16 (1/2) (33333/100000) tol_ 0 false (7/10) (2/10) (2/10) (1/2) (3/2) 0.
Definition fresh : state := mkstate false false false 1 false 0.
Example c35_meets : accept (play (defaults 1) fresh (Evaluate 1 [mkcell 0 1] [1] 100)) = true /\
  (let s1 := play (defaults 1) fresh (Evaluate 1 [mkcell 0 1] [1] 1) in accept s1 = false /\ newdt s1 < 1) /\ decrease (defaults 1) < 1 /\ 1 < increase (defaults 1).
Proof.
  assert (E1 : estimate (defaults 1) [mkcell 0 1] [1] = 17). { unfold estimate, norm1, defaults. cbn. rewrite Rabs_R1. ring. }
  split; [|split].
  - apply (evaluate_spec (defaults 1) fresh 1 [mkcell 0 1] [1] 100). right. rewrite E1. unfold allowance, defaults. cbn. lra.
  - cbn zeta. assert (A : accept (play (defaults 1) fresh (Evaluate 1 [mkcell 0 1] [1] 1)) = false).
    { destruct (accept _) eqn:A; [|reflexivity]. apply (evaluate_spec (defaults 1) fresh 1 [mkcell 0 1] [1] 1) in A. destruct A as [A|A]; [discriminate|].
      rewrite E1 in A. unfold allowance, defaults in A. cbn in A. lra. }
    split; [exact A|]. revert A. cbn [play]. unfold evaluate, defaults. cbn [scaling coarsen_limit balance_limit tol verbose no_adapt refine_fraction_refinement coarsen_fraction_refinement
      coarsen_fraction_coarsening decrease increase minenergy_rate map err one_norm fold_right have_decreased fresh accumulated]. cbn zeta.
    replace (quotient (16 * (Rabs 1 + 0)) (Rabs 1 + 0 + 16 * (Rabs 1 + 0))) with (Some (16/17)).
    2:{ rewrite Rabs_R1. unfold quotient. destruct (Req_EM_T (1 + 0 + 16 * (1 + 0)) 0); [lra|]. f_equal. field. }
    cbn [qgt qlt]. replace (ltb (1 - 33333/100000) (16/17)) with true by (symmetry; apply ltb_iff; lra).
    branches; cbn [fst accept newdt]; intros A; try discriminate; lra.
  - cbn. lra.
Qed.
