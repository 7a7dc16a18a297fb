(** Properties C166-C168: the calls a local operator receives while time steps are made. *)
From Verif Require Import LifeModel LifeSpec LifeProofs LifeProofs2.
From Coq Require Import Lra Lia List.
Import ListNotations.
Local Open Scope R_scope.

(** A step of Heun's method on one cell and one face, both operators present, without failures. *)
Definition cell_place : place := mkplace true true true true.
Definition face_place : place := mkplace false true true true.
Definition smooth (asked : bool) : nat -> plan := fun _ => mkplan true [cell_place; face_place] [[cell_place]; [cell_place; face_place]] false asked.
Definition broken : nat -> plan := fun r => mkplan true [cell_place] [[cell_place]] (Nat.eqb r 2) false.
Definition unit_step (T : tab) : step := mkstep T 0 1.

(** C166: a step that succeeds announces itself to each operator exactly as documented: preStep with its start, size
    and number of stages, preStage and postStage for each stage in turn with the time and number of the stage, postStep. *)
Theorem c166_documented_order : forall (x : attempt) (o : op),
  succeeded x = true -> announcements o (calls x) = documented o (of x).
Proof. intros x o S. rewrite (calls_all x S). apply ann_step. Qed.
Print Assumptions c166_documented_order.
(** C166: a step in which no call throws and no stage fails succeeds. *)
Theorem c166_success : forall x, budget x = None -> (forall r, (1 <= r <= stages (tabl (of x)))%nat -> fails (does x r) = false) ->
  succeeded x = true.
Proof.
  intros x B F. unfold succeeded, perform. now destruct (step_clean (of x) (implicitly x) (does x) F (mkst [] (budget x)) B).
Qed.
Print Assumptions c166_success.
(** C166: over any number of steps, if they all succeed. *)
Theorem c166_history : forall (l : list attempt) (o : op),
  Forall (fun x => succeeded x = true) l -> announcements o (history l) = flat_map (fun x => documented o (of x)) l.
Proof.
  intros l o H. unfold history. rewrite announcements_flat. induction H as [|x l S H IH]; cbn [flat_map]; [reflexivity|].
  now rewrite IH, (c166_documented_order x o S).
Qed.
Print Assumptions c166_history.
(** C166: whatever throws, an operator has received an initial part of the documented sequence. *)
Theorem c166_any_outcome : forall (x : attempt) (o : op), initial_part (announcements o (calls x)) (documented o (of x)).
Proof. intros x o. rewrite <- (ann_step (of x) (implicitly x) o (does x)). apply initial_announcements, calls_prefix. Qed.
Print Assumptions c166_any_outcome.
(** C166: an operator is evaluated only inside a stage that has been announced to it and not been ended. *)
Theorem c166_evaluated_in_stage : forall x before o y p rest, calls x = before ++ Eval o y p :: rest ->
  exists r, (1 <= r <= stages (tabl (of x)))%nat /\ stage_no (knows o before) = Some r /\ in_stage (knows o before) = true.
Proof.
  intros x before o y p rest E. destruct (call_demand _ _ _ _ E) as (r & L & A & B & _).
  rewrite after_knows in A, B. exists r. destruct o; auto.
Qed.
Print Assumptions c166_evaluated_in_stage.
(** C166: at any moment both operators have received the same announcements, except that the spatial operator may be
    one ahead (the temporal operator is told right after it, unless the spatial one throws). *)
Theorem c166_same_for_both : forall x before, initial_part before (calls x) ->
  exists pending, (length pending <= 1)%nat /\
  announcements Spatial before = map renamed (announcements Temporal before) ++ pending.
Proof.
  intros x before (rest & E). apply (block_step (of x) (implicitly x) (does x)).
  destruct (calls_prefix x) as (rest' & E'). exists (rest ++ rest'). rewrite E', E. now rewrite <- app_assoc.
Qed.
Print Assumptions c166_same_for_both.
(** C166: when the solver of stage r gives up, the step fails and neither the stage nor the step is ended: the
    announcements stop at the beginning of the stage. *)
Theorem c166_failed_stage : forall (x : attempt) (o : op) (r : nat),
  (1 <= r <= stages (tabl (of x)))%nat -> fails (does x r) = true ->
  succeeded x = false /\
  initial_part (announcements o (calls x))
    (PreStep o (start (of x)) (size (of x)) (stages (tabl (of x)))
     :: flat_map (fun q => [PreStage o (start (of x) + d (tabl (of x)) q * size (of x)) q; PostStage o]) (seq 1 (r - 1))
     ++ [PreStage o (start (of x) + d (tabl (of x)) r * size (of x)) r]).
Proof.
  intros x o r L F. destruct (failing_calls x r L F) as (S & P). split; [exact S|].
  apply (initial_announcements o) in P. rewrite !announcements_app, announcements_flat in P.
  rewrite (flat_map_ext _ _ (fun q => ann_stage (of x) (implicitly x) o (does x q) q)), ann_begun in P. destruct o; exact P.
Qed.
Print Assumptions c166_failed_stage.
(** C166 does not hold for every history: "called once at the end of each time step" and "of each stage" fail when a
    solver throws.  A step whose second stage fails, repeated with half the size: two preStep and one postStep, four
    preStage and three postStage; the second preStep arrives while a stage is still open. *)
Theorem c166_step_left_open_refuted : exists l before rest t h s,
  history l = before ++ PreStep Spatial t h s :: rest /\ in_stage (knows Spatial before) = true /\
  length (filter (fun e => match e with PreStep Spatial _ _ _ => true | _ => false end) (history l)) = 2%nat /\
  length (filter (fun e => match e with PostStep Spatial => true | _ => false end) (history l)) = 1%nat.
Proof.
  set (x := mkattempt (mkstep (mktab 2 [0; 1; 1] [] [] true) 0 1) true
     (fun r => mkplan false [] [] (Nat.eqb r 2) false) None).
  set (y := mkattempt (mkstep (mktab 2 [0; 1; 1] [] [] true) 0 (1 / 2)) true (fun r => mkplan false [] [] false false) None).
  exists [x; y], (calls x). unfold history. cbn [flat_map].
  assert (Sx : calls x = [PreStep Spatial 0 1 2; PreStep Temporal 0 1 2;
    PreStage Spatial (0 + 1 * 1) 1; PreStage Temporal (0 + 1 * 1) 1; PostStage Spatial; PostStage Temporal;
    PreStage Spatial (0 + 1 * 1) 2; PreStage Temporal (0 + 1 * 1) 2]) by reflexivity.
  assert (Sy : calls y = PreStep Spatial 0 (1 / 2) 2 :: [PreStep Temporal 0 (1 / 2) 2;
    PreStage Spatial (0 + 1 * (1 / 2)) 1; PreStage Temporal (0 + 1 * (1 / 2)) 1; PostStage Spatial; PostStage Temporal;
    PreStage Spatial (0 + 1 * (1 / 2)) 2; PreStage Temporal (0 + 1 * (1 / 2)) 2; PostStage Spatial; PostStage Temporal;
    PostStep Spatial; PostStep Temporal]) by reflexivity.
  rewrite app_nil_r, Sx, Sy. do 4 eexists. repeat split.
Qed.
Print Assumptions c166_step_left_open_refuted.

(** C167: when an operator is evaluated with an earlier solution x_i, the time it was told last is that of x_i, and
    the coefficient of the scheme is not negligible. *)
Theorem c167_old_times : forall x before o i p rest, calls x = before ++ Eval o (Old i) p :: rest ->
  exists r, stage_no (knows o before) = Some r /\ (i < r)%nat /\ has o p = true /\
  time_set (knows o before) = Some (start (of x) + d (tabl (of x)) i * size (of x)) /\
  / 1000000 < Rabs (coefficient o (tabl (of x)) r i).
Proof.
  intros x before o i p rest E. destruct (call_demand _ _ _ _ E) as (r & L & A & B & H & _ & I & Ti & C).
  rewrite after_knows in A, Ti. apply big_iff in C. exists r. destruct o; auto.
Qed.
Print Assumptions c167_old_times.
(** C167: when an operator is evaluated with the unknown of an implicit stage, the time it was told last is that of
    the stage; the spatial operator only if its coefficient is not negligible. *)
Theorem c167_implicit_times : forall x before o p rest, implicitly x = true -> calls x = before ++ Eval o New p :: rest ->
  exists r, stage_no (knows o before) = Some r /\ has o p = true /\
  time_set (knows o before) = Some (start (of x) + d (tabl (of x)) r * size (of x)) /\
  (o = Spatial -> / 1000000 < Rabs (b (tabl (of x)) r r)).
Proof.
  intros x before o p rest M E. destruct (call_demand _ _ _ _ E) as (r & L & A & B & H & _ & Ti & C).
  rewrite M in Ti. cbn [orb] in Ti. rewrite after_knows in A, Ti.
  exists r. destruct o; repeat split; auto; intros Q; [apply big_iff; now apply C|discriminate].
Qed.
Print Assumptions c167_implicit_times.
(** C167: in explicit steps only the temporal operator is evaluated for the matrix; on cells at the time of the stage,
    on faces and after the faces at the time of the stage before. *)
Theorem c167_explicit_times : forall x before o p rest, implicitly x = false -> calls x = before ++ Eval o New p :: rest ->
  o = Temporal /\ exists r, stage_no (knows o before) = Some r /\ has o p = true /\
  time_set (knows o before) = Some (start (of x) + d (tabl (of x)) (if cell p then r else r - 1) * size (of x)).
Proof.
  intros x before o p rest M E. destruct (call_demand _ _ _ _ E) as (r & L & A & B & H & _ & Ti & C).
  rewrite M in Ti, C. cbn [orb] in Ti. rewrite after_knows in A, Ti.
  destruct o; [destruct (C eq_refl); discriminate|]. split; [reflexivity|]. exists r. auto.
Qed.
Print Assumptions c167_explicit_times.
(** C167 does not hold on faces of explicit steps: the documented "setTime(time_of_stage1) for each local operator"
    before the matrix is assembled does not happen there. *)
Theorem c167_mass_faces_refuted : exists x before p rest r, implicitly x = false /\ succeeded x = true /\
  calls x = before ++ Eval Temporal New p :: rest /\ stage_no (knows Temporal before) = Some r /\
  time_set (knows Temporal before) <> Some (start (of x) + d (tabl (of x)) r * size (of x)).
Proof.
  set (x := mkattempt (unit_step (mktab 1 [0; 1] [] [] false)) false
    (fun _ => mkplan false [mkplace false true false true] [] false false) None).
  assert (S : succeeded x = true) by (apply c166_success; reflexivity).
  destruct (body_at x Temporal 1 (Eval Temporal New (mkplace false true false true)) S) as (before & rest & E & A & B).
  - cbn. lia.
  - apply in_body_mass; [now left|reflexivity|reflexivity].
  - destruct (c167_explicit_times x before Temporal _ rest eq_refl E) as (_ & r & C & _ & Ti).
    exists x, before, (mkplace false true false true), rest, 1%nat. repeat split; auto.
    rewrite A in C. injection C as <-. rewrite Ti. cbn. intros Q. injection Q. lra.
Qed.
Print Assumptions c167_mass_faces_refuted.
(** C167: nothing is left out.  In every stage of a step that succeeds, at every place of the sweep, each operator that
    has a term there is evaluated with every earlier solution whose coefficient is not negligible. *)
Theorem c167_all_old : forall x r o p i, succeeded x = true -> (1 <= r <= stages (tabl (of x)))%nat ->
  In p (sweep (does x r)) -> has o p = true -> (i < r)%nat -> / 1000000 < Rabs (coefficient o (tabl (of x)) r i) ->
  exists before rest, calls x = before ++ Eval o (Old i) p :: rest /\ stage_no (knows o before) = Some r.
Proof.
  intros x r o p i S L I H J C. apply big_iff in C.
  destruct (body_at x o r (Eval o (Old i) p) S L) as (before & rest & E & A & _); [now apply in_body_old|]. eauto.
Qed.
Print Assumptions c167_all_old.
(** C167: and in every assembly the solver asks for, the temporal operator, and the spatial one unless its coefficient
    is negligible. *)
Theorem c167_all_new : forall x r o l p, succeeded x = true -> (1 <= r <= stages (tabl (of x)))%nat ->
  implicitly x = true -> In l (solves (does x r)) -> In p l -> has o p = true ->
  (o = Spatial -> / 1000000 < Rabs (b (tabl (of x)) r r)) ->
  exists before rest, calls x = before ++ Eval o New p :: rest /\ stage_no (knows o before) = Some r.
Proof.
  intros x r o l p S L M I J H C.
  destruct (body_at x o r (Eval o New p) S L) as (before & rest & E & A & _); [|eauto].
  rewrite M. apply in_body_new with (l := l); auto. intros Q. apply big_iff. auto.
Qed.
Print Assumptions c167_all_new.
(** C167: in explicit steps the matrix gets the temporal operator's terms with a Jacobian, at every place. *)
Theorem c167_all_mass : forall x r p, succeeded x = true -> (1 <= r <= stages (tabl (of x)))%nat ->
  implicitly x = false -> In p (sweep (does x r)) -> uv p = true -> has1 p = true ->
  exists before rest, calls x = before ++ Eval Temporal New p :: rest /\ stage_no (knows Temporal before) = Some r.
Proof.
  intros x r p S L M I U H.
  destruct (body_at x Temporal r (Eval Temporal New p) S L) as (before & rest & E & A & _); [|eauto].
  rewrite M. now apply in_body_mass.
Qed.
Print Assumptions c167_all_mass.

(** C168: suggestTimestep is called only in explicit steps, in the first stage, and at most once in a step. *)
Theorem c168_asked_in_first_stage : forall x before o rest, calls x = before ++ Suggest o :: rest ->
  implicitly x = false /\ stage_no (knows o before) = Some 1%nat /\ in_stage (knows o before) = true /\
  ~ In (Suggest o) before.
Proof.
  intros x before o rest E. destruct (call_demand _ _ _ _ E) as (M & A & B & C).
  rewrite after_knows in A, B. rewrite after_asked in C.
  assert (K : asked_by o before = false) by (destruct o; exact C).
  repeat split; auto; try (destruct o; assumption).
  intros I. unfold asked_by in K. assert (existsb (fun e => match e with Suggest o' => same o o' | _ => false end) before = true)
    by (apply existsb_exists; exists (Suggest o); split; [exact I|destruct o; reflexivity]). congruence.
Qed.
Print Assumptions c168_asked_in_first_stage.
(** C168: and after all evaluations of the first stage: an evaluation that comes later belongs to a later stage. *)
Theorem c168_asked_after_evaluations : forall x before o mid o' y p rest,
  calls x = before ++ Suggest o :: mid ++ Eval o' y p :: rest ->
  exists r, (2 <= r)%nat /\ stage_no (knows o' (before ++ Suggest o :: mid)) = Some r.
Proof.
  intros x before o mid o' y p rest E.
  replace (before ++ Suggest o :: mid ++ Eval o' y p :: rest) with ((before ++ Suggest o :: mid) ++ Eval o' y p :: rest) in E
    by (rewrite <- app_assoc; reflexivity).
  destruct (call_demand _ _ _ _ E) as (r & L & A & B & H & K & _). rewrite after_knows in A. exists r. split.
  - apply K. assert (Q : ask o (fold_left next (before ++ Suggest o :: mid) w0) = true).
    { rewrite after_asked. unfold asked_by. rewrite existsb_app. cbn. destruct o; cbn; now rewrite !orb_true_r. }
    destruct o; [left|right]; exact Q.
  - destruct o'; exact A.
Qed.
Print Assumptions c168_asked_after_evaluations.
(** C168: if the time controller asks, both operators are asked. *)
Theorem c168_both_asked : forall x o, implicitly x = false -> succeeded x = true -> (1 <= stages (tabl (of x)))%nat ->
  asks (does x 1%nat) = true -> In (Suggest o) (calls x).
Proof.
  intros x o M S L A. rewrite (calls_all x S). destruct (stage_inside (of x) (implicitly x) (does x) 1) as (pre & post & E); [lia|].
  rewrite E, M. apply in_or_app. right. apply in_or_app. left. unfold explicit_tr. rewrite A. cbn [Nat.eqb andb].
  apply in_or_app. right. apply in_or_app. right. apply in_or_app. right. destruct o; cbn; auto.
Qed.
Print Assumptions c168_both_asked.
(** C168 does not hold for the stages after the first: the step size is settled after stage 1, but the later stages are
    still announced, and evaluated, at times computed from the size the step was begun with.  Heun's method asked for
    size 1, with 1/2 suggested: apply returns 1/2 but announces its second stage at time 1. *)
Theorem c168_later_stages_refuted : exists x suggested, implicitly x = false /\ succeeded x = true /\
  (forall o, In (Suggest o) (calls x)) /\
  exists t, In (PreStage Spatial t 2) (calls x) /\
  t <> start (of x) + d (tabl (of x)) 2 * explicit_size (of x) suggested.
Proof.
  set (x := mkattempt (unit_step (mktab 2 [0; 1; 1] [] [] false)) false (fun _ => mkplan false [] [] false true) None).
  assert (S : succeeded x = true) by (apply c166_success; reflexivity).
  exists x, (1 / 2). split; [reflexivity|]. split; [exact S|]. split.
  - intros o. apply c168_both_asked; auto. cbn. lia.
  - exists (0 + 1 * 1). split.
    + assert (In (PreStage Spatial (0 + 1 * 1) 2) (announcements Spatial (calls x))) as I.
      { rewrite (c166_documented_order x Spatial S). cbn. tauto. }
      unfold announcements, view in I. apply filter_In in I as (I & _). apply filter_In in I as (I & _). exact I.
    + unfold explicit_size, Rmin. cbn. change (Nat.ltb 0 2) with true. cbv iota. destruct (Rle_dec (1 / 2) 1); lra.
Qed.
Print Assumptions c168_later_stages_refuted.

(** The hypotheses are met: a successful implicit and a successful explicit step of Heun's table, and a step whose
    second stage fails. *)
Example c166_meets : succeeded (mkattempt (unit_step heun) true (smooth false) None) = true /\
  succeeded (mkattempt (unit_step heun) false (smooth true) None) = true /\
  succeeded (mkattempt (unit_step alexander2) true broken None) = false /\
  announcements Temporal (calls (mkattempt (unit_step heun) false (smooth true) None)) =
    [PreStep Temporal 0 1 2; PreStage Temporal (0 + 1 * 1) 1; PostStage Temporal;
     PreStage Temporal (0 + 1 * 1) 2; PostStage Temporal; PostStep Temporal].
Proof.
  split; [apply c166_success; reflexivity|]. split; [apply c166_success; reflexivity|]. split.
  - apply (c166_failed_stage _ Spatial 2); [cbn; lia|reflexivity].
  - rewrite (c166_documented_order _ Temporal); [reflexivity|apply c166_success; reflexivity].
Qed.
(** Evaluations happen in them: Heun's first stage on the cell, both operators, with the old solution. *)
Example c167_meets : exists before rest,
  calls (mkattempt (unit_step heun) false (smooth true) None) = before ++ Eval Temporal (Old 0) cell_place :: rest /\
  stage_no (knows Temporal before) = Some 1%nat.
Proof.
  apply c167_all_old.
  - apply c166_success; reflexivity.
  - cbn. lia.
  - cbn. auto.
  - reflexivity.
  - lia.
  - cbn. rewrite Rabs_left; lra.
Qed.
Example c168_meets : In (Suggest Spatial) (calls (mkattempt (unit_step heun) false (smooth true) None)).
Proof. apply c168_both_asked; [reflexivity|apply c166_success; reflexivity|cbn; lia|reflexivity]. Qed.
