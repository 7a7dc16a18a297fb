(** Further proofs about the calls local operators receive: completeness, failing stages, the two operators together. *)
From Verif Require Import LifeModel LifeSpec LifeProofs.
From Coq Require Import Lra Lia List.
Import ListNotations.
Local Open Scope R_scope.

(** ** A stage whose solver gives up *)
Definition never (m : act) : Prop := forall s, snd (m s) = false.
Lemma runs_never m n f : never m -> runs m f -> runs (m ;; n) f.
Proof.
  intros N H s. unfold chain. specialize (N s). destruct (H s) as (w & L & P & F). destruct (m s) as (s1, ok). cbn in N. subst ok.
  exists w. auto.
Qed.
Lemma never_chain_l m n : never m -> never (m ;; n).
Proof. intros N s. unfold chain. specialize (N s). destruct (m s) as (s1, ok). cbn in N. now subst ok. Qed.
Lemma never_chain_r m n : never n -> never (m ;; n).
Proof. intros N s. unfold chain. destruct (m s) as (s1, ok). destruct ok; [apply N|reflexivity]. Qed.
Lemma never_on_throw m h : never m -> never (on_throw m h).
Proof. intros N s. unfold on_throw. specialize (N s). destruct (m s) as (s1, ok). cbn in N. now subst ok. Qed.
Lemma chain_each {X} (f : X -> act) l m : forall s, each f (l ++ m) s = (each f l ;; each f m) s.
Proof.
  induction l as [|x l IH]; intros s; cbn; [reflexivity|]. unfold chain at 1 2 3. destruct (f x s) as (s1, ok).
  destruct ok; [|reflexivity]. rewrite IH. reflexivity.
Qed.
Lemma runs_same m n f : (forall s, m s = n s) -> runs n f -> runs m f.
Proof. intros E H s. rewrite E. apply H. Qed.
Lemma never_same m n : (forall s, m s = n s) -> never n -> never m.
Proof. intros E H s. rewrite E. apply H. Qed.

Definition begun (z : step) (imp : bool) (P : plan) (r : nat) : list event :=
  if imp then (announce_tr z r ++ flat_map (pre_tr z r) (sweep P)) ++
    (if values P then [SetTime Spatial (when_stage z r)] else []) ++ flat_map (assembly_tr z r) (solves P) ++ []
  else (if values P then [SetTime Spatial (when_stage z r)] else []) ++
    announce_tr z r ++ flat_map (explicit_at z r) (sweep P) ++
    (if Nat.eqb r 1 && asks P then [Suggest Spatial; Suggest Temporal] else []) ++ [].
Definition stage_of (z : step) (imp : bool) (P : nat -> plan) (r : nat) : act :=
  if imp then implicit_stage z (P r) r else explicit_stage z (P r) r.
Lemma failing_stage z imp P r : fails (P r) = true -> never (stage_of z imp P r) /\ runs (stage_of z imp P r) (begun z imp (P r) r).
Proof.
  intros F. unfold stage_of, begun, implicit_stage, explicit_stage. rewrite F. cbn [when].
  assert (NR : never raise) by (intros s; reflexivity). destruct imp; split.
  - do 2 apply never_chain_r. apply never_chain_l, never_on_throw, never_chain_r, NR.
  - apply runs_chain; [apply runs_chain; [apply runs_both|apply runs_each; intro; apply pre_runs]|].
    apply runs_chain; [apply runs_when, runs_emit|].
    apply runs_never; [apply never_on_throw, never_chain_r, NR|]. apply runs_on_throw, runs_chain; [|apply runs_raise].
    apply runs_each. intro l. apply runs_chain; [apply runs_both|]. apply runs_each. intro p.
    apply runs_chain; apply runs_when, runs_emit.
  - do 4 apply never_chain_r. apply never_chain_l, NR.
  - apply runs_chain; [apply runs_when, runs_emit|]. apply runs_chain; [apply runs_both|].
    apply runs_chain; [apply runs_each; intro p; apply runs_chain; [apply runs_when, pre_runs|]; apply runs_chain;
      apply runs_when, runs_emit|].
    apply runs_chain; [apply runs_when, runs_both|]. apply runs_never; [apply NR|apply runs_raise].
Qed.
Lemma seq_at n r : (1 <= r <= n)%nat -> seq 1 n = seq 1 (r - 1) ++ r :: seq (S r) (n - r).
Proof.
  intros H. replace n with ((r - 1) + S (n - r))%nat at 1 by lia. rewrite seq_app. cbn [seq].
  replace (1 + (r - 1))%nat with r by lia. reflexivity.
Qed.
Lemma stages_runs z imp P n : runs (each (stage_of z imp P) (seq 1 n))
  (flat_map (fun r => if imp then implicit_tr z (P r) r else explicit_tr z (P r) r) (seq 1 n)).
Proof.
  apply runs_each. intro r. unfold stage_of. destruct imp; [apply implicit_stage_runs|apply explicit_stage_runs].
Qed.
Lemma failing_calls x r : (1 <= r <= stages (tabl (of x)))%nat -> fails (does x r) = true ->
  succeeded x = false /\
  initial_part (calls x)
    ([PreStep Spatial (start (of x)) (size (of x)) (stages (tabl (of x)));
      PreStep Temporal (start (of x)) (size (of x)) (stages (tabl (of x)))] ++
     flat_map (fun r => if implicitly x then implicit_tr (of x) (does x r) r else explicit_tr (of x) (does x r) r) (seq 1 (r - 1)) ++
     begun (of x) (implicitly x) (does x r) r).
Proof.
  intros L F. destruct x as [z imp P k]. cbn in *.
  destruct (failing_stage z imp P r F) as (N & B).
  set (m := pre_step_all z ;; each (stage_of z imp P) (seq 1 (stages (tabl z))) ;; post_step_all).
  assert (E : (if imp then implicit_step z P else explicit_step z P) = m) by (unfold m, stage_of; destruct imp; reflexivity).
  assert (Hl : forall s, each (stage_of z imp P) (seq 1 (stages (tabl z))) s =
    (each (stage_of z imp P) (seq 1 (r - 1)) ;; each (stage_of z imp P) (r :: seq (S r) (stages (tabl z) - r))) s).
  { intros s. rewrite (seq_at _ r L). apply chain_each. }
  assert (Nl : never (each (stage_of z imp P) (seq 1 (stages (tabl z))))).
  { apply (never_same _ _ Hl). apply never_chain_r. cbn [each]. now apply never_chain_l. }
  assert (R : runs m ([PreStep Spatial (start z) (size z) (stages (tabl z)); PreStep Temporal (start z) (size z) (stages (tabl z))] ++
     flat_map (fun r => if imp then implicit_tr z (P r) r else explicit_tr z (P r) r) (seq 1 (r - 1)) ++ begun z imp (P r) r)).
  { apply runs_chain; [apply runs_both|]. apply runs_never; [exact Nl|]. apply (runs_same _ _ _ Hl).
    apply runs_chain; [apply stages_runs|]. cbn [each]. now apply runs_never. }
  unfold succeeded, calls, perform. cbn. rewrite E. destruct (R (mkst [] k)) as (w & L2 & P2 & F2). split.
  - unfold m. apply never_chain_r, never_chain_l, Nl.
  - rewrite L2. exact P2.
Qed.
Lemma ann_begun z imp o P r : announcements o (begun z imp P r) = [PreStage o (start z + d (tabl z) r * size z) r].
Proof.
  unfold begun. destruct imp.
  - rewrite !announcements_app, !announcements_flat, (flat_nil _ (sweep P)), (flat_nil _ (solves P))
      by (intros; first [apply ann_pre | apply ann_assembly]).
    destruct (values P), o; reflexivity.
  - rewrite !announcements_app, !announcements_flat, (flat_nil _ (sweep P)) by (intros; apply ann_explicit_at).
    destruct (values P), (Nat.eqb r 1 && asks P), o; reflexivity.
Qed.

(** ** Both operators together *)
Definition lag (l : list event) : Prop := exists pending, (length pending <= 1)%nat /\
  announcements Spatial l = map renamed (announcements Temporal l) ++ pending.
Definition level (l : list event) : Prop := announcements Spatial l = map renamed (announcements Temporal l).
Definition block (l : list event) : Prop := level l /\ forall p, initial_part p l -> lag p.
Lemma initial_app {X} (p l m : list X) : initial_part p (l ++ m) ->
  initial_part p l \/ exists q, p = l ++ q /\ initial_part q m.
Proof.
  revert p. induction l as [|e l IH]; intros p (rest & E); [right; exists p; split; [reflexivity|exists rest; exact E]|].
  destruct p as [|e' p]; [left; exists (e :: l); reflexivity|]. cbn in E. injection E as E1 E2. subst e'.
  destruct (IH p) as [(rest' & ->)|(q & -> & Q)]; [exists rest; exact E2|left; exists rest'; reflexivity|].
  right. exists q. auto.
Qed.
Lemma level_app l m : level l -> level m -> level (l ++ m).
Proof. unfold level. intros L M. now rewrite !announcements_app, map_app, L, M. Qed.
Lemma block_app l m : block l -> block m -> block (l ++ m).
Proof.
  intros (L & PL) (M & PM). split; [now apply level_app|]. intros p H.
  destruct (initial_app _ _ _ H) as [Q|(q & -> & Q)]; [now apply PL|].
  destruct (PM q Q) as (pend & K & E). exists pend. split; [exact K|].
  rewrite !announcements_app, map_app, L, E. apply app_assoc.
Qed.
Lemma block_quiet l : (forall o, announcements o l = []) -> block l.
Proof.
  intros H. split; [unfold level; now rewrite !H|]. intros p (rest & ->). exists []. split; [cbn; lia|].
  pose proof (H Spatial) as H0. pose proof (H Temporal) as H1. rewrite announcements_app in H0, H1.
  apply app_eq_nil in H0 as (-> & _). apply app_eq_nil in H1 as (-> & _). reflexivity.
Qed.
Lemma initial_pair {X} (p : list X) u v : initial_part p [u; v] -> p = [] \/ p = [u] \/ p = [u; v].
Proof.
  intros (rest & E). destruct p as [|x [|y [|w p]]]; cbn in E; [auto| | |discriminate].
  - injection E as -> _. auto.
  - injection E as -> -> _. auto.
Qed.
Lemma block_pair (f : op -> event) : (forall o, addressee (f o) = o) -> (forall o, announces (f o) = true) ->
  renamed (f Temporal) = f Spatial -> block [f Spatial; f Temporal].
Proof.
  intros A B C.
  assert (V : forall o o', announcements o [f o'] = if same o o' then [f o'] else []).
  { intros o o'. unfold announcements, view. cbn. rewrite A. destruct (same o o'); cbn; [now rewrite B|reflexivity]. }
  assert (W : forall o, announcements o [f Spatial; f Temporal] = [f o]).
  { intros o. change [f Spatial; f Temporal] with ([f Spatial] ++ [f Temporal]). rewrite announcements_app, !V. destruct o; reflexivity. }
  split; [unfold level; rewrite !W; cbn; now rewrite C|].
  intros p H. destruct (initial_pair _ _ _ H) as [->|[->| ->]].
  - exists []. split; [cbn; lia|reflexivity].
  - exists [f Spatial]. split; [cbn; lia|]. rewrite !V. reflexivity.
  - exists []. split; [cbn; lia|]. rewrite !W. cbn. now rewrite C.
Qed.
Lemma block_flat {X} (f : X -> list event) l : (forall x, block (f x)) -> block (flat_map f l).
Proof. intros H. induction l as [|x l IH]; cbn [flat_map]; [apply block_quiet; reflexivity|]. now apply block_app. Qed.
Lemma block_stage z (imp : bool) P r : block (if imp then implicit_tr z P r else explicit_tr z P r).
Proof.
  assert (An : block (announce_tr z r)) by (apply (block_pair (fun o => PreStage o (when_stage z r) r)); reflexivity).
  assert (Po : block [PostStage Spatial; PostStage Temporal]) by (apply (block_pair PostStage); reflexivity).
  assert (Va : block (if values P then [SetTime Spatial (when_stage z r)] else []))
    by (apply block_quiet; intros o; destruct (values P), o; reflexivity).
  destruct imp.
  - unfold implicit_tr. repeat apply block_app; try assumption.
    + apply block_flat. intro p. apply block_quiet. intro o. apply ann_pre.
    + apply block_flat. intro p. apply block_quiet. intro o. apply ann_assembly.
    + apply block_quiet. reflexivity.
  - unfold explicit_tr. repeat apply block_app; try assumption.
    + apply block_flat. intro p. apply block_quiet. intro o. apply ann_explicit_at.
    + apply block_quiet. intro o. destruct (Nat.eqb r 1 && asks P), o; reflexivity.
    + apply block_quiet. reflexivity.
Qed.
Lemma block_step z imp P : block (step_tr z imp P).
Proof.
  unfold step_tr. repeat apply block_app.
  - apply (block_pair (fun o => PreStep o (start z) (size z) (stages (tabl z)))); reflexivity.
  - apply block_flat. intro r. apply block_stage.
  - apply (block_pair PostStep); reflexivity.
Qed.

(** ** Nothing is left out *)
Lemma learn_quiet o e k : announcements o [e] = [] -> stage_no (learn o k e) = stage_no k /\ in_stage (learn o k e) = in_stage k.
Proof.
  unfold announcements, view, learn. cbn. destruct (same o (addressee e)); cbn; [|auto].
  destruct e; cbn; intros H; try discriminate; auto.
Qed.
Lemma quiet_keeps o l : announcements o l = [] -> forall k,
  stage_no (fold_left (learn o) l k) = stage_no k /\ in_stage (fold_left (learn o) l k) = in_stage k.
Proof.
  induction l as [|e l IH]; intros H k; cbn; [auto|].
  change (e :: l) with ([e] ++ l) in H. rewrite announcements_app in H. apply app_eq_nil in H as (H1 & H2).
  destruct (IH H2 (learn o k e)) as (A & B). destruct (learn_quiet o e k H1) as (C & D). rewrite A, B. auto.
Qed.
Lemma announce_learn z o r l k : announcements o l = [] ->
  stage_no (fold_left (learn o) (announce_tr z r ++ l) k) = Some r /\ in_stage (fold_left (learn o) (announce_tr z r ++ l) k) = true.
Proof.
  intros H. rewrite fold_left_app. destruct (quiet_keeps o l H (fold_left (learn o) (announce_tr z r) k)) as (A & B).
  rewrite A, B. destruct o; cbn; auto.
Qed.
(** An event of a quiet part of stage r, in a list in which that part follows the announcement of the stage. *)
Lemma in_stage_at z o r l pre mid post e : l = pre ++ (announce_tr z r ++ mid) ++ post -> announcements o mid = [] -> In e mid ->
  exists before rest, l = before ++ e :: rest /\ stage_no (knows o before) = Some r /\ in_stage (knows o before) = true.
Proof.
  intros E Q I. apply in_split in I as (m1 & m2 & ->). rewrite announcements_app in Q. apply app_eq_nil in Q as (Q & _).
  exists (pre ++ announce_tr z r ++ m1), (m2 ++ post). split.
  - rewrite E. rewrite <- !app_assoc. reflexivity.
  - unfold knows. rewrite fold_left_app. now apply announce_learn.
Qed.
Lemma stage_inside z imp P r : (1 <= r <= stages (tabl z))%nat ->
  exists pre post, step_tr z imp P = pre ++ (if imp then implicit_tr z (P r) r else explicit_tr z (P r) r) ++ post.
Proof.
  intros L. unfold step_tr. rewrite (seq_at _ r L), flat_map_app. cbn [flat_map].
  match goal with |- exists _ _, ?l ++ (?f ++ ?s ++ ?g) ++ ?m = _ => exists (l ++ f), (g ++ m) end.
  rewrite <- !app_assoc. reflexivity.
Qed.
Definition body (z : step) (imp : bool) (P : plan) (r : nat) : list event :=
  if imp then flat_map (pre_tr z r) (sweep P) ++ (if values P then [SetTime Spatial (when_stage z r)] else []) ++
              flat_map (assembly_tr z r) (solves P)
  else flat_map (explicit_at z r) (sweep P).
Lemma body_quiet z imp P r o : announcements o (body z imp P r) = [].
Proof.
  unfold body. destruct imp.
  - rewrite !announcements_app, !announcements_flat, (flat_nil _ (sweep P)), (flat_nil _ (solves P))
      by (intros; first [apply ann_pre | apply ann_assembly]).
    destruct (values P), o; reflexivity.
  - rewrite announcements_flat. apply flat_nil. intro p. apply ann_explicit_at.
Qed.
Lemma body_inside z (imp : bool) P r : exists pre post,
  (if imp then implicit_tr z P r else explicit_tr z P r) = pre ++ (announce_tr z r ++ body z imp P r) ++ post.
Proof.
  unfold body. destruct imp.
  - exists [], [PostStage Spatial; PostStage Temporal]. unfold implicit_tr. rewrite <- !app_assoc. reflexivity.
  - exists (if values P then [SetTime Spatial (when_stage z r)] else []).
    exists ((if Nat.eqb r 1 && asks P then [Suggest Spatial; Suggest Temporal] else []) ++ [PostStage Spatial; PostStage Temporal]).
    unfold explicit_tr. rewrite <- !app_assoc. reflexivity.
Qed.
Lemma body_at x o r e : succeeded x = true -> (1 <= r <= stages (tabl (of x)))%nat ->
  In e (body (of x) (implicitly x) (does x r) r) ->
  exists before rest, calls x = before ++ e :: rest /\ stage_no (knows o before) = Some r /\ in_stage (knows o before) = true.
Proof.
  intros S L I. destruct (stage_inside (of x) (implicitly x) (does x) r L) as (pre & post & E).
  destruct (body_inside (of x) (implicitly x) (does x r) r) as (p1 & p2 & E1).
  apply (in_stage_at (of x) o r (calls x) (pre ++ p1) (body (of x) (implicitly x) (does x r) r) (p2 ++ post)).
  - rewrite (calls_all x S), E, E1. rewrite <- !app_assoc. reflexivity.
  - apply body_quiet.
  - exact I.
Qed.
Lemma in_old z o r p i : (i < r)%nat -> has o p = true -> big (coefficient o (tabl z) r i) = true ->
  In (Eval o (Old i) p) (pre_tr z r p).
Proof.
  intros L H B. unfold pre_tr. apply in_flat_map. exists i. split; [apply in_seq; lia|]. unfold old_tr.
  destruct o; cbn in H, B; rewrite H, B; cbn [andb].
  - apply in_or_app. right. apply in_or_app. left. now left.
  - apply in_or_app. right. apply in_or_app. right. now left.
Qed.
Lemma in_body_old z imp P r o p i : In p (sweep P) -> (i < r)%nat -> has o p = true -> big (coefficient o (tabl z) r i) = true ->
  In (Eval o (Old i) p) (body z imp P r).
Proof.
  intros I L H B. unfold body. destruct imp.
  - apply in_or_app. left. apply in_flat_map. exists p. split; [exact I|now apply in_old].
  - apply in_flat_map. exists p. split; [exact I|]. unfold explicit_at. apply in_or_app. left.
    replace (has0 p || has1 p) with true by (destruct o; cbn in H; rewrite H; [reflexivity|now rewrite orb_true_r]).
    now apply in_old.
Qed.
Lemma in_body_new z P r o l p : In l (solves P) -> In p l -> has o p = true -> (o = Spatial -> big (b (tabl z) r r) = true) ->
  In (Eval o New p) (body z true P r).
Proof.
  intros I J H B. unfold body. apply in_or_app. right. apply in_or_app. right. apply in_flat_map. exists l. split; [exact I|].
  unfold assembly_tr. apply in_or_app. right. apply in_flat_map. exists p. split; [exact J|]. unfold new_tr.
  destruct o; cbn in H; rewrite H.
  - rewrite (B eq_refl). cbn. auto.
  - apply in_or_app. right. now left.
Qed.
Lemma in_body_mass z P r p : In p (sweep P) -> uv p = true -> has1 p = true -> In (Eval Temporal New p) (body z false P r).
Proof.
  intros I U H. unfold body. apply in_flat_map. exists p. split; [exact I|]. unfold explicit_at. rewrite U, H. cbn [andb].
  apply in_or_app. right. apply in_or_app. right. now left.
Qed.
Lemma big_iff v : big v = true <-> / 1000000 < Rabs v.
Proof. unfold big. destruct (Rlt_dec _ _); split; auto; discriminate. Qed.
