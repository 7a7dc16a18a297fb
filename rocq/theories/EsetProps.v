(** C83-C86: index sets of partition views, element mapper, cell cache of the output. *)
From Verif Require Import Common CommonFacts EsetModel EsetSpec EsetProofs EsetProofs2 EsetProofs3.
From Coq Require Import Permutation.

(** ** Examples: an interval of two cells, and the same after refinement of one cell; triangles and quadrilaterals *)
Definition line_off (d : nat) : nat := d.
Definition cell1 := mkent 0 1 0 0.  Definition cell2 := mkent 0 1 1 2.
Definition vert1 := mkent 1 0 0 0.  Definition vert2 := mkent 1 0 1 1.  Definition vert3 := mkent 1 0 2 2.
Definition line : grid := mkgrid 1 [cell1; cell2; vert3; vert1; vert2] (fun c => [1 - c]) (fun t => match t with 1 => 2 | _ => 3 end) line_off
  (fun e => if e_base e =? 0 then [cell1; vert1; vert2] else [cell2; vert2; vert3]).
Definition line3 : grid := mkgrid 1 [cell1; cell2; mkent 0 1 2 2; vert3; vert1; vert2; mkent 1 0 3 2] (fun c => [1 - c]) (fun t => match t with 1 => 3 | _ => 4 end) line_off
  (fun e => [e]).
Definition mixed_off (d : nat) : nat := if d <=? 2 then d else 4.
Definition tri k := mkent 0 2 k 0.  Definition quad k := mkent 0 3 k 0.
Definition mixed : grid := mkgrid 2 [tri 0; quad 0] (fun c => match c with 0 => [2; 3] | _ => [] end) (fun t => 1) mixed_off (fun e => [e]).
Definition mixed2 : grid := mkgrid 2 [tri 0; quad 0; tri 1] (fun c => match c with 0 => [2; 3] | _ => [] end) (fun t => if t =? 2 then 2 else 1) mixed_off (fun e => [e]).

Ltac wf_line := constructor;
  [ intros d; cbn; unfold line_off; lia
  | intros c t Hc Ht; cbn in *; destruct c as [|[|c]]; cbn in *; unfold line_off; lia
  | intros c Hc; cbn; constructor; [intros [] | constructor]
  | intros e He; cbn in He; in_cases He; subst; cbn; auto
  | intros c t Hc Ht; cbn in *; destruct c as [|[|c]]; cbn in *; [| | lia]; destruct Ht as [<-|[]]; cbn ].
Lemma line_wf : wf_grid line.
Proof. wf_line; [reflexivity|]. apply NoDup_Permutation; [repeat constructor; cbn; lia | apply (seq_NoDup 3 0) | cbn; lia]. Qed.
Lemma line3_wf : wf_grid line3.
Proof. wf_line; [reflexivity|]. apply NoDup_Permutation; [repeat constructor; cbn; lia | apply (seq_NoDup 4 0) | cbn; lia]. Qed.
Ltac wf_mixed := constructor;
  [ intros d; cbn; unfold mixed_off; destruct d as [|[|[|d]]]; cbn; lia
  | intros c t Hc Ht; cbn in *; destruct c as [|c]; cbn in *; [unfold mixed_off; cbn; lia | contradiction]
  | intros c Hc; cbn; destruct c; repeat constructor; cbn; lia
  | intros e He; cbn in He; in_cases He; subst; cbn; auto with arith
  | intros c t Hc Ht; cbn in *; destruct c as [|c]; [|contradiction]; in_cases Ht; subst; reflexivity ].
Lemma mixed_wf : wf_grid mixed.
Proof. wf_mixed. Qed.
Lemma mixed2_wf : wf_grid mixed2.
Proof. wf_mixed. Qed.
Lemma line_closed : closed line (fun _ => true).
Proof.
  intros s. split.
  - intros (H & _). cbn in H. in_cases H; subst;
    first [ exists cell1; cbn; repeat split; auto 10; fail | exists cell2; cbn; repeat split; auto 10; fail ].
  - intros (e & He & H0 & _ & Hs). cbn in He. in_cases He; subst; try discriminate; cbn in Hs; in_cases Hs; subst; cbn; auto 10.
Qed.

(** ** C83 *)
Theorem c83_numbering g P mask iterators a b :
  wf_grid g -> array_of g a -> array_of g b -> (iterators = true \/ closed g P) ->
  exists s, update g P iterators (construct g mask a b) false = Ok (true, s) /\
    numbering g P mask (index P s) (unique_index P s) s.
Proof.
  intros W Ha Hb C.
  destruct (update_numbering g P iterators (construct g mask a b) false W) as (s & E & N & _); auto.
  - repeat split; auto. apply repeat_length.
  - eauto.
Qed.
Print Assumptions c83_numbering.

(** The specialization for all partitions gives a numbering of all entities of the selected codimensions. *)
Theorem c83_all g mask a b : wf_grid g -> array_of g a -> array_of g b ->
  exists s, update_all g (construct g mask a b) false = Ok (true, s) /\
    numbering g (fun _ => true) mask (index_all s) (unique_index_all s) s.
Proof.
  intros W Ha Hb. destruct (update_all_numbering g (construct g mask a b) false W) as (s & E & N & _); auto.
  - repeat split; auto. apply repeat_length.
  - eauto.
Qed.
Print Assumptions c83_all.

(** The index of a sub-entity seen from an element is the index of that entity. *)
Theorem c83_sub_index P s e sub : P (e_part e) = true -> P (e_part sub) = true -> sub_index P s e sub = index P s sub.
Proof. intros H H'. unfold sub_index, index. now rewrite H, H'. Qed.
Print Assumptions c83_sub_index.

Example c83_case : wf_grid line /\ array_of line [7; 8; 9] /\ closed line (fun _ => true) /\
  length (members line (fun p => p =? 0) [true; true]) = 2 /\ length (members line (fun _ => true) [true; true]) = 5.
Proof. split; [exact line_wf|]. split; [reflexivity|]. split; [exact line_closed|]. split; reflexivity. Qed.

(** For a partition set that is not closed, the answers depend on whether the grid has iterators for all codimensions: the set of
    interior entities of [line] has one vertex or two. *)
Theorem c83_partition_refuted : exists g P mask a b s s', wf_grid g /\ array_of g a /\ array_of g b /\
  update g P true (construct g mask a b) false = Ok (true, s) /\ update g P false (construct g mask a b) false = Ok (true, s') /\
  size_codim g s 1 = Ok 1 /\ size_codim g s' 1 = Ok 2 /\
  exists e sub, In e (members g P mask) /\ In sub (g_subs g e) /\ sub_index P s e sub = UB.
Proof.
  exists line, (fun p => p =? 0), [true; true], [7; 8; 9], [7; 8; 9].
  eexists. eexists. split; [exact line_wf|]. split; [reflexivity|]. split; [reflexivity|]. split; [reflexivity|]. split; [reflexivity|].
  split; [reflexivity|]. split; [reflexivity|]. exists cell1, vert2. repeat split; cbn; auto.
Qed.
Print Assumptions c83_partition_refuted.

(** ** C84 *)
Lemma numbering_sel g P m idx uidx s w (f : istate -> gent -> res nat) (f' : istate -> gent -> res nat) : needs_update s = false ->
  (forall e, idx e = f s e) -> (forall e, uidx e = f' s e) ->
  numbering g P m idx uidx s ->
  forall s', s' = mkis false w (active_gts s) (active s) (gt_off s) (mapped s) (geometry_types s) (per_codim s) (indices s) ->
  (forall e, f s' e = f s e) -> (forall e, f' s' e = f' s e) -> numbering g P m (f s') (f' s') s'.
Proof.
  intros N E1 E2 [H1 H2 H3 H4 H5 H6 H7 H8] s' -> F1 F2. unfold size_gt, size_codim, types_codim, types_all in *. rewrite N in *. constructor; auto.
  - intros t Ht. eapply consecutive_ext; [|apply H1, Ht]. intros e _. now rewrite F1, E1.
  - eapply consecutive_ext; [|exact H2]. intros e _. now rewrite F2, E2.
Qed.
Definition good g P m s := needs_update s = false /\ numbering g P m (index P s) (unique_index P s) s.
Definition good_all g m s := needs_update s = false /\ numbering g (fun _ => true) m (index_all s) (unique_index_all s) s.
Lemma good_sel g P m s w : good g P m s -> w = m ->
  good g P m (mkis false w (active_gts s) (active s) (gt_off s) (mapped s) (geometry_types s) (per_codim s) (indices s)).
Proof.
  intros (N & H) _. split; [reflexivity|].
  eapply (numbering_sel g P m _ _ s w (index P) (unique_index P)); eauto; intros e; unfold unique_index, index, stored; rewrite N; reflexivity.
Qed.
Lemma good_all_sel g m s w : good_all g m s -> w = m ->
  good_all g m (mkis false w (active_gts s) (active s) (gt_off s) (mapped s) (geometry_types s) (per_codim s) (indices s)).
Proof.
  intros (N & H) _. split; [reflexivity|].
  eapply (numbering_sel g _ m _ _ s w index_all unique_index_all); eauto; intros e; reflexivity.
Qed.
Lemma good_up g P it : wf_grid g -> (it = true \/ closed g P) -> forall s f, arrays g s -> length (wanted s) = S (g_dim g) -> needs_update s || f = true ->
    exists s', update g P it s f = Ok (true, s') /\ good g P (wanted s) s' /\ needs_update s' = false /\ wanted s' = wanted s /\ active s' = wanted s /\ arrays g s'.
Proof. intros W C s f A _ F. destruct (update_numbering g P it s f W A F C) as (s' & E & N & Z & H). exists s'. unfold good. auto. Qed.
Lemma good_up_all g : wf_grid g -> forall s f, arrays g s -> length (wanted s) = S (g_dim g) -> needs_update s || f = true ->
    exists s', update_all g s f = Ok (true, s') /\ good_all g (wanted s) s' /\ needs_update s' = false /\ wanted s' = wanted s /\ active s' = wanted s /\ arrays g s'.
Proof. intros W s f A _ F. destruct (update_all_numbering g s f W A F) as (s' & E & N & Z & H). exists s'. unfold good_all. auto. Qed.
Lemma wanted_step up s o s' : (forall s f b s1, up s f = Ok (b, s1) -> wanted s1 = wanted s) -> step up s o = Ok s' -> wanted s' = select (wanted s) o.
Proof.
  intros H E. destruct o as [|c|c|f]; cbn [step select] in *.
  - now injection E as <-.
  - unfold add_codim, set_codim in E. destruct (negb _); [discriminate|]. now injection E as <-.
  - unfold remove_codim, set_codim in E. destruct (negb _); [discriminate|]. now injection E as <-.
  - apply bind_ok in E as ([b s1] & E & E'). injection E' as <-. eauto.
Qed.
Lemma wanted_fold up ops : (forall s f b s1, up s f = Ok (b, s1) -> wanted s1 = wanted s) -> forall s s', foldM (step up) ops s = Ok s' ->
  wanted s' = fold_left select ops (wanted s).
Proof.
  intros H. induction ops as [|o ops IH]; intros s s' E; cbn [foldM fold_left] in *; [now injection E as <-|].
  apply bind_ok in E as (s1 & E1 & E2). rewrite <- (wanted_step _ _ _ _ H E1). auto.
Qed.
Lemma base_wanted g s f b s1 : base_update g s f = Ok (b, s1) -> wanted s1 = wanted s.
Proof.
  unfold base_update. destruct (negb _); [intros E; now injection E as <- <-|].
  destruct (foldM _ _ _) as [[[o gts] a]| |]; cbn [bind]; intros E; try discriminate. now injection E as <- <-.
Qed.
Lemma update_wanted g P it s f b s1 : update g P it s f = Ok (b, s1) -> wanted s1 = wanted s.
Proof.
  unfold update. intros E. apply bind_ok in E as ([c s2] & E1 & E2). apply base_wanted in E1. rewrite <- E1. destruct c; cbn [negb] in E2.
  - apply bind_ok in E2 as (mp & _ & E2). cbn [bind] in E2. apply bind_ok in E2 as ([[o m] ix] & _ & E2). now injection E2 as <- <-.
  - now injection E2 as <- <-.
Qed.
Lemma update_all_wanted g s f b s1 : update_all g s f = Ok (b, s1) -> wanted s1 = wanted s.
Proof.
  unfold update_all. intros E. apply bind_ok in E as ([c s2] & E1 & E2). apply base_wanted in E1. rewrite <- E1. destruct c; cbn [negb] in E2.
  - apply bind_ok in E2 as (mp & _ & E2). apply bind_ok in E2 as (m & _ & E2). now injection E2 as <- <-.
  - now injection E2 as <- <-.
Qed.
Lemma runs g up Q : (forall s f, arrays g s -> length (wanted s) = S (g_dim g) -> needs_update s || f = true ->
    exists s', up s f = Ok (true, s') /\ Q (wanted s) s' /\ needs_update s' = false /\ wanted s' = wanted s /\ active s' = wanted s /\ arrays g s') ->
  (forall s, needs_update s = false -> up s false = Ok (false, s)) ->
  (forall m s w, Q m s -> w = m -> Q m (mkis false w (active_gts s) (active s) (gt_off s) (mapped s) (geometry_types s) (per_codim s) (indices s))) ->
  forall ops s, (forall o, In o ops -> valid_op g o) -> hist g Q s -> exists s', foldM (step up) ops s = Ok s' /\ hist g Q s'.
Proof.
  intros H1 H2 H3. induction ops as [|o ops IH]; intros s V H; [exists s; auto|]. cbn [foldM].
  assert (exists s1, step up s o = Ok s1) as (s1 & E).
  { pose proof (V o (or_introl eq_refl)) as Vo. destruct H as (A & L & _). destruct o as [|c|c|f]; cbn [step]; eauto.
    - unfold add_codim, set_codim. cbn in Vo. destruct (c <? length (wanted s)) eqn:E; [cbn [negb]; eauto | lia].
    - unfold remove_codim, set_codim. cbn in Vo. destruct (c <? length (wanted s)) eqn:E; [cbn [negb]; eauto | lia].
    - destruct (needs_update s || f) eqn:F.
      + destruct (H1 s f A L F) as (s1 & -> & _). cbn. eauto.
      + apply orb_false_iff in F as (F & ->). rewrite (H2 s F). cbn. eauto. }
  rewrite E. cbn [bind]. apply IH; [intros; apply V; now right|]. eapply hist_step; eauto.
Qed.

(** After any history of calls on a grid, an index set that claims to be up to date numbers exactly the selected entities. *)
Theorem c84_history g P mask iterators a b ops :
  wf_grid g -> array_of g a -> array_of g b -> length mask = S (g_dim g) -> (iterators = true \/ closed g P) ->
  (forall o, In o ops -> valid_op g o) ->
  exists s, foldM (step (update g P iterators)) ops (construct g mask a b) = Ok s /\
    (needs_update s = false -> numbering g P (fold_left select ops mask) (index P s) (unique_index P s) s).
Proof.
  intros W Ha Hb L C V.
  destruct (runs g (update g P iterators) (good g P)) with (ops := ops) (s := construct g mask a b) as (s & E & H); auto.
  - apply good_up; auto.
  - intros; now apply noop.
  - intros; now apply good_sel.
  - now apply hist_construct.
  - exists s. split; [exact E|]. intros N. pose proof (wanted_fold _ _ (update_wanted g P iterators) _ _ E) as Ew. cbn [wanted construct] in Ew.
    rewrite <- Ew. eapply hist_uptodate in H; eauto. apply H.
Qed.
Print Assumptions c84_history.

Theorem c84_history_all g mask a b ops :
  wf_grid g -> array_of g a -> array_of g b -> length mask = S (g_dim g) -> (forall o, In o ops -> valid_op g o) ->
  exists s, foldM (step (update_all g)) ops (construct g mask a b) = Ok s /\
    (needs_update s = false -> numbering g (fun _ => true) (fold_left select ops mask) (index_all s) (unique_index_all s) s).
Proof.
  intros W Ha Hb L V.
  destruct (runs g (update_all g) (good_all g)) with (ops := ops) (s := construct g mask a b) as (s & E & H); auto.
  - apply good_up_all; auto.
  - intros; now apply noop_all.
  - intros; now apply good_all_sel.
  - now apply hist_construct.
  - exists s. split; [exact E|]. intros N. pose proof (wanted_fold _ _ (update_all_wanted g) _ _ E) as Ew. cbn [wanted construct] in Ew.
    rewrite <- Ew. eapply hist_uptodate in H; eauto. apply H.
Qed.
Print Assumptions c84_history_all.

(** After the grid has changed to g', a forced update gives a numbering of g', whatever the history on g was. *)
Theorem c84_forced g g' P mask iterators iterators' a b ops s :
  wf_grid g -> wf_grid g' -> same_kind g g' -> array_of g a -> array_of g b -> length mask = S (g_dim g) ->
  (iterators = true \/ closed g P) -> (iterators' = true \/ closed g' P) ->
  foldM (step (update g P iterators)) ops (construct g mask a b) = Ok s ->
  exists s', update g' P iterators' s true = Ok (true, s') /\ needs_update s' = false /\
    numbering g' P (fold_left select ops mask) (index P s') (unique_index P s') s'.
Proof.
  intros W W' (K1 & K2) Ha Hb L C C' E.
  assert (hist g (good g P) s) as (A & _).
  { eapply (hist_fold g (update g P iterators)); [now apply good_up | intros; now apply noop | intros; now apply good_sel | | exact E]. now apply hist_construct. }
  assert (arrays g' s) as A'. { unfold arrays, g_ngt in *. rewrite <- K1, <- K2. exact A. }
  pose proof (wanted_fold _ _ (update_wanted g P iterators) _ _ E) as Ew. cbn [wanted construct] in Ew. rewrite <- Ew.
  destruct (update_numbering g' P iterators' s true W' A') as (s' & E' & N & Z & _); auto.
  - apply orb_true_r.
  - eauto.
Qed.
Print Assumptions c84_forced.

(** The call tells whether something was recomputed, and afterwards nothing is outstanding. *)
Theorem c84_result g P mask iterators a b ops s force :
  wf_grid g -> array_of g a -> array_of g b -> length mask = S (g_dim g) -> (iterators = true \/ closed g P) ->
  foldM (step (update g P iterators)) ops (construct g mask a b) = Ok s ->
  exists s', update g P iterators s force = Ok (needs_update s || force, s') /\ needs_update s' = false /\ wanted s' = wanted s.
Proof.
  intros W Ha Hb L C E.
  assert (hist g (good g P) s) as (A & Lw & _).
  { eapply (hist_fold g (update g P iterators)); [now apply good_up | intros; now apply noop | intros; now apply good_sel | | exact E]. now apply hist_construct. }
  destruct (needs_update s || force) eqn:F.
  - destruct (good_up g P iterators W C s force A Lw F) as (s' & E' & _ & N & Hw & _). eauto.
  - apply orb_false_iff in F as (F & ->). exists s. rewrite noop by auto. auto.
Qed.
Print Assumptions c84_result.

Example c84_case : exists s, foldM (step (update line (fun p => p =? 0) true)) [Update false; Add 1; Remove 0; Update false; ClearCodims; Add 1] (construct line [true; false] [7; 8; 9] [7; 8; 9]) = Ok s /\
  needs_update s = false /\ fold_left select [Update false; Add 1; Remove 0; Update false; ClearCodims; Add 1] [true; false] = [false; true] /\ size_codim line s 1 = Ok 1 /\ same_kind line line3.
Proof. eexists. split; [vm_compute; reflexivity|]. repeat split. Qed.

(** An entity of a codimension that is not selected is reported as contained although it has no index. *)
Theorem c84_contains_refuted : exists g P s e, wf_grid g /\ foldM (step (update g P true)) [Update false] (construct g [true; false] [7; 8; 9] [7; 8; 9]) = Ok s /\
  needs_update s = false /\ In e (g_entities g) /\ contains_entity P true e = true /\ index P s e = UB.
Proof. exists line, (fun _ => true). eexists. exists vert1. split; [exact line_wf|]. split; [reflexivity|]. repeat split; cbn; auto. Qed.
Print Assumptions c84_contains_refuted.

(** After the grid changed from g to g': reset() and selecting the same codimensions again leaves an index set that claims to be
    up to date with the sizes of g; update() does nothing. *)
Theorem c84_stale_refuted : exists g g' P mask a b s, wf_grid g /\ wf_grid g' /\ same_kind g g' /\ array_of g a /\ array_of g b /\
  foldM (step (update g P true)) [Update false; ClearCodims; Add 0] (construct g mask a b) = Ok s /\
  needs_update s = false /\ update g' P true s false = Ok (false, s) /\
  size_codim g' s 0 = Ok 2 /\ length (of_codim 0 (members g' P (wanted s))) = 3 /\
  exists e, In e (members g' P (wanted s)) /\ index P s e = UB.
Proof.
  exists line, line3, (fun _ => true), [true; false], [7; 8; 9], [7; 8; 9]. eexists.
  split; [exact line_wf|]. split; [exact line3_wf|]. split; [split; reflexivity|]. split; [vm_compute; reflexivity|]. split; [vm_compute; reflexivity|].
  split; [vm_compute; reflexivity|]. split; [vm_compute; reflexivity|]. split; [vm_compute; reflexivity|]. split; [vm_compute; reflexivity|]. split; [vm_compute; reflexivity|].
  exists (mkent 0 1 2 2). split; [cbn; auto | reflexivity].
Qed.
Print Assumptions c84_stale_refuted.

(** ** C85 *)
Theorem c85_mapper g : wf_grid g -> exists offsets, mapper_offsets g = Ok offsets /\ consecutive (map_element g offsets) (of_codim 0 (g_entities g)).
Proof. apply mapper_consecutive. Qed.
Print Assumptions c85_mapper.
Example c85_case : wf_grid mixed2 /\ length (of_codim 0 (g_entities mixed2)) = 3 /\
  exists o, mapper_offsets mixed2 = Ok o /\ map (map_element mixed2 o) (g_entities mixed2) = [Ok 0; Ok 2; Ok 1].
Proof. split; [exact mixed2_wf|]. split; [reflexivity|]. eexists. split; reflexivity. Qed.

(** The offsets are not refreshed when the grid changes: two elements get the same number. *)
Theorem c85_stale_refuted : exists g g' offsets e e', wf_grid g /\ wf_grid g' /\ same_kind g g' /\ mapper_offsets g = Ok offsets /\
  In e (g_entities g') /\ In e' (g_entities g') /\ e <> e' /\ e_codim e = 0 /\ e_codim e' = 0 /\ map_element g' offsets e = map_element g' offsets e'.
Proof.
  exists mixed, mixed2. eexists. exists (quad 0), (tri 1). split; [exact mixed_wf|]. split; [exact mixed2_wf|]. split; [split; reflexivity|].
  split; [reflexivity|]. cbn. repeat split; auto. discriminate.
Qed.
Print Assumptions c85_stale_refuted.

(** ** C86 *)
Theorem c86_cache {V} (cell_index : nat -> nat) (x : nat -> V) ops :
  (forall c c', cell_index c = cell_index c' -> c = c') -> never_twice None false ops ->
  snd (fold_left (vtk_step cell_index) ops (vtk_init x, [])) = map Some (uncached x ops).
Proof. intros I N. rewrite (vtk_run cell_index I ops (vtk_init x) None false); auto. reflexivity. Qed.
Print Assumptions c86_cache.
Example c86_case : never_twice None false [Evaluate 0; Evaluate 0; Evaluate 1; SetVector (fun c => c + 5); Evaluate 0; Evaluate 1] /\
  uncached (fun c => c) [Evaluate 0; Evaluate 0; Evaluate 1; SetVector (fun c => c + 5); Evaluate 0; Evaluate 1] = [0; 0; 1; 5; 6].
Proof. cbn. repeat split; discriminate. Qed.

(** On the cell written last, an update of the vector is not seen: a grid of one cell is written with its old values. *)
Theorem c86_stale_refuted : exists (x : nat -> nat) ops, snd (fold_left (vtk_step (fun c => c)) ops (vtk_init x, [])) <> map Some (uncached x ops).
Proof. exists (fun _ => 0), [Evaluate 0; SetVector (fun _ => 1); Evaluate 0]. discriminate. Qed.
Print Assumptions c86_stale_refuted.
