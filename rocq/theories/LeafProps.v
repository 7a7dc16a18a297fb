(** C59: the orderings find every DOF that the finite elements attach to entities of the grid. *)
From Verif Require Import CommonFacts LeafSpec LeafProofs LeafProofs2 LeafProofs3.

(** C59: for a finite element map of unknown size, where within a cell all sub-entities of one type that carry DOFs carry the
    same number, where cells agree on shared entities, and where no entity is left out, the update of a single leaf yields
    an index map that numbers the DOFs of all cells consecutively from 0, without collision. *)
Theorem c59_numbered : forall f counts cells, on_entities counts cells -> fem_fixed f = false -> Forall uniform cells ->
  consistent cells -> no_gaps cells -> covered counts cells ->
  exists st, leaf_update true f counts cells 0 = Ok st /\ let o := OLeaf false (leaf_data true counts st) in
    (forall en i, attached cells en i -> exists k, mapIndex o en [i] = Ok [k] /\ k < osize o) /\
    (forall en i en' i', attached cells en i -> attached cells en' i' -> mapIndex o en [i] = mapIndex o en' [i'] -> (en, i) = (en', i')) /\
    (forall k, k < osize o -> exists en i, attached cells en i /\ mapIndex o en [i] = Ok [k]).
Proof. exact numbered. Qed.
Print Assumptions c59_numbered.

(** C59: without the last three assumptions every DOF of every cell is still known to the ordering, whether the sizes are
    promised by the finite element map, detected to be fixed or kept per entity. *)
Theorem c59_every_dof : forall direct f counts cells before, well_behaved f counts cells ->
  exists st, leaf_update direct f counts cells before = Ok st /\
    forall en i, attached cells en i -> exists n, entity_size direct st (fst en) (snd en) = Ok n /\ i < n /\
      dofs_on (leaf_data direct counts st) en = n.
Proof.
  intros direct f counts cells before W. destruct (every_dof direct f counts cells before W) as (st & E & A). exists st. split; auto.
  intros en i At. pose proof (A _ _ At) as L. destruct W as [G _].
  assert (Hen : in_grid counts en) by (destruct At as (c & ? & ?); eapply G; eauto).
  destruct (data_size _ _ _ _ _ _ _ G E Hen) as (n & S & D). exists n. rewrite D in L. auto.
Qed.
Print Assumptions c59_every_dof.

(** C59: when the sizes are kept per entity they are exact for every entity of the grid, whatever the finite elements. *)
Theorem c59_varying : forall direct f counts cells before st, fem_fixed f = false -> on_entities counts cells ->
  leaf_update direct f counts cells before = Ok st -> fixed_size st = false ->
  forall en, in_grid counts en -> entity_size direct st (fst en) (snd en) = Ok (number_of_dofs cells en).
Proof. exact variable_sizes. Qed.
Print Assumptions c59_varying.

(** C59: when the sizes are detected to be fixed, they are large enough for all cells that are uniform, and exact where
    cells agree about the entities they share. *)
Theorem c59_detected : forall direct f counts cells before st, fem_fixed f = false -> on_entities counts cells ->
  leaf_update direct f counts cells before = Ok st -> fixed_size st = true -> Forall uniform cells ->
  forall en i, attached cells en i -> exists n, entity_size direct st (fst en) (snd en) = Ok n /\ i < n /\
    (consistent cells -> n = number_of_dofs cells en).
Proof. exact fixed_sound. Qed.
Print Assumptions c59_detected.

(** C59: with the same number of DOFs on all entities of one type, and cells that all have the same types of sub-entities,
    fixed sizes are always detected. *)
Theorem c59_homogeneous : forall direct f counts cells before st n, fem_fixed f = false -> on_entities counts cells ->
  leaf_update direct f counts cells before = Ok st -> homogeneous counts n cells -> fixed_size st = true.
Proof. exact fixed_found. Qed.
Print Assumptions c59_homogeneous.

(** C59: a promise of fixed sizes is taken over for the types that occur in the grid. *)
Theorem c59_promise : forall direct f counts cells before st, fem_fixed f = true -> keeps_promise f cells ->
  on_entities counts cells -> leaf_update direct f counts cells before = Ok st ->
  fixed_size st = true /\ (forall c, In c cells -> length c <= max_local st) /\
  (forall gt e, gt < length counts -> entity_size direct st gt e = Ok (if 0 <? nth gt counts 0 then fem_size f gt else 0)) /\
  forall en i, attached cells en i -> exists n, entity_size direct st (fst en) (snd en) = Ok n /\ i < n.
Proof. exact promised. Qed.
Print Assumptions c59_promise.

(** C59: the maximal local size is that of the largest cell; below entity-blocked orderings it never decreases from one
    update to the next. *)
Theorem c59_max_local : forall direct f counts cells before, on_entities counts cells ->
  exists st, leaf_update direct f counts cells before = Ok st /\
    (fem_fixed f = false -> max_local st = Nat.max (if direct then 0 else before) (list_max (map (@length _) cells))).
Proof. exact update_ok. Qed.
Print Assumptions c59_max_local.

(** C59: the offsets that the index map of a leaf reads are the ones stored by the update. *)
Theorem c59_tables : forall f counts cells before st, on_entities counts cells -> fem_fixed f = false ->
  leaf_update true f counts cells before = Ok st -> fixed_size st = false ->
  exists gts, leaf_data true counts st = EntitySizes gts /\
    leaf_entity_offsets gts = gt_entity_offsets st /\ leaf_dof_offsets gts = per_entity st.
Proof. exact tables. Qed.
Print Assumptions c59_tables.

(** C59: below an entity-blocked ordering with any tree of leaves, every DOF of every leaf is known to the ordering. *)
Theorem c59_tree : forall counts t, (forall p f cells, leaf_at t p f cells -> well_behaved f counts cells) ->
  exists t', tree_update counts t = Ok t' /\
    forall p f cells en i, leaf_at t p f cells -> attached cells en i -> ldof t' en (p ++ [i]).
Proof. exact tree_dofs. Qed.
Print Assumptions c59_tree.

(** A cell with two edges, the first with two DOFs and the last with one (a variable order element); geometry type 0 are the
    edges, type 1 the cells. *)
Definition mixed : list keys := [[((0, 0), 0); ((0, 0), 1); ((0, 1), 0)]].
Definition any_size := mkfem false (fun _ => 0) 0.

(** C59 fails where edges of one cell carry different numbers of DOFs: the update compares only the size of the last
    sub-entity of each type (directleaflocalordering.hh 250-282, leaflocalordering.hh 143-155), so one cell with two DOFs on
    its first and one DOF on its last edge is declared to have one DOF on each edge, and two of its DOFs share a container
    index. *)
Theorem c59_mixed_refuted : exists f counts cells st, on_entities counts cells /\ consistent cells /\ no_gaps cells /\
  leaf_update true f counts cells 0 = Ok st /\ fixed_size st = true /\
  exists en i en' i', attached cells en i /\ attached cells en' i' /\ (en, i) <> (en', i') /\
    mapIndex (OLeaf false (leaf_data true counts st)) en [i] = mapIndex (OLeaf false (leaf_data true counts st)) en' [i'].
Proof.
  exists any_size, [2; 1], mixed. eexists. split; [|split; [|split; [|split; [reflexivity|split; [reflexivity|]]]]].
  - intros c en i [<-|[]] H. cbn in H. decompose [or] H; try easy; injection H0 as <- <- || injection H1 as <- <-; split; cbn; lia.
  - intros c c' en i i' [<-|[]] [<-|[]] _ _. reflexivity.
  - intros en i j (c & [<-|[]] & H) L. cbn in H. exists (hd [] mixed). split; [now left|].
    decompose [or] H; try easy; injection H0 as <- <- || injection H1 as <- <-; try lia.
    replace j with 0 by lia. now left.
  - exists (0, 0), 1, (0, 1), 0. repeat split; try (eexists; split; [now left|]; cbn; auto). discriminate.
Qed.
Print Assumptions c59_mixed_refuted.

(** Non-trivial instances: two cells (type 1) sharing edge 1 (type 0) of three, with linear elements on the edges. *)
Definition two_cells : list keys := [[((0, 0), 0); ((0, 1), 0); ((1, 0), 0); ((1, 0), 1)]; [((0, 1), 0); ((0, 2), 0); ((1, 1), 0); ((1, 1), 1)]].
(** The second cell has only one interior DOF. *)
Definition p_cells : list keys := [[((0, 0), 0); ((0, 1), 0); ((1, 0), 0); ((1, 0), 1)]; [((0, 1), 0); ((0, 2), 0); ((1, 1), 0)]].

Ltac split_in H := cbn in H; repeat (destruct H as [H|H]); try contradiction.
Ltac in_list := first [left; reflexivity | right; in_list].
Lemma p_on : on_entities [3; 2] p_cells.
Proof. intros c en i [<-|[<-|[]]] H; split_in H; injection H as <- <-; split; cbn; lia. Qed.
Example c59_numbered_case : on_entities [3; 2] p_cells /\ fem_fixed any_size = false /\ Forall uniform p_cells /\
  consistent p_cells /\ no_gaps p_cells /\ covered [3; 2] p_cells.
Proof.
  split; [exact p_on|]. split; [reflexivity|]. split; [|split; [|split]].
  - repeat constructor; intros en i en' i' H H' E; split_in H; split_in H'; injection H as <- <-; injection H' as <- <-;
      cbn in E; try discriminate; reflexivity.
  - intros c c' en i i' [<-|[<-|[]]] [<-|[<-|[]]] H H'; split_in H; split_in H'; injection H as <- <-;
      try discriminate; first [reflexivity | exfalso; inversion H'].
  - intros en i j (c & [<-|[<-|[]]] & H) L; split_in H; injection H as <- <-; try lia.
    replace j with 0 by lia. exists (nth 0 p_cells []). split; [now left|]. cbn. in_list.
  - intros en en' i (c & [<-|[<-|[]]] & H) [B1 B2] E; destruct en' as [gt e]; cbn in B1, B2; split_in H; injection H as <- <-; cbn in E; subst gt; cbn in B2;
    exists 0; (destruct e as [|[|[|e]]]; [exists (nth 0 p_cells [])|exists (nth 1 p_cells [])|exists (nth 1 p_cells [])|lia]); try lia;
    (split; [cbn; auto|cbn; in_list]).
Qed.
Example c59_varying_case : exists st, leaf_update true any_size [3; 2] p_cells 0 = Ok st /\ fixed_size st = false /\
  entity_size true st 1 0 = Ok 2 /\ entity_size true st 1 1 = Ok 1.
Proof. eexists. split; [reflexivity|]. auto. Qed.
Example c59_homogeneous_case : homogeneous [3; 2] (fun gt => if gt =? 0 then 1 else 2) two_cells /\
  exists st, leaf_update true any_size [3; 2] two_cells 0 = Ok st /\ fixed_size st = true.
Proof.
  split; [|eexists; split; reflexivity]. intros c gt Hc B. destruct gt as [|[|gt]]; [| |cbn in B; lia]; destruct Hc as [<-|[<-|[]]]; split;
    try (intros en i H E; split_in H; injection H as <- <-; cbn in E; try discriminate; reflexivity);
    left.
  - exists (0, 0), 0. split; auto. cbn. in_list.
  - exists (0, 1), 0. split; auto. cbn. in_list.
  - exists (1, 0), 0. split; auto. cbn. in_list.
  - exists (1, 1), 0. split; auto. cbn. in_list.
Qed.
(** A finite element map that promises the sizes of [two_cells]. *)
Definition promising := mkfem true (fun gt => if gt =? 0 then 1 else 2) 4.
Example c59_promise_case : keeps_promise promising two_cells /\ on_entities [3; 2] two_cells.
Proof.
  split; [split|].
  - intros en i (c & [<-|[<-|[]]] & H); split_in H; injection H as <- <-; cbn; lia.
  - intros c [<-|[<-|[]]]; cbn; lia.
  - intros c en i [<-|[<-|[]]] H; split_in H; injection H as <- <-; split; cbn; lia.
Qed.
Definition two_leaves := FNode true [FLeaf promising two_cells 0; FNode false [FLeaf any_size p_cells 7]].
Example c59_tree_case : forall p f cells, leaf_at two_leaves p f cells -> well_behaved f [3; 2] cells.
Proof.
  intros p f cells L. inversion L as [|? ? k t ? ? ? E L']; subst. destruct k as [|[|k]]; cbn in E; [| |destruct k; discriminate]; injection E as <-.
  - inversion L'; subst. split; [apply c59_promise_case|]. apply c59_promise_case.
  - inversion L' as [|? ? k t ? ? ? E L'']; subst. destruct k as [|k]; cbn in E; [|destruct k; discriminate]. injection E as <-.
    inversion L''; subst. split; [apply p_on|]. apply c59_numbered_case.
Qed.
