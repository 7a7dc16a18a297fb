(** Properties C02-C08: DOF orderings. *)
From Verif Require Import Common OrderingModel OrderingSpec OrderingProofs OrderingProofs2 OrderingProofs3 OrderingProofs4 OrderingProofs5 OrderingProofs6.

(* ------------------------------------------------------------------ C02 *)

Theorem c02_lexicographic_bijection : forall o o', lex_tree o -> update o = Ok o' ->
  o' = o /\ blockCount o' = osize o' /\ numbers_bijectively o' (osize o').
Proof. exact lex_bijection. Qed.
Print Assumptions c02_lexicographic_bijection.

(** The same for every well-formed tree without container blocking (entity-blocked, interleaved, permuted nodes). *)
Theorem c02_flat_tree_bijection : forall o, well_formed o -> flat o ->
  blockCount o = osize o /\ numbers_bijectively o (osize o).
Proof. exact flat_bijective. Qed.
Print Assumptions c02_flat_tree_bijection.

(** With any mixture of container blocking no two DOFs share a container entry. *)
Theorem c02_blocked_tree_separates : forall o, well_formed o -> separates o.
Proof. exact wf_separates. Qed.
Print Assumptions c02_blocked_tree_separates.

Definition ex_leaf2 := OLeaf false (FixedSizes [(4, 1); (3, 2)]).
Definition ex_lex := OLex false [ex_leaf2; OLex false [OLeaf false (EntitySizes [[1; 2]; []]); ex_leaf2]].
Example c02_hypotheses_met : lex_tree ex_lex /\ osize ex_lex = 23 /\ mapIndex ex_lex (1, 2) [1; 1; 1] = Ok [22].
Proof. split; [repeat constructor|]. now vm_compute. Qed.

Definition ex_blocked := OLex true [OGV true [4; 3] (LNode false [LLeaf (FixedSizes [(4, 1); (3, 2)]); LLeaf (EntitySizes [[1; 0; 2; 3]; []])]);
                                   OLeaf true (FixedSizes [(4, 1); (3, 2)])].
Example c02_blocked_hypotheses_met : well_formed ex_blocked /\ mapIndex ex_blocked (0, 2) [0; 1; 1] = Ok [0; 2; 2].
Proof.
  split; [|reflexivity]. apply wf_lex. constructor; [|constructor; [|constructor]].
  - apply wf_gv; [|discriminate]. cbn. apply lok_node; [discriminate|]. constructor; [|constructor; [|constructor]].
    + apply lok_leaf. reflexivity.
    + apply lok_leaf. split; [reflexivity|]. intros [|[|[|gt]]] l E; cbn in E; try discriminate; injection E as <-; auto.
  - apply wf_leaf. constructor.
Qed.

(** Excluded case 1: an unblocked entity-blocked ordering with varying entity sizes reports too few entries, so two
    such spaces below a lexicographic composite share vector entries. *)
Theorem c02_variable_entity_sizes_refuted : exists o,
  (exists ents s, sizes_for ents s /\ o = OGV false ents (LLeaf s)) /\
  update o = Ok o /\ blockCount o < osize o /\
  exists en p en' p', dof_of (OLex false [o; o]) en p /\ dof_of (OLex false [o; o]) en' p' /\ (en, p) <> (en', p') /\
    mapIndex (OLex false [o; o]) en p = mapIndex (OLex false [o; o]) en' p'.
Proof.
  exists (OGV false [2] (LLeaf (EntitySizes [[2; 1]]))). split; [|split; [reflexivity|split]].
  - exists [2], (EntitySizes [[2; 1]]). split; [|reflexivity]. split; [reflexivity|].
    intros [|[|gt]] l E; cbn in E; try discriminate. injection E as <-. auto.
  - vm_compute. lia.
  - exists (0, 1), [0; 0], (0, 0), [1; 0]. repeat split; try discriminate.
    + apply dof_lex with (o := OGV false [2] (LLeaf (EntitySizes [[2; 1]]))); [reflexivity|]. repeat constructor.
    + apply dof_lex with (o := OGV false [2] (LLeaf (EntitySizes [[2; 1]]))); [reflexivity|]. repeat constructor.
Qed.
Print Assumptions c02_variable_entity_sizes_refuted.

(** Excluded case 2: container blocking on an inner node below an entity-blocked ordering maps two DOFs of one
    entity to the same entry. *)
Theorem c02_nested_local_blocking_refuted : exists t en p p',
  let o := OGV true [1] t in
  update o = Ok o /\ dof_of o en p /\ dof_of o en p' /\ p <> p' /\ mapIndex o en p = mapIndex o en p'.
Proof.
  pose (z := LLeaf (FixedSizes [(1, 0)])). pose (u := LLeaf (FixedSizes [(1, 1)])).
  exists (LNode true [LNode true [z; z; u]; LNode true [z; u]]), (0, 0), [0; 2; 0], [1; 1; 0].
  cbv zeta. split; [reflexivity|]. split; [|split; [|split; [discriminate|reflexivity]]].
  - constructor. apply ldof_node with (t := LNode true [z; z; u]); [reflexivity|]. apply ldof_node with (t := u); [reflexivity|]. repeat constructor.
  - constructor. apply ldof_node with (t := LNode true [z; u]); [reflexivity|]. apply ldof_node with (t := u); [reflexivity|]. repeat constructor.
Qed.
Print Assumptions c02_nested_local_blocking_refuted.

(* ------------------------------------------------------------------ C03 *)

(** Interleaving [n] blocks of every child: child [c]'s entries occupy, in block [x], exactly the positions
    [before sizes c .. before sizes c + size_c - 1]; nothing else is produced and nothing is missing. *)
Theorem c03_interleaved_layout : forall b sizes n cs,
  balanced sizes n cs -> Forall well_formed cs -> Forall flat cs ->
  let o := OInter b (tag_offsets sizes) cs in
  let position x c r := if b then [x; before sizes c + r] else [x * sum_nat sizes + (before sizes c + r)] in
  blockCount o = (if b then n else n * sum_nat sizes) /\
  (forall en c p, dof_of o en (c :: p) -> exists x s r, x < n /\ nth_error sizes c = Some s /\ r < s /\
     mapIndex o en (c :: p) = Ok (position x c r)) /\
  (forall x c s r, x < n -> nth_error sizes c = Some s -> r < s ->
     exists en p, dof_of o en (c :: p) /\ mapIndex o en (c :: p) = Ok (position x c r)).
Proof. exact inter_layout. Qed.
Print Assumptions c03_interleaved_layout.

Theorem c03_interleaved_bijection : forall b sizes n cs,
  balanced sizes n cs -> Forall well_formed cs -> Forall flat cs ->
  let o := OInter b (tag_offsets sizes) cs in
  separates o /\ (b = false -> numbers_bijectively o (osize o)).
Proof. exact inter_bijection. Qed.
Print Assumptions c03_interleaved_bijection.

Definition ex_inter b := OInter b (tag_offsets [1; 2]) [OLeaf false (FixedSizes [(3, 1)]); OLeaf false (FixedSizes [(3, 2)])].
Example c03_hypotheses_met : balanced [1; 2] 3 [OLeaf false (FixedSizes [(3, 1)]); OLeaf false (FixedSizes [(3, 2)])] /\
  mapIndex (ex_inter true) (0, 2) [1; 1] = Ok [2; 2] /\ mapIndex (ex_inter false) (0, 2) [1; 1] = Ok [8].
Proof. split; [|split; reflexivity]. split; [discriminate|]. repeat constructor. Qed.

(** update() accepts children with different numbers of blocks and then maps DOFs outside the container. *)
Theorem c03_update_accepts_unbalanced_refuted : forall b, exists sizes cs o' en p h t,
  Forall flat cs /\ Forall well_formed cs /\
  update (OInter b (tag_offsets sizes) cs) = Ok o' /\ dof_of o' en p /\ mapIndex o' en p = Ok (h :: t) /\ blockCount o' <= h.
Proof.
  intros b. exists [1; 1], [OLeaf false (FixedSizes [(1, 1)]); OLeaf false (FixedSizes [(3, 1)])].
  destruct b; do 5 eexists; (split; [repeat constructor|split; [repeat constructor; discriminate|split; [reflexivity|]]]).
  - split; [eapply dof_inter with (c := 1) (en := (0, 2)) (p := [0]); [reflexivity|repeat constructor]|]. split; [reflexivity|]. vm_compute. lia.
  - split; [eapply dof_inter with (c := 1) (en := (0, 2)) (p := [0]); [reflexivity|repeat constructor]|]. split; [reflexivity|]. vm_compute. lia.
Qed.
Print Assumptions c03_update_accepts_unbalanced_refuted.

(* ------------------------------------------------------------------ C04 *)

Theorem c04_chunked_reblocking : forall bs o, 0 < bs -> blockCount o mod bs = 0 -> well_formed o -> flat o ->
  (forall en p, dof_of (OChunk bs o) en p -> exists i, mapIndex o en p = Ok [i] /\ i < osize o /\
     mapIndex (OChunk bs o) en p = Ok [i / bs; i mod bs]) /\
  (forall x y, x < osize o / bs -> y < bs -> exists en p, dof_of (OChunk bs o) en p /\ mapIndex (OChunk bs o) en p = Ok [x; y]) /\
  separates (OChunk bs o) /\
  (forall md, 0 < md -> size_suffix md (OChunk bs o) [] = Ok (osize o / bs)) /\
  (forall md x, size_suffix md (OChunk bs o) [x] = Ok bs).
Proof. exact chunk_layout. Qed.
Print Assumptions c04_chunked_reblocking.

Theorem c04_update_throws_iff_not_divisible : forall bs o o', 0 < bs -> update o = Ok o' ->
  update (OChunk bs o) = if blockCount o' mod bs =? 0 then Ok (OChunk bs o') else Throw.
Proof. exact chunk_update. Qed.
Print Assumptions c04_update_throws_iff_not_divisible.

Example c04_hypotheses_met : blockCount ex_leaf2 mod 5 = 0 /\ well_formed ex_leaf2 /\ flat ex_leaf2 /\
  mapIndex (OChunk 5 ex_leaf2) (1, 2) [1] = Ok [1; 4] /\ update (OChunk 3 ex_leaf2) = Throw.
Proof. repeat split; try constructor. discriminate. Qed.

(* ------------------------------------------------------------------ C05 *)

Theorem c05_permutation_applied : forall perm o, Permutation perm (seq 0 (osize o)) -> well_formed o -> flat o ->
  (forall en p, dof_of (OPerm perm o) en p -> exists i j, mapIndex o en p = Ok [i] /\ nth_error perm i = Some j /\
     mapIndex (OPerm perm o) en p = Ok [j]) /\
  numbers_bijectively (OPerm perm o) (osize o).
Proof. exact perm_layout. Qed.
Print Assumptions c05_permutation_applied.

Example c05_hypotheses_met : Permutation [1; 0; 2] (seq 0 3) /\ osize (OLeaf false (FixedSizes [(3, 1)])) = 3 /\
  mapIndex (OPerm [1; 0; 2] (OLeaf false (FixedSizes [(3, 1)]))) (0, 0) [0] = Ok [1].
Proof. split; [apply perm_swap|]. split; reflexivity. Qed.

(** update() replaces whatever permutation the user supplied by the identity ... *)
Theorem c05_update_discards_permutation : forall perm o o' o1,
  update (OPerm perm o) = Ok o' -> update o = Ok o1 -> well_formed o1 -> flat o1 ->
  forall en p, dof_of o1 en p -> mapIndex o' en p = mapIndex o1 en p.
Proof. exact perm_update. Qed.
Print Assumptions c05_update_discards_permutation.

(** ... so the user's permutation is not the one in effect after setup. *)
Theorem c05_user_permutation_in_effect_refuted : exists perm o o' en p,
  Permutation perm (seq 0 (osize o)) /\ well_formed o /\ flat o /\ update (OPerm perm o) = Ok o' /\ dof_of o' en p /\
  mapIndex o' en p <> mapIndex (OPerm perm o) en p.
Proof.
  exists [1; 0], (OLeaf false (FixedSizes [(2, 1)])). do 3 eexists.
  split; [apply perm_swap|]. split; [constructor; discriminate|]. split; [constructor|]. split; [reflexivity|].
  split; [apply dof_perm, dof_leaf with (en := (0, 0)) (i := 0); repeat constructor|]. discriminate.
Qed.
Print Assumptions c05_user_permutation_in_effect_refuted.

(* ------------------------------------------------------------------ C06 *)

Theorem c06_batch_equals_single : forall o groups, well_formed o -> element_dofs o groups ->
  exists out, batch_map o (map (@length dof) groups) (concat groups) = Ok out /\
    Forall2 (fun d ci => mapIndex o (fst d) (snd d) = Ok ci) (concat groups) out.
Proof. exact batch_map_ok. Qed.
Print Assumptions c06_batch_equals_single.

(** The same for every tree whatsoever, as long as mapIndex is defined on the DOFs. *)
Theorem c06_batch_equals_single_any_tree : forall o (groups : list (list dof)),
  Forall2 (fun q g => forall d, In d g -> exists i ci, snd d = q ++ [i] /\ mapIndex o (fst d) (snd d) = Ok ci) (leaf_paths o) groups ->
  exists out, batch_map o (map (@length dof) groups) (concat groups) = Ok out /\
    Forall2 (fun d ci => mapIndex o (fst d) (snd d) = Ok ci) (concat groups) out.
Proof. exact batch_map_any. Qed.
Print Assumptions c06_batch_equals_single_any_tree.

Definition ex_groups : list (list dof) :=
  [[((0, 0), [0; 0; 0]); ((1, 1), [0; 0; 1])]; [((0, 2), [0; 1; 1])]; [((1, 0), [1; 1]); ((0, 3), [1; 0])]].
Example c06_hypotheses_met : element_dofs ex_blocked ex_groups /\
  batch_map ex_blocked [2; 1; 2] (concat ex_groups) = Ok [[0; 0; 0]; [0; 5; 1]; [0; 2; 2]; [1; 4; 1]; [1; 3; 0]].
Proof.
  split; [|vm_compute; reflexivity].
  assert (L : forall c q t d, nth_error [OGV true [4; 3] (LNode false [LLeaf (FixedSizes [(4, 1); (3, 2)]); LLeaf (EntitySizes [[1; 0; 2; 3]; []])]);
                                   OLeaf true (FixedSizes [(4, 1); (3, 2)])] c = Some t -> dof_of t d q -> dof_of ex_blocked d (c :: q)) by (intros; econstructor; eauto).
  unfold element_dofs, ex_groups. cbn [leaf_paths ex_blocked number_children lleaf_paths map app].
  constructor; [|constructor; [|constructor; [|constructor]]];
    intros d Hd; cbn in Hd; repeat (destruct Hd as [<-|Hd]); try contradiction; cbn [fst snd];
    (split; [|cbn; eauto]).
  all: eapply L; [reflexivity|]; first [apply dof_gv; eapply ldof_node; [reflexivity|]; apply ldof_leaf|apply dof_leaf]; vm_compute; lia.
Qed.

(* ------------------------------------------------------------------ C07 *)

(** [entity_dofs] really lists the DOFs of the entity, each once. *)
Theorem c07_entity_dofs_complete : forall o en, NoDup (entity_dofs o en) /\ forall p, In p (entity_dofs o en) <-> dof_of o en p.
Proof. exact (fun o en => conj (nodup_entity_dofs o en) (in_entity_dofs o en)). Qed.
Print Assumptions c07_entity_dofs_complete.

Theorem c07_extraction_equals_single : forall ents o gt e,
  well_formed o -> on_grid ents o -> gt < length ents -> e < nth gt ents 0 ->
  exists l, extract o (gt, e) = Ok l /\ map fst l = entity_dofs o (gt, e) /\
    Forall (fun x => mapIndex o (gt, e) (fst x) = Ok (snd x)) l.
Proof. exact extract_ok. Qed.
Print Assumptions c07_extraction_equals_single.

Example c07_hypotheses_met : on_grid [4; 3] ex_blocked /\
  extract ex_blocked (0, 2) = Ok [([0; 0; 0], [0; 2; 0]); ([0; 1; 0], [0; 2; 1]); ([0; 1; 1], [0; 2; 2]); ([1; 0], [1; 2; 0])].
Proof. split; [repeat constructor|vm_compute; reflexivity]. Qed.

(* ------------------------------------------------------------------ C08 *)

Theorem c08_size_queries_exact_partial : forall md o, 0 < md -> well_formed o -> blocked_above o ->
  (forall en p ci, dof_of o en p -> mapIndex o en p = Ok ci -> length ci <= md) ->
  forall pre, (pre = [] \/ exists k, reached o pre k) ->
  exists n, size_suffix md o pre = Ok n /\ forall k, reached o pre k <-> k < n.
Proof. exact size_exact. Qed.
Print Assumptions c08_size_queries_exact_partial.

Example c08_hypotheses_met : blocked_above ex_blocked /\ size_suffix 3 ex_blocked [] = Ok 2 /\
  size_suffix 3 ex_blocked [0] = Ok 7 /\ size_suffix 3 ex_blocked [0; 3] = Ok 4 /\ mapIndex ex_blocked (0, 3) [0; 1; 2] = Ok [0; 3; 3].
Proof.
  split; [|repeat split; vm_compute; reflexivity].
  apply ba_lex; [constructor; [apply ba_gv|constructor; [apply ba_leaf|constructor]]|]. constructor; [|constructor; [|constructor]].
  - exists (0, 0), [0; 0]. apply dof_gv. eapply ldof_node; [reflexivity|]. repeat constructor.
  - exists (0, 0), [0]. repeat constructor.
Qed.

(** Outside [blocked_above] size queries go wrong: a non-blocked lexicographic node over blocked leaves uses an offset
    as a child number (here: undefined behaviour), ... *)
Theorem c08_lexicographic_over_blocked_refuted : exists o pre k,
  well_formed o /\ update o = Ok o /\ reached o pre k /\ size_suffix 2 o pre = UB.
Proof.
  exists (OLex false [OLeaf true (FixedSizes [(2, 2)]); OLeaf true (FixedSizes [(2, 3)])]), [2], 2.
  split; [repeat constructor|]. split; [reflexivity|]. split; [|reflexivity].
  exists (0, 0), [1; 2], []. split; [|reflexivity]. eapply dof_lex; [reflexivity|]. repeat constructor.
Qed.
Print Assumptions c08_lexicographic_over_blocked_refuted.

(** ... an interleaved node forgets to subtract the child's offset inside the block, ... *)
Theorem c08_interleaved_over_blocked_refuted : exists o pre k n,
  well_formed o /\ update o = Ok o /\ reached o pre k /\ size_suffix 3 o pre = Ok n /\ n <= k.
Proof.
  exists (OInter true (tag_offsets [1; 1]) [OLeaf true (FixedSizes [(2, 2)]); OLeaf true (FixedSizes [(1, 3); (1, 2)])]), [0; 1], 2, 2.
  split; [|split; [reflexivity|split; [|split; [reflexivity|lia]]]].
  - apply wf_inter with (n := 2); [discriminate| |]; repeat constructor.
  - exists (0, 0), [1; 2], []. split; [|reflexivity]. eapply dof_inter; [reflexivity|]. repeat constructor.
Qed.
Print Assumptions c08_interleaved_over_blocked_refuted.

(** ... and a container-blocked leaf with varying entity sizes reports its DOF count as block count. *)
Theorem c08_blocked_variable_leaf_refuted : exists s n,
  size_suffix 2 (OLeaf true s) [] = Ok n /\ ~ reached (OLeaf true s) [] (n - 1).
Proof.
  exists (EntitySizes [[2; 1]]), 3. split; [reflexivity|].
  intros ([gt e] & p & rest & Hd & Em). destruct (dof_leaf_inv _ _ _ _ Hd) as (i & -> & Hi).
  destruct gt as [|gt]; [|destruct gt; cbn in Hi; lia]. cbn in Hi.
  destruct e as [|[|e]]; [| |destruct e; lia]; cbn in Em; discriminate.
Qed.
Print Assumptions c08_blocked_variable_leaf_refuted.
