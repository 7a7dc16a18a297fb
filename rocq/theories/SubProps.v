(** C133: DOF indices and container indices of a subspace are those of the whole space. *)
From Verif Require Import Common CommonFacts OrderingModel OrderingSpec OrderingProofs2 SubModel SubSpec SubProofs SubProofs2.
From Verif Require LfsModel LfsSpec LfsProofs.

(** C133.  The index cache of a subspace of any space with a correct ordering (entity blocks, lexicographic, interleaved, chunked, permuted, nested in any
    way), cut at any inner or leaf node, finds its ordering and computes, for any list of DOF indices in the order of the leaves of the subspace, the
    container indices that the whole space's ordering assigns to these DOF indices. *)
Theorem c133_container_indices : forall o pi groups, well_formed o -> below pi (leaf_paths o) <> [] -> subspace_dofs o pi groups ->
  exists p out, ordering_path o pi = Some p /\ sub_map o p (length pi) (map (@length dof) groups) (concat groups) = Ok out /\
    Forall2 (fun d ci => mapIndex o (fst d) (snd d) = Ok ci) (concat groups) out.
Proof.
  intros o pi groups WF NE H. apply container_indices; [exact NE|]. unfold subspace_dofs in H. revert H. apply OrderingProofs3.Forall2_impl_.
  intros q g G d Hd. destruct (G d Hd) as (D & i & E). destruct (wf_separates o WF) as (A & _). destruct (A _ _ D) as (h & t & Em & _). eauto.
Qed.
Print Assumptions c133_container_indices.

(** Velocity components interleaved per vertex and edge in one entity-blocked space, pressure in another one, all in blocks of 2: the second component *)
Definition example_space : ord :=
  OLex false [OGV false [3; 2] (LNode false [LLeaf (FixedSizes [(3, 1); (2, 1)]); LLeaf (FixedSizes [(3, 1); (2, 1)])]); OPerm [2; 0; 1] (OLeaf false (FixedSizes [(3, 1); (2, 0)]))].
Example example_space_ok : well_formed example_space.
Proof.
  unfold example_space. constructor. repeat (apply Forall_cons || apply Forall_nil).
  - apply wf_gv; [|reflexivity]. cbn. apply lok_node; [discriminate|]. repeat (apply Forall_cons || apply Forall_nil); constructor; reflexivity.
  - apply wf_perm; [|apply wf_leaf; discriminate]. cbn. apply Permutation_trans with [0; 2; 1]; [apply perm_swap|]. apply perm_skip, perm_swap.
Qed.
Example c133_container_example :
  below [0; 1] (leaf_paths example_space) = [[]] /\ ordering_path example_space [0; 1] = Some [0; 0; 1] /\
  sub_map example_space [0; 0; 1] 2 [2] [((0, 2), [0; 1; 0]); ((1, 1), [0; 1; 0])] = Ok [[5]; [9]] /\
  subspace_dofs example_space [0; 1] [[((0, 2), [0; 1; 0]); ((1, 1), [0; 1; 0])]] /\
  ordering_path example_space [1] = Some [1] /\ sub_map example_space [1] 1 [1] [((0, 1), [1; 0])] = Ok [[10]].
Proof.
  split; [reflexivity|]. split; [reflexivity|]. split; [reflexivity|]. split; [|split; reflexivity].
  unfold subspace_dofs. cbn. constructor; [|constructor]. intros d [<-|[<-|[]]]; (split; [|exists 0; reflexivity]); cbn [fst snd];
    (eapply dof_lex; [reflexivity|]; apply dof_gv; eapply ldof_node; [reflexivity|]; apply ldof_leaf; apply Nat.ltb_lt; reflexivity).
Qed.

(** C133.  Whatever elements the local function space of a subspace was bound to before and whatever its storage held: when a bind returns, the DOF indices
    it holds are, in order, those the local function space of the whole space has between offset() and offset() + size() of the node at the path of the
    subspace. *)
Theorem c133_dof_indices : forall cap pi es e t a w aw s t' a', is_subspace w pi t ->
  (forall e', In e' (e :: es) -> LfsSpec.consistent e' t /\ sum_nat (leaf_sizes e' t) <= length a) ->
  LfsSpec.consistent e w -> sum_nat (leaf_sizes e w) <= length aw ->
  foldM (fun s e => sub_bind cap pi e s) es (t, a) = Ok s -> sub_bind cap pi e s = Ok (t', a') ->
  exists w' aw' n, LfsModel.bind_to false e (w, aw) = Ok (w', aw') /\ LfsSpec.node_at w' pi = Some n /\ LfsModel.size n = LfsModel.size t' /\
    firstn (LfsModel.size t') a' = firstn (LfsModel.size n) (skipn (LfsModel.offset n) aw').
Proof.
  intros cap pi es e t a w aw s t' a' Sub H Cw Lw E B. destruct (dof_segment _ _ _ _ _ _ _ _ _ _ _ Sub H Cw Lw E B) as (w' & aw' & n & Bw & N & Sz & Seg & _).
  exists w', aw', n. auto.
Qed.
Print Assumptions c133_dof_indices.

(** C133.  Binding returns when every element bound fills the storage and the tree indices of the space fit.
    Missing: elements with fewer DOFs than the storage holds, see c133_storage_refuted. *)
Theorem c133_binds_partial : forall cap pi es t a, (forall e, In e es -> LfsSpec.consistent e t /\ fills e t a) -> fits cap pi t ->
  exists t' a', foldM (fun s e => sub_bind cap pi e s) es (t, a) = Ok (t', a') /\ length a' = length a.
Proof. intros cap pi es t a H F. destruct (sub_history cap pi es t a H F) as (t' & a' & E & L & _). eauto. Qed.
Print Assumptions c133_binds_partial.

(** C133.  Together: the container indices the index cache of a subspace computes for the element its local function space is bound to are those of the
    DOF indices that the local function space of the whole space holds for the node of the subspace. *)
Theorem c133_subspace : forall o cap pi es e t a w aw s t' a', well_formed o -> LfsSpec.leaves t <> [] ->
  map LfsSpec.path (LfsSpec.leaves t) = below pi (leaf_paths o) -> is_subspace w pi t ->
  (forall e', In e' (e :: es) -> LfsSpec.consistent e' t /\ sum_nat (leaf_sizes e' t) <= length a) ->
  LfsSpec.consistent e w -> sum_nat (leaf_sizes e w) <= length aw ->
  foldM (fun s e => sub_bind cap pi e s) es (t, a) = Ok s -> sub_bind cap pi e s = Ok (t', a') ->
  (forall d, In d (firstn (LfsModel.size t') a') -> dof_of o (fst (outermost_first d)) (snd (outermost_first d))) ->
  exists p out w' aw' n, ordering_path o pi = Some p /\
    sub_map o p (length pi) (leaf_sizes e t) (map outermost_first (firstn (LfsModel.size t') a')) = Ok out /\
    LfsModel.bind_to false e (w, aw) = Ok (w', aw') /\ LfsSpec.node_at w' pi = Some n /\
    Forall2 (fun d ci => mapIndex o (fst (outermost_first d)) (snd (outermost_first d)) = Ok ci)
      (firstn (LfsModel.size n) (skipn (LfsModel.offset n) aw')) out.
Proof. exact subspace_indices. Qed.
Print Assumptions c133_subspace.

(** On element 0, with vertices 0, 2 and edge 1; on element 1, with vertices 1, 2 and edge 0 *)
Definition example_element (e : nat) : LfsModel.element :=
  LfsModel.mkfe true 3 3 0 0 (if e =? 0 then [(0, 0, 0); (0, 2, 0); (1, 1, 0)] else [(0, 1, 0); (0, 2, 0); (1, 0, 0)]).
Definition example_pressure (e : nat) : LfsModel.element :=
  LfsModel.mkfe true 2 2 0 0 (if e =? 0 then [(0, 0, 0); (0, 2, 0)] else [(0, 1, 0); (0, 2, 0)]).
Definition example_whole : LfsModel.lfs :=
  LfsModel.Inner 0 0 [LfsModel.Inner 0 0 [LfsModel.Leaf 0 0 example_element; LfsModel.Leaf 0 0 example_element]; LfsModel.Leaf 0 0 example_pressure].
Definition blank : LfsModel.dof := LfsModel.mkdof 0 0 [].
Definition example_sub : LfsModel.lfs := LfsModel.Leaf 0 0 example_element.
Example c133_subspace_example : is_subspace example_whole [0; 1] example_sub /\
  (forall e, LfsSpec.consistent e example_sub /\ fills e example_sub [blank; blank; blank] /\ fits 3 [0; 1] example_sub /\ LfsSpec.consistent e example_whole) /\
  map LfsSpec.path (LfsSpec.leaves example_sub) = below [0; 1] (leaf_paths example_space) /\
  exists s a', foldM (fun s e => sub_bind 3 [0; 1] e s) [1; 0; 1] (example_sub, [blank; blank; blank]) = Ok s /\
    sub_bind 3 [0; 1] 0 s = Ok (LfsModel.Leaf 0 3 example_element, a') /\
    a' = [LfsModel.mkdof 0 0 [0; 1; 0]; LfsModel.mkdof 0 2 [0; 1; 0]; LfsModel.mkdof 1 1 [0; 1; 0]] /\
    Forall (fun d => dof_of example_space (fst (outermost_first d)) (snd (outermost_first d))) a' /\
    sub_map example_space [0; 0; 1] 2 [3] (map outermost_first a') = Ok [[1]; [5]; [9]].
Proof.
  split; [eexists; split; reflexivity|]. split; [|split; [reflexivity|]].
  - intros e. repeat split; try (intros x [<-|[]]; cbn; try lia; destruct (e =? 0); reflexivity).
    intros x H. cbn in H. destruct H as [<-|[<-|[<-|[]]]]; cbn; destruct (e =? 0); reflexivity.
  - do 2 eexists. split; [reflexivity|]. split; [reflexivity|]. split; [reflexivity|]. split; [|reflexivity].
    repeat (apply Forall_cons || apply Forall_nil); cbn; (eapply dof_lex; [reflexivity|]; apply dof_gv; eapply ldof_node; [reflexivity|]; apply ldof_leaf; apply Nat.ltb_lt; reflexivity).
Qed.

(** C133 fails on meshes whose elements do not all have the same number of DOFs: every bind appends the path of the subspace to all entries of the storage,
    also to those the element does not use and which were not overwritten; binding to elements that are smaller than the largest one three times in a row
    writes past the end of the tree index of such an entry.  The local function space of the whole space can be bound to the same elements. *)
Theorem c133_storage_refuted : exists t w pi cap,
  is_subspace w pi t /\ fits cap pi t /\ fits cap [] w /\ (forall e, LfsSpec.consistent e t /\ LfsSpec.consistent e w) /\
  (forall e, sum_nat (leaf_sizes e t) <= 2 /\ sum_nat (leaf_sizes e w) <= 2) /\ sum_nat (leaf_sizes 1 t) = 2 /\
  foldM (fun s e => sub_bind cap pi e s) [0; 0; 0] (t, repeat blank 2) = UB /\
  exists s, foldM (fun s e => LfsModel.bind_to false e s) [0; 0; 0] (w, repeat blank 2) = Ok s.
Proof.
  set (f := fun e => if e =? 0 then LfsModel.mkfe true 1 2 0 0 [(0, 0, 0)] else LfsModel.mkfe true 2 2 0 0 [(0, 0, 0); (0, 1, 0)]).
  exists (LfsModel.Leaf 0 0 f), (LfsModel.Inner 0 0 [LfsModel.Leaf 0 0 f]), [0], 2.
  split; [eexists; split; reflexivity|]. split; [intros x [<-|[]]; cbn; lia|]. split; [intros x [<-|[]]; cbn; lia|].
  split; [intros e; split; intros x [<-|[]]; cbn; unfold f; destruct (e =? 0); reflexivity|].
  split; [intros e; split; cbn; unfold f; destruct (e =? 0); cbn; lia|]. split; [reflexivity|]. split; [reflexivity|]. eexists. reflexivity.
Qed.
Print Assumptions c133_storage_refuted.
