(** What the ordering theorems talk about, independently of how indices are computed: which DOFs a function
    space tree has, and what it means for a map to number them. *)
From Verif Require Import Common OrderingModel.

(** Number of DOFs the finite element map attaches to an entity; 0 for entities that are not in the grid. *)
Definition dofs_on (s : lsizes) (en : ent) : nat :=
  match s with
  | FixedSizes gts =>
      match nth_error gts (fst en) with
      | Some (n, d) => if snd en <? n then d else 0
      | None => 0
      end
  | EntitySizes gts => match nth_error gts (fst en) with Some l => nth (snd en) l 0 | None => 0 end
  end.

(** The DOFs of a tree: an entity and a path of child numbers ended by the number of the DOF on the entity. *)
Inductive ldof : ltree -> ent -> list nat -> Prop :=
| ldof_leaf s en i : i < dofs_on s en -> ldof (LLeaf s) en [i]
| ldof_node b cs c t en p : nth_error cs c = Some t -> ldof t en p -> ldof (LNode b cs) en (c :: p).

Inductive dof_of : ord -> ent -> list nat -> Prop :=
| dof_leaf b s en i : i < dofs_on s en -> dof_of (OLeaf b s) en [i]
| dof_gv b ents t en p : ldof t en p -> dof_of (OGV b ents t) en p
| dof_lex b cs c o en p : nth_error cs c = Some o -> dof_of o en p -> dof_of (OLex b cs) en (c :: p)
| dof_inter b m cs c o en p : nth_error cs c = Some o -> dof_of o en p -> dof_of (OInter b m cs) en (c :: p)
| dof_chunk bs o en p : dof_of o en p -> dof_of (OChunk bs o) en p
| dof_perm perm o en p : dof_of o en p -> dof_of (OPerm perm o) en p.

(** [o] numbers its DOFs by the positions 0..n-1 of a flat vector, each position used exactly once. *)
Definition numbers_bijectively (o : ord) (n : nat) : Prop :=
  (forall en p, dof_of o en p -> exists k, mapIndex o en p = Ok [k] /\ k < n) /\
  (forall en p en' p', dof_of o en p -> dof_of o en' p' ->
     mapIndex o en p = mapIndex o en' p' -> (en, p) = (en', p')) /\
  (forall k, k < n -> exists en p, dof_of o en p /\ mapIndex o en p = Ok [k]).

(** No two DOFs share a container entry and the outermost block number is below the block count. *)
Definition separates (o : ord) : Prop :=
  (forall en p, dof_of o en p -> exists h t, mapIndex o en p = Ok (h :: t) /\ h < blockCount o) /\
  (forall en p en' p', dof_of o en p -> dof_of o en' p' ->
     mapIndex o en p = mapIndex o en' p' -> (en, p) = (en', p')).

(** Leaf size data describes a grid with [ents] entities per geometry type. *)
Definition sizes_for (ents : list nat) (s : lsizes) : Prop :=
  match s with
  | FixedSizes gts => map fst gts = ents
  | EntitySizes gts =>
      length gts = length ents /\ forall gt l, nth_error gts gt = Some l -> l = [] \/ length l = nth gt ents 0
  end.

(** Local ordering trees without container blocking on inner nodes (the root's flag is ignored by the code). *)
Inductive local_ok (ents : list nat) : ltree -> Prop :=
| lok_leaf s : sizes_for ents s -> local_ok ents (LLeaf s)
| lok_node cs : cs <> [] -> Forall (local_ok ents) cs -> local_ok ents (LNode false cs).

Definition fixed_sizes (s : lsizes) : Prop := match s with FixedSizes _ => True | EntitySizes _ => False end.

(** Ordering trees (after update) on which the index maps are claimed to be correct.  The excluded cases are
    treated by the [_refuted] theorems:
    - container-blocked leaves and unblocked entity-blocked orderings whose entity sizes vary,
    - container-blocked inner nodes below an entity-blocked ordering,
    - interleaved orderings whose children do not hold the same number [n] of interleaving blocks. *)
Inductive well_formed : ord -> Prop :=
| wf_leaf b s : (b = true -> fixed_sizes s) -> well_formed (OLeaf b s)
| wf_gv b ents t : local_ok ents (disable_blocking t) -> (b = false -> lfixed t = true) -> well_formed (OGV b ents t)
| wf_lex b cs : Forall well_formed cs -> well_formed (OLex b cs)
| wf_inter b sizes n cs : sizes <> [] -> Forall well_formed cs ->
    Forall2 (fun s o => 0 < s /\ blockCount o = n * s) sizes cs ->
    well_formed (OInter b (tag_offsets sizes) cs)
| wf_chunk bs o : 0 < bs -> blockCount o mod bs = 0 -> well_formed o -> well_formed (OChunk bs o)
| wf_perm perm o : Permutation perm (seq 0 (blockCount o)) -> well_formed o -> well_formed (OPerm perm o).

(** Trees without any container blocking: container indices have one entry. *)
Inductive flat : ord -> Prop :=
| flat_leaf s : flat (OLeaf false s)
| flat_gv ents t : flat (OGV false ents t)
| flat_lex cs : Forall flat cs -> flat (OLex false cs)
| flat_inter m cs : Forall flat cs -> flat (OInter false m cs)
| flat_perm perm o : flat o -> flat (OPerm perm o).

(** Entry [k] exists below the container position [pre]: some DOF's container index starts with [pre ++ [k]]. *)
Definition reached (o : ord) (pre : list nat) (k : nat) : Prop :=
  exists en p rest, dof_of o en p /\ mapIndex o en p = Ok (pre ++ k :: rest).

(** Trees on which size queries are claimed to be exact: blocking only at the top of the tree. *)
Inductive blocked_above : ord -> Prop :=
| ba_flat o : flat o -> blocked_above o
| ba_leaf s : blocked_above (OLeaf true s)
| ba_gv ents t : blocked_above (OGV true ents t)
| ba_lex cs : Forall blocked_above cs -> Forall (fun o => exists en p, dof_of o en p) cs -> blocked_above (OLex true cs)
| ba_inter m cs : Forall flat cs -> blocked_above (OInter true m cs)
| ba_chunk bs o : blocked_above o -> blocked_above (OChunk bs o).

(** Leaf paths of a tree in the depth-first order of the local function space. *)
Definition number_children {T} (f : T -> list (list nat)) : nat -> list T -> list (list nat) :=
  fix go k cs := match cs with [] => [] | c :: cs' => map (cons k) (f c) ++ go (S k) cs' end.

Fixpoint lleaf_paths (t : ltree) : list (list nat) :=
  match t with LLeaf _ => [[]] | LNode _ cs => number_children lleaf_paths 0 cs end.

Fixpoint leaf_paths (o : ord) : list (list nat) :=
  match o with
  | OLeaf _ _ => [[]]
  | OGV _ _ t => lleaf_paths t
  | OLex _ cs | OInter _ _ cs => number_children leaf_paths 0 cs
  | OChunk _ o | OPerm _ o => leaf_paths o
  end.

(** [groups] lists DOF indices of one element leaf by leaf, as a local function space does: group [j] holds DOFs
    of leaf number [j]. *)
Definition element_dofs (o : ord) (groups : list (list dof)) : Prop :=
  Forall2 (fun q g => forall d, In d g -> dof_of o (fst d) (snd d) /\ exists i, snd d = q ++ [i]) (leaf_paths o) groups.

(** The DOFs of one entity, leaf by leaf. *)
Fixpoint lentity_dofs (t : ltree) (en : ent) : list (list nat) :=
  match t with
  | LLeaf s => map (fun i => [i]) (seq 0 (dofs_on s en))
  | LNode _ cs => number_children (fun t' => lentity_dofs t' en) 0 cs
  end.

Fixpoint entity_dofs (o : ord) (en : ent) : list (list nat) :=
  match o with
  | OLeaf _ s => map (fun i => [i]) (seq 0 (dofs_on s en))
  | OGV _ _ t => lentity_dofs t en
  | OLex _ cs | OInter _ _ cs => number_children (fun o' => entity_dofs o' en) 0 cs
  | OChunk _ o' | OPerm _ o' => entity_dofs o' en
  end.

(** All leaves describe the same grid, with [ents] entities per geometry type. *)
Inductive on_grid (ents : list nat) : ord -> Prop :=
| og_leaf b s : sizes_for ents s -> on_grid ents (OLeaf b s)
| og_gv b t : on_grid ents (OGV b ents t)
| og_lex b cs : Forall (on_grid ents) cs -> on_grid ents (OLex b cs)
| og_inter b m cs : Forall (on_grid ents) cs -> on_grid ents (OInter b m cs)
| og_chunk bs o : on_grid ents o -> on_grid ents (OChunk bs o)
| og_perm perm o : on_grid ents o -> on_grid ents (OPerm perm o).

(** Trees of lexicographic orderings without container blocking over unblocked leaves. *)
Inductive lex_tree : ord -> Prop :=
| lt_leaf s : lex_tree (OLeaf false s)
| lt_node cs : Forall lex_tree cs -> lex_tree (OLex false cs).

(** Interleaving with block sizes [sizes]: the children hold [n] blocks each. *)
Definition balanced (sizes : list nat) (n : nat) (cs : list ord) : Prop :=
  sizes <> [] /\ Forall2 (fun s o => 0 < s /\ blockCount o = n * s) sizes cs.

(** Sum of the entries before position [c]. *)
Definition before (sizes : list nat) (c : nat) : nat := sum_nat (firstn c sizes).
