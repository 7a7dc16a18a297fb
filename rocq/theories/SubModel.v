(** Subspaces: gridfunctionspace/subspace.hh, gridfunctionspace/subspacelocalfunctionspace.hh, ordering/subordering.hh, on top of the models of orderings
    (OrderingModel) and local function spaces (LfsModel). Tree paths are lists of child numbers, root first. Not modelled: names, output parameters and the
    other members that only forward to the space. *)
From Verif Require Import Common OrderingModel.
From Verif Require LfsModel.

(** ** The subordering *)
(** A node of an ordering tree: an ordering, or a local ordering below a GridViewOrdering on the entities [ents] *)
Inductive node := NO (o : ord) | NL (ents : list nat) (t : ltree).
(** consume_tree_index: orderingbase.hh 42, lexicographicordering.hh 46, interleavedordering.hh 40, localorderingbase.hh 61: true; gridviewordering.hh 446,
    leaforderingbase.hh 33, chunkedblockordering.hh 122, permutedordering.hh 112: false *)
Definition consumes (n : node) : bool := match n with NO (OLex _ _) | NO (OInter _ _ _) | NL _ _ => true | NO _ => false end.
Definition child (n : node) (c : nat) : option node :=
  match n with
  | NO (OLex _ cs) | NO (OInter _ _ cs) => option_map NO (nth_error cs c)
  | NO (OGV _ ents t) => if c =? 0 then Some (NL ents (disable_blocking t)) else None
  | NO (OChunk _ o) | NO (OPerm _ o) => if c =? 0 then Some (NO o) else None
  | NL ents (LNode _ cs) => option_map (NL ents) (nth_error cs c)
  | NO (OLeaf _ _) | NL _ (LLeaf _) => None
  end.

(** create_ordering_treepath_for_sub_gfs: subspace.hh 50-89: the path into the ordering tree for a path into the space; None: no such child. *)
Fixpoint local_path (t : ltree) (gfs_tp : list nat) : option (list nat) :=
  match gfs_tp with
  | [] => Some []
  | c :: tp => match t with
      | LLeaf _ => None
      | LNode _ cs => match nth_error (map local_path cs) c with Some f => option_map (cons c) (f tp) | None => None end
      end
  end.
Fixpoint ordering_path (o : ord) (gfs_tp : list nat) : option (list nat) :=
  match gfs_tp with
  | [] => Some []
  | c :: tp => match o with
      | OLeaf _ _ => None
      | OLex _ cs | OInter _ _ cs => match nth_error (map ordering_path cs) c with Some f => option_map (cons c) (f tp) | None => None end
      | OGV _ _ t => option_map (cons 0) (local_path (disable_blocking t) gfs_tp)
      | OChunk _ o' | OPerm _ o' => option_map (cons 0) (ordering_path o' gfs_tp)
      end
  end.

(** The nodes from the root to the target, root first *)
Fixpoint trace (n : node) (tp : list nat) : option (list node) :=
  match tp with [] => Some [n] | c :: tp => match child n c with Some m => option_map (cons n) (trace m tp) | None => None end end.
(** The visitor of lfsindexcache.hh 178-239 on the target and what is below it; the views of the DOF indices are cut by the depth of the subspace. *)
Definition target_batch (tail : nat) (n : node) (ls : list nat) (ds : list dof) : res bstate :=
  match n with NO o => batch tail o ls ds | NL ents t => lbatch ents tail t ls ds end.
(** map_lfs_indices of one ordering, for one DOF: as in OrderingModel.batch and lbatch *)
Definition level (tail : nat) (n : node) (d : dof) (ci : list nat) : res (list nat) :=
  match n with
  | NO (OLex b cs) => let* c := view_back tail d in lex_lfs b cs c ci
  | NO (OInter b m cs) => let* c := view_back tail d in inter_lfs b m c ci
  | NO (OGV b ents t) => gv_lfs b ents (disable_blocking t) (fst d) ci
  | NO (OChunk bs _) => match ci with [] => UB | h :: t => if bs =? 0 then UB else Ok (h / bs :: h mod bs :: t) end
  | NO (OPerm perm _) => match ci with [] => UB | h :: t => let* x := at_ perm h in Ok (x :: t) end
  | NL ents (LNode b cs) => let* c := view_back tail d in lnode_lfs ents b cs (fst d) c ci
  | NO (OLeaf _ _) | NL _ (LLeaf _) => UB
  end.
(** map_lfs_indices_in_ancestor for a proper ancestor: subordering.hh 121-138: restore_back, then one level *)
Definition in_ancestor (ds : list dof) (s : nat * list (list nat)) (n : node) : res (nat * list (list nat)) :=
  let tail := if consumes n then fst s - 1 else fst s in
  let* out := zipM (level tail n) ds (snd s) in Ok (tail, out).
(** LFSIndexCache::update on a subspace (lfsindexcache.hh 319-340): visitor, and for the root of the subordering map_lfs_indices_to_root_space: 140-156.
    [depth]: subSpaceDepth() *)
Definition sub_map (root : ord) (tp : list nat) (depth : nat) (leaf_sizes : list nat) (ds : list dof) : res (list (list nat)) :=
  match trace (NO root) tp with
  | None => UB
  | Some nodes => match rev nodes with
      | [] => UB
      | target :: ancestors =>
          let* (_, _, out) := target_batch depth target leaf_sizes ds in
          let* (_, out) := foldM (in_ancestor ds) ancestors (depth, out) in Ok out
      end
  end.

(** ** The local function space of a subspace *)
(** MultiIndex::push_back: a ReservedVector with place for [cap] entries (the depth of the root space) *)
Definition push_path (cap : nat) (path : list nat) (d : LfsModel.dof) : res LfsModel.dof :=
  if length (LfsModel.ti d) + length path <=? cap then Ok (fold_left (fun d k => LfsModel.push k d) (rev path) d) else UB.
Fixpoint push_all (cap : nat) (path : list nat) (a : list LfsModel.dof) : res (list LfsModel.dof) :=
  match a with [] => Ok [] | d :: a => let* d := push_path cap path d in let* a := push_all cap path a in Ok (d :: a) end.
(** bind: subspacelocalfunctionspace.hh 46-57: all entries of the storage get the path *)
Definition sub_bind (cap : nat) (path : list nat) (e : nat) (s : LfsModel.lfs * list LfsModel.dof) : res (LfsModel.lfs * list LfsModel.dof) :=
  let* (t, a) := LfsModel.bind_to false e s in
  let* a := push_all cap path a in Ok (t, a).
