(** Model of LocalFunctionSpace::bind (dune/pdelab/gridfunctionspace/localfunctionspace.hh).

    A local function space is a tree whose nodes carry the members offset and n; the DOF indices of all leaves are stored
    in one array owned by the root (_dof_indices), whose contents from earlier binds are kept.  Not modelled: the capacity
    of the tree index (TypeTree::depth of the space), ownership of finite elements, copying of local function spaces. *)
From Verif Require Export Common.

(** DOFIndex with geometry type and entity index (common/dofindex.hh; ordering/utility.hh 70-76), tree index innermost
    entry first. *)
Record dof := mkdof { gt : nat; ei : nat; ti : list nat }.
(** What a leaf learns about an element: is it in the entity set, basis().size(), finiteElementMap().maxLocalSize(), and
    per local coefficient the geometry type and the index of the sub-entity and localKey(i).index(): 96-112, 616-654. *)
Record element := mkfe { inside : bool; basis : nat; maxlocal : nat; cell_gt : nat; cell_index : nat; locals : list (nat * nat * nat) }.

(** [fem e]: what the leaf's finite element map and entity set say about element [e]. *)
Inductive lfs := Leaf (off n : nat) (fem : nat -> element) | Inner (off n : nat) (ch : list lfs).
Definition offset (t : lfs) : nat := match t with Leaf o _ _ => o | Inner o _ _ => o end.
(** size(): 230-233 *)
Definition size (t : lfs) : nat := match t with Leaf _ n _ => n | Inner _ n _ => n end.
(** localIndex: 252-255 *)
Definition local_index (t : lfs) (i : nat) : nat := offset t + i.

(** ComputeSizeVisitor: 82-125; [o]: the visitor's offset, returned updated. *)
Definition leaf_size (fast : bool) (f : element) : nat := if inside f then (if fast then maxlocal f else basis f) else 0.
Fixpoint compute (fast : bool) (e : nat) (o : nat) (t : lfs) : lfs * nat :=
  match t with
  | Leaf _ _ fem => let n := leaf_size fast (fem e) in (Leaf o n fem, o + n)
  | Inner _ _ ch =>
      let (ch', o') :=
        (fix go o ch := match ch with
           | [] => ([], o)
           | c :: r => let (c', o1) := compute fast e o c in let (r', o2) := go o1 r in (c' :: r', o2)
           end) o ch in
      (Inner o (o' - o) ch', o')
  end.

(** DefaultDOFIndexAccessor::store into position [pos] of the array: ordering/utility.hh 70-76 *)
Definition write (pos : nat) (d : dof) (a : list dof) : res (list dof) := if pos <? length a then Ok (upd pos d a) else UB.
(** dofIndices: 616-654 *)
Fixpoint store_all (pos : nat) (ks : list (nat * nat * nat)) (a : list dof) : res (list dof) :=
  match ks with
  | [] => Ok a
  | (g, i, k) :: ks' => let* a' := write pos (mkdof g i [k]) a in store_all (S pos) ks' a'
  end.
Definition dof_indices (fast : bool) (f : element) (pos : nat) (a : list dof) : res (list dof) :=
  if inside f then
    if fast then write pos (mkdof (cell_gt f) (cell_index f) [0]) a else store_all pos (locals f) a
  else Ok a.
(** afterChild: treeIndex().push_back(childIndex) on the child's range: 139-154 *)
Definition push (k : nat) (d : dof) : dof := mkdof (gt d) (ei d) (ti d ++ [k]).
Fixpoint push_range (pos n k : nat) (a : list dof) : res (list dof) :=
  match n with
  | O => Ok a
  | S n' => match nth_error a pos with
            | None => UB
            | Some d => push_range (S pos) n' k (upd pos (push k d) a)
            end
  end.
(** FillIndicesVisitor: 129-161 *)
Fixpoint fill (fast : bool) (e : nat) (t : lfs) (a : list dof) : res (list dof) :=
  match t with
  | Leaf o _ fem => dof_indices fast (fem e) o a
  | Inner _ _ ch =>
      (fix go k ch a := match ch with
         | [] => Ok a
         | c :: r =>
             let* a1 := fill fast e c a in
             let* a2 := (if fast then Ok a1 else push_range (offset c) (size c) k a1) in
             go (S k) r a2
         end) 0 ch a
  end.
(** bind: 350-366 *)
Definition bind_to (fast : bool) (e : nat) (s : lfs * list dof) : res (lfs * list dof) :=
  let t := fst (compute fast e 0 (fst s)) in
  let* a := fill fast e t (snd s) in Ok (t, a).
