(** Model of how the orderings find out how many DOFs live on which entity: the update of a single leaf
    (dune/pdelab/ordering/directleaflocalordering.hh, driven by leafgridviewordering.hh 118-195) and of a leaf below an
    entity-blocked ordering (leaflocalordering.hh, driven by gridviewordering.hh 691-745).

    The grid is given by the number of entities per geometry type index ([counts], zero for types that do not occur) and by
    the list of its cells; a cell is the list of its local keys, each resolved to the sub-entity it is attached to
    (referenceElement().type and indexSet().subIndex) and key.index().  The flags per codimension are left out. *)
From Verif Require Export Common OrderingModel.

Notation keys := (list (ent * nat)).

(** What a finite element map promises: fixedSize(), size(gt), maxLocalSize(). *)
Record fem := mkfem { fem_fixed : bool; fem_size : nat -> nat; fem_max_local : nat }.

(** Members: directleaflocalordering.hh 331-346, localorderingbase.hh 441-455.  [None] stands for GT_UNUSED. *)
Record leaf := mkleaf {
  fixed_size : bool;
  fixed_possible : bool;
  max_local : nat;
  gt_used : list bool;
  gt_dof_sizes : list (option nat);
  gt_entity_offsets : list nat;
  per_entity : list nat }.

(** v[i] = x *)
Definition put {A} (l : list A) (i : nat) (x : A) : res (list A) := if i <? length l then Ok (upd i x l) else UB.

(** update_fixed_size: directleaflocalordering.hh 165-185; gridviewordering.hh 84-105. *)
Definition update_fixed (f : fem) (counts : list nat) : leaf :=
  let sizes := map (fun p => if 0 <? snd p then fem_size f (fst p) else 0) (combine (seq 0 (length counts)) counts) in
  mkleaf true false (fem_max_local f) (map (fun s => 0 <? s) sizes) (map Some sizes) [] [].

(** pre_collect_used_geometry_types_from_cell: directleaflocalordering.hh 188-199; gridviewordering.hh 171-178.  Below an
    entity-blocked ordering ([direct] false) the maximal local size is not reset. *)
Definition pre_collect (direct : bool) (ngt before : nat) : leaf :=
  mkleaf false true (if direct then 0 else before) (repeat false ngt) (repeat None ngt) [] [].

(** collect_used_geometry_types_from_cell: directleaflocalordering.hh 202-220; leaflocalordering.hh 92-111. *)
Definition collect_cell (st : leaf) (c : keys) : res leaf :=
  let* used := foldM (fun used k => put used (fst (fst k)) true) c (gt_used st) in
  Ok (mkleaf (fixed_size st) (fixed_possible st) (Nat.max (max_local st) (length c)) used
        (gt_dof_sizes st) (gt_entity_offsets st) (per_entity st)).

(** allocate_entity_offset_vector: directleaflocalordering.hh 223-237; gridviewordering.hh 225-242.  [direct] has one
    more entry, as sizes are stored at position index+1. *)
Definition allocate (direct : bool) (counts : list nat) (st : leaf) : leaf :=
  let offs := psums 0 (map (fun p => if (fst p : bool) then snd p else 0) (combine (gt_used st) counts)) in
  mkleaf (fixed_size st) true (max_local st) (gt_used st) (gt_dof_sizes st) offs
    (repeat 0 (last offs 0 + (if direct then 1 else 0))).

(** The comparison with the sizes of earlier cells: directleaflocalordering.hh 270-282; leaflocalordering.hh 143-155. *)
Fixpoint compare_sizes (known : list (option nat)) (loc : list nat) : list (option nat) * bool :=
  match known, loc with
  | k :: known', l :: loc' =>
      match k with
      | None => let (r, b) := compare_sizes known' loc' in (Some l :: r, b)
      | Some s => if s =? l then let (r, b) := compare_sizes known' loc' in (Some s :: r, b) else (known, false)
      end
  | _, _ => (known, true)
  end.

(** extract_per_entity_sizes_from_cell: directleaflocalordering.hh 240-283; leaflocalordering.hh 114-156. *)
Definition extract_key (direct : bool) (offs : list nat) (s : list nat * list nat) (k : ent * nat)
  : res (list nat * list nat) :=
  let '(dofs, loc) := s in
  let '((gt, e), i) := k in
  let* o := at_ offs gt in
  let index := o + e + (if direct then 1 else 0) in
  let* old := at_ dofs index in
  let v := Nat.max old (i + 1) in
  let* dofs := put dofs index v in
  let* loc := put loc gt v in
  Ok (dofs, loc).

Definition extract_cell (direct : bool) (st : leaf) (c : keys) : res leaf :=
  let* r := foldM (extract_key direct (gt_entity_offsets st)) c (per_entity st, repeat 0 (length (gt_dof_sizes st))) in
  let '(dofs, loc) := r in
  let '(sizes, possible) :=
    if fixed_possible st then compare_sizes (gt_dof_sizes st) loc else (gt_dof_sizes st, false) in
  Ok (mkleaf (fixed_size st) possible
        (if direct then max_local st else Nat.max (max_local st) (length c))
        (gt_used st) sizes (gt_entity_offsets st) dofs).

(** finalize_non_fixed_size_update: directleaflocalordering.hh 286-308; gridviewordering.hh 311-325. *)
Definition finalize (direct : bool) (st : leaf) : leaf :=
  if fixed_possible st
  then mkleaf true true (max_local st) (gt_used st) (map (fun s => match s with None => Some 0 | _ => s end) (gt_dof_sizes st))
         (gt_entity_offsets st) []
  else mkleaf false false (max_local st) (gt_used st) (gt_dof_sizes st) (gt_entity_offsets st)
         (if direct then tl (psums 0 (per_entity st)) else per_entity st).

(** update: leafgridviewordering.hh 118-159; gridviewordering.hh 706-742.  [before]: the maximal local size so far. *)
Definition leaf_update (direct : bool) (f : fem) (counts : list nat) (cells : list keys) (before : nat) : res leaf :=
  if fem_fixed f then Ok (update_fixed f counts)
  else
    let* st := foldM collect_cell cells (pre_collect direct (length counts) before) in
    let* st := foldM (extract_cell direct) cells (allocate direct counts st) in
    Ok (finalize direct st).

(** size(geometry_type_index, entity_index): directleaflocalordering.hh 109-121; localorderingbase.hh 237-250 for a leaf. *)
Definition entity_size (direct : bool) (st : leaf) (gt e : nat) : res nat :=
  if fixed_size st then
    let* s := at_ (gt_dof_sizes st) gt in match s with Some n => Ok n | None => UB end
  else
    let* used := at_ (gt_used st) gt in
    if (used : bool) then
      let* o := at_ (gt_entity_offsets st) gt in
      if direct then
        let* b := at_ (per_entity st) (o + e + 1) in
        let* a := at_ (per_entity st) (o + e) in Ok (b - a)
      else at_ (per_entity st) (o + e)
    else Ok 0.

(** The leaf data of OrderingModel.v that stands for a state: every answer of [entity_size]. *)
Definition answer (r : res nat) : nat := match r with Ok n => n | _ => 0 end.
Definition leaf_data (direct : bool) (counts : list nat) (st : leaf) : lsizes :=
  if fixed_size st
  then FixedSizes (map (fun gt => (nth gt counts 0, answer (entity_size direct st gt 0))) (seq 0 (length counts)))
  else EntitySizes (map (fun gt => if nth gt (gt_used st) false
                                   then map (fun e => answer (entity_size direct st gt e)) (seq 0 (nth gt counts 0)) else [])
                      (seq 0 (length counts))).

(** The leaves below an entity-blocked ordering, each with its own finite element map and keys; the visitors treat the
    leaves one after the other (gt_sizes is shared, but refilled before every use). *)
Inductive ftree := FLeaf (f : fem) (cells : list keys) (before : nat) | FNode (blocked : bool) (cs : list ftree).
Fixpoint tree_update (counts : list nat) (t : ftree) : res ltree :=
  match t with
  | FLeaf f cells before => let* st := leaf_update false f counts cells before in Ok (LLeaf (leaf_data false counts st))
  | FNode b cs => let* cs' := mapM (tree_update counts) cs in Ok (LNode b cs')
  end.
