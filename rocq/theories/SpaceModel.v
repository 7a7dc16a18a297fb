(** The life of grid function spaces: construction of leaf, power and composite spaces, copies,
    update(), the lazily created ordering, the entity sets shared between spaces, and the sizes
    a space reports.

    Every call returns the state of all objects afterwards and how the call ended, since a call that
    throws may already have changed something.  The grid is the number of its entities of each
    codimension.  Finite element maps have a fixed number of dofs per entity of each codimension
    (fixedSize()), with one geometry type per codimension. *)
From Verif Require Import Common.

(** A function that is changed at one point: an object that is assigned to. *)
Definition put {A} (f : nat -> A) (k : nat) (x : A) : nat -> A := fun j => if j =? k then x else f j.

(** ** Entity sets *)

(** partitionviewentityset.hh 462-512: the state of the index set which all copies of an entity set
    share.  Codimension masks are bit masks, [ix_count] is what was stored by the last update (lines
    388-394 and 734-736 or 573-588: the number of entities of each codimension). *)
Record ixset := mkix { ix_needs : bool; ix_wanted : N; ix_active : N; ix_count : nat -> nat }.

(** partitionviewentityset.hh 376-414 with 557-566 / 729-738. *)
Definition ix_update (g : nat -> nat) (force : bool) (s : ixset) : ixset :=
  if negb (ix_needs s || force) then s else mkix false (ix_wanted s) (ix_wanted s) g.
(** partitionviewentityset.hh 490-500. *)
Definition ix_mark (s : ixset) (w : N) : ixset :=
  mkix (negb (N.eqb w (ix_active s)) || N.eqb w 0) w (ix_active s) (ix_count s).
Definition ix_add (s : ixset) (c : nat) : ixset := ix_mark s (N.setbit (ix_wanted s) (N.of_nat c)).
Definition ix_remove (s : ixset) (c : nat) : ixset := ix_mark s (N.clearbit (ix_wanted s) (N.of_nat c)).
(** partitionviewentityset.hh 484-488. *)
Definition ix_reset (s : ixset) : ixset := mkix true 0 (ix_active s) (ix_count s).
(** partitionviewentityset.hh 268-274 with 688-693 / 792-797: needs an update unless initialized. *)
Definition ix_new (g : nat -> nat) (mask : N) (initialize : bool) : ixset :=
  let s := mkix true mask 0 (fun _ => 0) in if initialize then ix_update g true s else s.
(** partitionviewentityset.hh 425-431 (size of a codimension): 0 if the codimension is not active. *)
Definition ix_size (s : ixset) (c : nat) : nat := if N.testbit (ix_active s) (N.of_nat c) then ix_count s c else 0.

(** ** Spaces *)

(** A finite element map: the number of dofs per entity of each codimension and maxLocalSize(). *)
Record fem := mkfem { f_dofs : nat -> nat; f_max : nat }.

(** tags.hh: the ordering tag of a power or composite space, with the blocking of its backend.  The
    interleaved block size is the sum of the block sizes of the tag, and positive: S m.  (That there
    is one block size per child is not modelled.) *)
Inductive nkind := Lexicographic (blocked : bool) | Interleaved (blocked : bool) (m : nat) | EntityBlocked (blocked : bool).

(** gridfunctionspace.hh 183-487, powergridfunctionspace.hh 42-310, compositegridfunctionspace.hh
    36-230: a space with its children.  [id] is the space object, [es] the entity set object (the
    index set shared by its copies) given to a leaf. *)
Inductive stree :=
| SLeaf (id : nat) (es : nat) (f : fem) (blocked : bool)
| SNode (id : nat) (k : nkind) (cs : list stree).
Definition root_id (t : stree) : nat := match t with SLeaf id _ _ _ => id | SNode id _ _ => id end.

(** powercompositegridfunctionspacebase.hh 99-113: a power or composite space takes the entity set of
    its first child (lazily; the set never changes later, so that is not observable). *)
Fixpoint tree_es (t : stree) : nat :=
  match t with SLeaf _ es _ _ => es | SNode _ _ cs => match cs with [] => 0 | c :: _ => tree_es c end end.
(** The entity sets of the leaves, in the order in which a visitor sees them. *)
Fixpoint leaf_sets (t : stree) : list nat :=
  match t with SLeaf _ es _ _ => [es] | SNode _ _ cs => flat_map leaf_sets cs end.

(** gridfunctionspacebase.hh 60-79 (GridFunctionSpaceOrderingData). *)
Record data := mkdata { d_size : nat; d_blocks : nat; d_global : nat; d_max : nat; d_root : bool; d_init : bool; d_avail : bool }.
Definition new_data : data := mkdata 0 0 0 0 true false true.

(** ** Orderings *)

(** The sizes an ordering stores (orderingbase.hh 286-288). *)
Record osz := mkosz { o_size : nat; o_blocks : nat; o_max : nat }.
Definition no_sizes : osz := mkosz 0 0 0.

(** leaflocalordering.hh and entityblockedlocalordering.hh: the local ordering below an
    entity-blocked node.  Only its leaves know their space (leaflocalordering.hh 192; the inner nodes
    are constructed with a null pointer, entityblockedlocalordering.hh 53 and 175). *)
Inductive ltree := LLeaf (id : nat) (f : fem) | LNode (cs : list ltree).

(** leafgridviewordering.hh, gridviewordering.hh, lexicographicordering.hh, interleavedordering.hh.
    [id] is the space whose data the ordering fills. *)
Inductive otree :=
| OLeaf (id : nat) (es : nat) (f : fem) (blocked : bool) (z : osz)
| OGrid (id : nat) (es : nat) (blocked : bool) (l : ltree) (z : osz)
| ONode (id : nat) (k : nkind) (cs : list otree) (z : osz).
Definition osizes (o : otree) : osz := match o with OLeaf _ _ _ _ z | OGrid _ _ _ _ z | ONode _ _ _ z => z end.

(** entityblockedlocalordering.hh 62-90 / 199-224 with leaflocalordering.hh 170-196.  (The spaces below
    an entity-blocked space are entity-blocked or leaves, which the types enforce: the tag of an inner
    node is not looked at.) *)
Fixpoint local (t : stree) : ltree :=
  match t with SLeaf id _ f _ => LLeaf id f | SNode _ _ cs => LNode (map local cs) end.

(** gridfunctionspacebase.hh 128-152 (common_entity_set). *)
Definition common_set (l : list nat) : option nat :=
  match l with
  | [] => None
  | s :: l => if forallb (Nat.eqb s) l then Some s else None
  end.
Fixpoint all_some {A} (l : list (option A)) : option (list A) :=
  match l with
  | [] => Some []
  | None :: _ => None
  | Some a :: l => match all_some l with Some r => Some (a :: r) | None => None end
  end.
(** gridfunctionspace.hh 479-482 and its counterparts: the ordering of a tree of spaces
    (leafgridviewordering.hh 233-244, lexicographicordering.hh 176-205, interleavedordering.hh 248-290,
    entityblockedlocalordering.hh 113-146 and 236-268).  [None]: it throws. *)
Fixpoint create (t : stree) : option otree :=
  match t with
  | SLeaf id es f b => Some (OLeaf id es f b no_sizes)
  | SNode id (EntityBlocked b) cs =>
      match common_set (flat_map leaf_sets cs) with
      | Some s => Some (OGrid id s b (LNode (map local cs)) no_sizes)
      | None => None
      end
  | SNode id k cs =>
      match all_some (map create cs) with Some os => Some (ONode id k os no_sizes) | None => None end
  end.

Section Grid.
  (** The dimension of the grid and the number of its entities of each codimension. *)
  Variable dim : nat.
  Variable g : nat -> nat.

  (** leafgridviewordering.hh 119-133, gridviewordering.hh 692-704: cells and every codimension with
      dofs are added to the entity set, which is then updated. *)
  Definition prepare (d : nat -> nat) (s : ixset) : ixset :=
    ix_update g false (fold_left ix_add (filter (fun c => (c =? 0) || (0 <? d c)) (seq 0 (S dim))) s).

  (** leafgridviewordering.hh 163-182, gridviewordering.hh 743-768 (fixed sizes): the loop runs over the
      active geometry types. *)
  Definition grid_sizes (blocked : bool) (d : nat -> nat) (max : nat) (s : ixset) : osz :=
    let cs := filter (fun c => N.testbit (ix_active s) (N.of_nat c)) (seq 0 (S dim)) in
    mkosz (sum_nat (map (fun c => d c * ix_count s c) cs))
      (sum_nat (map (fun c => (if blocked then (if 0 <? d c then 1 else 0) else d c) * ix_count s c) cs)) max.

  (** gridviewordering.hh 117-150: sizes of a local ordering, per codimension. *)
  Fixpoint ldofs (l : ltree) (c : nat) : nat :=
    match l with LLeaf _ f => f_dofs f c | LNode cs => sum_nat (map (fun l => ldofs l c) cs) end.
  Fixpoint lmax (l : ltree) : nat :=
    match l with LLeaf _ f => f_max f | LNode cs => sum_nat (map lmax cs) end.

  (** orderingbase.hh 97-137: the new sizes, and whether the call returned.  If it throws _size keeps its
      value. *)
  Definition merge (k : nkind) (cs : list otree) (z : osz) : osz * bool :=
    let size := sum_nat (map (fun o => o_size (osizes o)) cs) in
    let blocks := sum_nat (map (fun o => o_blocks (osizes o)) cs) in
    let max := sum_nat (map (fun o => o_max (osizes o)) cs) in
    match k with
    | Interleaved true m =>
        if blocks mod (S m) =? 0 then (mkosz size (blocks / S m) max, true) else (mkosz (o_size z) blocks max, false)
    | Lexicographic true => (mkosz size (length cs) max, true)
    | _ => (mkosz size blocks max, true)
    end.

  (** lexicographicordering.hh 137-144, interleavedordering.hh 235-242 and 330-334 (children first, then
      the node), leafgridviewordering.hh 117-197, gridviewordering.hh 684-810.  An exception leaves the
      orderings that come later untouched. *)
  Definition upd_children (f : otree -> (nat -> ixset) -> otree * (nat -> ixset) * bool) :=
    fix go (cs : list otree) (S : nat -> ixset) : list otree * (nat -> ixset) * bool :=
      match cs with
      | [] => ([], S, true)
      | c :: cs =>
          let '(c1, S1, ok) := f c S in
          if ok then let '(cs1, S2, ok2) := go cs S1 in (c1 :: cs1, S2, ok2)
          else (c1 :: cs, S1, false)
      end.
  Fixpoint oupdate (o : otree) (S : nat -> ixset) {struct o} : otree * (nat -> ixset) * bool :=
    match o with
    | OLeaf id es f b z =>
        let s := prepare (f_dofs f) (S es) in
        (OLeaf id es f b (grid_sizes b (f_dofs f) (f_max f) s), put S es s, true)
    | OGrid id es b l z =>
        let s := prepare (ldofs l) (S es) in
        (OGrid id es b l (grid_sizes b (ldofs l) (lmax l) s), put S es s, true)
    | ONode id k cs z =>
        let '(cs1, S1, ok) := upd_children oupdate cs S in
        if ok then let '(z1, ok1) := merge k cs1 z in (ONode id k cs1 z1, S1, ok1)
        else (ONode id k cs1 z, S1, false)
    end.
End Grid.

(** gridfunctionspacebase.hh 86-116: what the visitor writes, in its order (leaves, and nodes after their
    children): [None] if the ordering provides no size (localorderingbase.hh 390-393), else the size and
    the block count (orderingbase.hh 266-271). *)
Fixpoint lwrites (l : ltree) : list (nat * option (nat * nat)) :=
  match l with LLeaf id _ => [(id, None)] | LNode cs => flat_map lwrites cs end.
Fixpoint writes (o : otree) : list (nat * option (nat * nat)) :=
  match o with
  | OLeaf id _ _ _ z => [(id, Some (o_size z, o_blocks z))]
  | OGrid id _ _ l z => lwrites l ++ [(id, Some (o_size z, o_blocks z))]
  | ONode id _ cs z => flat_map writes cs ++ [(id, Some (o_size z, o_blocks z))]
  end.
(** gridfunctionspacebase.hh 92-103. *)
Definition write1 (global max : nat) (D : nat -> data) (w : nat * option (nat * nat)) : nat -> data :=
  let d := D (fst w) in
  put D (fst w)
    match snd w with
    | Some (sz, bl) => mkdata sz bl global max (d_root d) true true
    | None => mkdata (d_size d) (d_blocks d) global max (d_root d) true false
    end.

(** ** The program's objects *)

(** All entity sets, spaces (their tree, their data, their ordering) and orderings created so far. *)
Record world := mkworld {
  w_grid : nat -> nat;
  w_nsets : nat; w_sets : nat -> ixset;
  w_n : nat; w_tree : nat -> stree; w_data : nat -> data; w_ord : nat -> option nat;
  w_nords : nat; w_otree : nat -> otree }.

Inductive outcome := Done | Threw | NoSuchObject.

Definition set_sets (w : world) S := mkworld (w_grid w) (w_nsets w) S (w_n w) (w_tree w) (w_data w) (w_ord w) (w_nords w) (w_otree w).
Definition set_data (w : world) D := mkworld (w_grid w) (w_nsets w) (w_sets w) (w_n w) (w_tree w) D (w_ord w) (w_nords w) (w_otree w).
Definition set_otree (w : world) o t :=
  mkworld (w_grid w) (w_nsets w) (w_sets w) (w_n w) (w_tree w) (w_data w) (w_ord w) (w_nords w) (put (w_otree w) o t).
Definition add_ord (w : world) k t :=
  mkworld (w_grid w) (w_nsets w) (w_sets w) (w_n w) (w_tree w) (w_data w) (put (w_ord w) k (Some (w_nords w)))
    (S (w_nords w)) (put (w_otree w) (w_nords w) t).
Definition add_space (w : world) t d o :=
  mkworld (w_grid w) (w_nsets w) (w_sets w) (S (w_n w)) (put (w_tree w) (w_n w) t) (put (w_data w) (w_n w) d)
    (put (w_ord w) (w_n w) o) (w_nords w) (w_otree w).

(** gridfunctionspacebase.hh 28-43 (reset_root_space_flag): stops at the first child that is an
    initialized root space. *)
Fixpoint adopt (D : nat -> data) (cs : list nat) : (nat -> data) * bool :=
  match cs with
  | [] => (D, true)
  | c :: cs =>
      let d := D c in
      if d_init d && d_root d then (D, false)
      else adopt (put D c (mkdata (d_size d) (d_blocks d) (d_global d) (d_max d) false (d_init d) (d_avail d))) cs
  end.

(** gridfunctionspacebase.hh 355-364 (update of an ordering) for the space [k] with the ordering [o]. *)
Definition update_ordering (dim : nat) (w : world) (k o : nat) : world * outcome :=
  if negb (d_root (w_data w k)) then (w, Threw)
  else
    let '(t, Ss, ok) := oupdate dim (w_grid w) (w_otree w o) (w_sets w) in
    let w := set_otree (set_sets w Ss) o t in
    if ok then (set_data w (fold_left (write1 (o_size (osizes t)) (o_max (osizes t))) (writes t) (w_data w)), Done)
    else (w, Threw).

(** gridfunctionspacebase.hh 160-184 (update_leaf_entity_set). *)
Definition visit_leaf (g : nat -> nat) (force : bool) (st : nat * (nat -> ixset)) (es : nat) : nat * (nat -> ixset) :=
  let '(current, Ss) := st in
  if current =? es then st else (es, put Ss es (ix_update g force (Ss es))).

(** gridfunctionspacebase.hh 259-269. *)
Definition update (dim : nat) (w : world) (k : nat) (force : bool) : world * outcome :=
  let t := w_tree w k in
  let es := tree_es t in
  let S1 := put (w_sets w) es (ix_update (w_grid w) force (w_sets w es)) in
  let S2 := snd (fold_left (visit_leaf (w_grid w) force) (leaf_sets t) (es, S1)) in
  let w := set_sets w S2 in
  match w_ord w k with
  | Some o => update_ordering dim w k o
  | None =>
      match create t with
      | None => (w, Threw)
      | Some ot => update_ordering dim (add_ord w k ot) k (w_nords w)
      end
  end.

(** gridfunctionspace.hh 412-473 and its counterparts (ordering(), orderingStorage()). *)
Definition ordering (dim : nat) (w : world) (k : nat) : world * outcome :=
  if negb (d_root (w_data w k)) then (w, Threw)
  else match w_ord w k with
  | Some o => (w, Done)
  | None =>
      match create (w_tree w k) with
      | None => (w, Threw)
      | Some ot => update_ordering dim (add_ord w k ot) k (w_nords w)
      end
  end.

(** The implicit copy constructor: the copy has the same children, data and ordering. *)
Definition retitle (n : nat) (t : stree) : stree :=
  match t with SLeaf _ es f b => SLeaf n es f b | SNode _ k cs => SNode n k cs end.

(** What a program can do. *)
Inductive op :=
| NewSet (mask : N) (initialize : bool)                         (* an entity set *)
| AddCodim (s c : nat) | RemoveCodim (s c : nat) | ResetSet (s : nat) | UpdateSet (s : nat) (force : bool)
| ChangeGrid (g : nat -> nat)                                   (* refinement, load balancing, ... *)
| NewLeaf (es : nat) (f : fem) (blocked : bool)
| NewNode (k : nkind) (c : nat) (cs : list nat)                 (* power and composite spaces *)
| CopySpace (c : nat)
| Update (k : nat) (force : bool)
| GetOrdering (k : nat).

Definition step (dim : nat) (w : world) (o : op) : world * outcome :=
  match o with
  | NewSet mask init =>
      (mkworld (w_grid w) (S (w_nsets w)) (put (w_sets w) (w_nsets w) (ix_new (w_grid w) mask init)) (w_n w) (w_tree w)
         (w_data w) (w_ord w) (w_nords w) (w_otree w), Done)
  | AddCodim s c => if s <? w_nsets w then (set_sets w (put (w_sets w) s (ix_add (w_sets w s) c)), Done) else (w, NoSuchObject)
  | RemoveCodim s c => if s <? w_nsets w then (set_sets w (put (w_sets w) s (ix_remove (w_sets w s) c)), Done) else (w, NoSuchObject)
  | ResetSet s => if s <? w_nsets w then (set_sets w (put (w_sets w) s (ix_reset (w_sets w s))), Done) else (w, NoSuchObject)
  | UpdateSet s force =>
      if s <? w_nsets w then (set_sets w (put (w_sets w) s (ix_update (w_grid w) force (w_sets w s))), Done) else (w, NoSuchObject)
  | ChangeGrid g =>
      (mkworld g (w_nsets w) (w_sets w) (w_n w) (w_tree w) (w_data w) (w_ord w) (w_nords w) (w_otree w), Done)
  | NewLeaf es f b =>
      if es <? w_nsets w then (add_space w (SLeaf (w_n w) es f b) new_data None, Done) else (w, NoSuchObject)
  | NewNode k c cs =>
      if forallb (fun c => c <? w_n w) (c :: cs) then
        let '(D, ok) := adopt (w_data w) (c :: cs) in
        let w := set_data w D in
        if ok then (add_space w (SNode (w_n w) k (map (w_tree w) (c :: cs))) new_data None, Done) else (w, Threw)
      else (w, NoSuchObject)
  | CopySpace c =>
      if c <? w_n w then (add_space w (retitle (w_n w) (w_tree w c)) (w_data w c) (w_ord w c), Done) else (w, NoSuchObject)
  | Update k force => if k <? w_n w then update dim w k force else (w, NoSuchObject)
  | GetOrdering k => if k <? w_n w then ordering dim w k else (w, NoSuchObject)
  end.

(** ** Observations *)

(** gridfunctionspacebase.hh 205-246. *)
Definition size (w : world) (k : nat) : res nat :=
  if negb (d_init (w_data w k)) then Throw else if negb (d_avail (w_data w k)) then Throw else Ok (d_size (w_data w k)).
Definition blockCount (w : world) (k : nat) : res nat :=
  if negb (d_init (w_data w k)) then Throw else if negb (d_avail (w_data w k)) then Throw else Ok (d_blocks (w_data w k)).
Definition globalSize (w : world) (k : nat) : res nat :=
  if negb (d_init (w_data w k)) then Throw else Ok (d_global (w_data w k)).
Definition maxLocalSize (w : world) (k : nat) : res nat :=
  if negb (d_init (w_data w k)) then Throw else Ok (d_max (w_data w k)).
(** gridfunctionspacebase.hh 346-349. *)
Definition isRootSpace (w : world) (k : nat) : bool := d_root (w_data w k).
(** ordering().size() and entitySet().size(codim). *)
Definition ordering_size (w : world) (k : nat) : option nat :=
  match w_ord w k with Some o => Some (o_size (osizes (w_otree w o))) | None => None end.
Definition set_size (w : world) (s c : nat) : res nat := if ix_needs (w_sets w s) then UB else Ok (ix_size (w_sets w s) c).

(** The program starts with a grid and no objects. *)
Definition start (g : nat -> nat) : world :=
  mkworld g 0 (fun _ => mkix true 0 0 (fun _ => 0)) 0 (fun _ => SNode 0 (Lexicographic false) []) (fun _ => new_data) (fun _ => None)
    0 (fun _ => ONode 0 (Lexicographic false) [] no_sizes).
Definition run (dim : nat) (ops : list op) (w : world) : world := fold_left (fun w o => fst (step dim w o)) ops w.
