(** Index sets of partition views, the element mapper and the cell cache of the VTK output.
    common/partitionviewentityset.hh, common/elementmapper.hh, gridfunctionspace/vtk.hh *)
From Verif Require Import Common.

(** ** The grid *)

(** An entity: codimension, global index of its geometry type, index in the index set of the grid view, partition type *)
Record gent := mkent { e_codim : nat; e_gt : nat; e_base : nat; e_part : nat }.
(** A grid view: dimension; entities in the order of the iterators; types(codim) and size(type) of its index set;
    GlobalGeometryTypeIndex::offset; the sub-entities of an element, by codimension and number (with the element itself as the
    sub-entity of codimension 0). *)
Record grid := mkgrid { g_dim : nat; g_entities : list gent; g_types : nat -> list nat; g_size : nat -> nat; g_off : nat -> nat;
  g_subs : gent -> list gent }.
(** GlobalGeometryTypeIndex::size(dimension) *)
Definition g_ngt (g : grid) : nat := g_off g (S (g_dim g)).

(** std::array access *)
Definition rd {A} (l : list A) (k : nat) : res A := match nth_error l k with Some x => Ok x | None => UB end.
Definition wr {A} (l : list A) (k : nat) (x : A) : res (list A) := if k <? length l then Ok (upd k x l) else UB.
(** std::partial_sum in place *)
Fixpoint partial_sum (s : nat) (l : list nat) : list nat := match l with [] => [] | a :: l => (s + a) :: partial_sum (s + a) l end.

(** ** State: partitionviewentityset.hh 503-514 and 722; None is invalidIndex() *)
Record istate := mkis { needs_update : bool; wanted : list bool; active_gts : list bool; active : list bool; gt_off : list nat; mapped : list nat;
  geometry_types : list nat; per_codim : list (list nat); indices : list (option nat) }.

(** The dimension of a geometry type: the type index lies between the offsets of its dimension and of the next one. *)
Definition gt_dim (g : grid) (t : nat) : nat := length (filter (fun d => g_off g (S d) <=? t) (seq 0 (g_dim g))).
(** std::equal_range with the comparison y.dim() < x.dim(): 389-400.  The types are sorted, so that the binary search finds the end
    of the leading types of larger dimension and the end of the following types of this dimension. *)
Fixpoint drop_while {A} (f : A -> bool) (l : list A) : list A := match l with [] => [] | a :: l => if f a then drop_while f l else a :: l end.
Fixpoint take_while {A} (f : A -> bool) (l : list A) : list A := match l with [] => [] | a :: l => if f a then a :: take_while f l else [] end.
Definition types_of_dim (g : grid) (d : nat) (l : list nat) : list nat :=
  take_while (fun t => negb (gt_dim g t <? d)) (drop_while (fun t => d <? gt_dim g t) l).

(** Base::update: 363-408 *)
Definition base_update (g : grid) (s : istate) (force : bool) : res (bool * istate) :=
  if negb (needs_update s || force) then Ok (false, s)
  else
    let off := map (fun _ => 0) (gt_off s) in
    let mp := map (fun _ => 0) (mapped s) in
    let act := map (fun _ => false) (active_gts s) in
    let* (off, gts, act) :=
      foldM (fun '(off, gts, act) codim =>
        if nth codim (wanted s) false then
          foldM (fun '(off, gts, act) t =>
            let* off := wr off (t + 1) (g_size g t) in
            let* act := wr act t true in
            Ok (off, gts ++ [t], act)) (g_types g codim) (off, gts, act)
        else Ok (off, gts, act)) (seq 0 (S (g_dim g))) (off, [], act) in
    let pc := map (fun codim => types_of_dim g (g_dim g - codim) gts) (seq 0 (S (g_dim g))) in
    Ok (true, mkis false (wanted s) act (wanted s) (partial_sum 0 off) mp gts pc (indices s)).

(** One assignment of an index: 562-568, 594-600 *)
Definition assign (keep : bool) (st : list nat * list nat * list (option nat)) (e : gent) : res (list nat * list nat * list (option nat)) :=
  let '(off, mp, ix) := st in
  let* o := rd off (e_gt e) in
  let* old := rd ix (o + e_base e) in
  match keep, old with
  | true, Some _ => Ok (off, mp, ix)
  | _, _ => let* n := rd mp (e_gt e + 1) in
            let* ix := wr ix (o + e_base e) (Some n) in
            let* mp := wr mp (e_gt e + 1) (n + 1) in
            Ok (off, mp, ix)
  end.

(** update_codim for all codimensions: 543-569 *)
Definition update_codims (g : grid) (P : nat -> bool) (act : list bool) st :=
  foldM (fun st codim =>
    if nth codim act false then
      foldM (fun st e => if P (e_part e) then assign false st e else Ok st) (filter (fun e => e_codim e =? codim) (g_entities g)) st
    else Ok st) (seq 0 (S (g_dim g))) st.
(** The version for grids without all entity iterators: 572-604 *)
Definition update_from_elements (g : grid) (P : nat -> bool) (act : list bool) st :=
  foldM (fun st e =>
    if negb (P (e_part e)) then Ok st
    else foldM (fun st codim =>
           if nth codim act false then
             foldM (fun st s => assign true st s) (filter (fun s => e_codim s =? codim) (g_subs g e)) st
           else Ok st) (seq 0 (S (g_dim g))) st)
    (filter (fun e => e_codim e =? 0) (g_entities g)) st.

(** update of PartitionViewEntitySetIndexSet: 529-538; [iterators]: hasAllEntityIterators() *)
Definition update (g : grid) (P : nat -> bool) (iterators : bool) (s : istate) (force : bool) : res (bool * istate) :=
  let* (changed, s) := base_update g s force in
  if negb changed then Ok (false, s)
  else
    let ix := repeat None (last (gt_off s) 0) in
    let* mp := wr (mapped s) 0 0 in
    let* ix0 := Ok (if iterators then ix else map (fun _ => None) ix) in
    let* (off, mp, ix) := (if iterators then update_codims else update_from_elements) g P (active s) (gt_off s, mp, ix0) in
    Ok (true, mkis (needs_update s) (wanted s) (active_gts s) (active s) off (partial_sum 0 mp) (geometry_types s) (per_codim s) ix).

(** update of the specialization for all partitions: 744-753 *)
Definition update_all (g : grid) (s : istate) (force : bool) : res (bool * istate) :=
  let* (changed, s) := base_update g s force in
  if negb changed then Ok (false, s)
  else
    let* mp := wr (mapped s) 0 0 in
    let* mp := foldM (fun mp t => wr mp (t + 1) (g_size g t)) (geometry_types s) mp in
    Ok (true, mkis (needs_update s) (wanted s) (active_gts s) (active s) (gt_off s) (partial_sum 0 mp) (geometry_types s) (per_codim s) (indices s)).

(** reset, addCodim, removeCodim: 484-501; bitset::set and reset check the position *)
Definition none (m : list bool) : bool := negb (existsb (fun b => b) m).
Definition same_mask (a b : list bool) : bool := if list_eq_dec Bool.bool_dec a b then true else false.
Definition reset (s : istate) : istate :=
  mkis true (map (fun _ => false) (wanted s)) (active_gts s) (active s) (gt_off s) (mapped s) (geometry_types s) (per_codim s) (indices s).
Definition set_codim (b : bool) (s : istate) (c : nat) : res istate :=
  if negb (c <? length (wanted s)) then Throw
  else let w := upd c b (wanted s) in
       Ok (mkis (negb (same_mask w (active s)) || none w) w (active_gts s) (active s) (gt_off s) (mapped s) (geometry_types s) (per_codim s) (indices s)).
Definition add_codim := set_codim true.
Definition remove_codim := set_codim false.

(** Constructor: 466-470, 503-512, 703-708; the arrays are not initialized *)
Definition construct (g : grid) (mask : list bool) (garbage1 garbage2 : list nat) : istate :=
  mkis true mask (repeat false (g_ngt g)) (repeat false (S (g_dim g))) garbage1 garbage2 [] (repeat [] (S (g_dim g))) [].

(** Queries: 412-460 *)
Definition size_gt (s : istate) (t : nat) : res nat :=
  if needs_update s then UB else
  let* b := rd (mapped s) (t + 1) in let* a := rd (mapped s) t in Ok (b - a).
Definition size_codim (g : grid) (s : istate) (codim : nat) : res nat :=
  if needs_update s then UB else
  let* b := rd (mapped s) (g_off g (g_dim g - codim + 1)) in let* a := rd (mapped s) (g_off g (g_dim g - codim)) in Ok (b - a).
Definition contains_entity (P : nat -> bool) (in_base : bool) (e : gent) : bool := if P (e_part e) then in_base else false.
Definition contains_codim (s : istate) (c : nat) : bool := nth c (active s) false.
Definition contains_gt (s : istate) (t : nat) : bool := nth t (active_gts s) false.
Definition types_codim (s : istate) (c : nat) : res (list nat) := if needs_update s then UB else rd (per_codim s) c.
Definition types_all (s : istate) : res (list nat) := if needs_update s then UB else Ok (geometry_types s).

(** indexImpl and uniqueIndex: 606-617, 665-673; subIndexImpl and uniqueSubIndex are the same for the sub-entity, with the
    partition type of the element in the assertion. *)
Definition stored (s : istate) (e : gent) : res nat :=
  if needs_update s then UB else
  if negb (contains_gt s (e_gt e)) then UB else
  let* o := rd (gt_off s) (e_gt e) in
  let* i := rd (indices s) (o + e_base e) in
  match i with Some i => Ok i | None => UB end.
Definition index (P : nat -> bool) (s : istate) (e : gent) : res nat := if P (e_part e) then stored s e else UB.
Definition unique_index (P : nat -> bool) (s : istate) (e : gent) : res nat :=
  let* i := index P s e in let* o := rd (mapped s) (e_gt e) in Ok (i + o).
Definition sub_index (P : nat -> bool) (s : istate) (e sub : gent) : res nat := if P (e_part e) then stored s sub else UB.
(** The specialization for all partitions: 755-800 *)
Definition index_all (s : istate) (e : gent) : res nat := if contains_gt s (e_gt e) then Ok (e_base e) else UB.
Definition unique_index_all (s : istate) (e : gent) : res nat :=
  if contains_gt s (e_gt e) then let* o := rd (mapped s) (e_gt e) in Ok (e_base e + o) else UB.

(** A history of calls *)
Inductive op := ClearCodims | Add (c : nat) | Remove (c : nat) | Update (force : bool).
Definition step (upd : istate -> bool -> res (bool * istate)) (s : istate) (o : op) : res istate :=
  match o with
  | ClearCodims => Ok (reset s)
  | Add c => add_codim s c
  | Remove c => remove_codim s c
  | Update force => let* (_, s) := upd s force in Ok s
  end.

(** ** ElementMapper: elementmapper.hh 34-62; the local type index is the position after the offset of the grid dimension *)
Definition mapper_offsets (g : grid) : res (list nat) :=
  let* l := foldM (fun l t => wr l (t - g_off g (g_dim g) + 1) (g_size g t)) (g_types g 0) (repeat 0 (S (g_ngt g - g_off g (g_dim g)))) in
  Ok (partial_sum 0 l).
Definition map_element (g : grid) (offsets : list nat) (e : gent) : res nat :=
  let* o := rd offsets (e_gt e - g_off g (g_dim g)) in Ok (o + e_base e).

(** ** DGFTreeCommonData: vtk.hh 113-129.  The vector is given by its values on the cells. *)
Section vtk.
  Context {V : Type}.
  Variable cell_index : nat -> nat.
  Record vtk := mkvtk { current_cell : option nat; local : option V; vector : nat -> V }.
  Definition vtk_init (x : nat -> V) : vtk := mkvtk None None x.
  Definition vtk_bind (d : vtk) (cell : nat) : vtk :=
    match current_cell d with
    | Some c => if c =? cell_index cell then d else mkvtk (Some (cell_index cell)) (Some (vector d cell)) (vector d)
    | None => mkvtk (Some (cell_index cell)) (Some (vector d cell)) (vector d)
    end.
  (** evaluate: 184-200; the user may change the vector, which is shared, between evaluations. *)
  Inductive vop := SetVector (x : nat -> V) | Evaluate (cell : nat).
  Definition vtk_step (st : vtk * list (option V)) (o : vop) : vtk * list (option V) :=
    let (d, out) := st in
    match o with
    | SetVector x => (mkvtk (current_cell d) (local d) x, out)
    | Evaluate cell => let d := vtk_bind d cell in (d, out ++ [local d])
    end.
End vtk.
Arguments vop V : clear implicits.
Arguments vtk V : clear implicits.
