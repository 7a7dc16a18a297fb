(** Model of the partitions of an entity set (dune/pdelab/common/partition): how the elements of an
    entity set are split into patches, how patches are sorted into labels by colouring, and how the
    halo of concurrently processed patches is marked.

    Simplifications common to the file.
    - An entity set is the list of its elements in iteration order; a patch is the list of elements its
      iterator range (or seed container) runs over.
    - [size_t] is [nat] (no overflow); the two largest values that the code reserves as "all interior"
      and "all overlap" are the constructors [AllInterior] and [AllOverlap] of [distance].
    - The mesh is seen through the index of the mapper over entities of all codimensions: an element
      has a list of sub-entity indices (codimension 0 first, as in the code) and a list of neighbours
      (intersections with [neighbor()]). *)
From Verif Require Import Common.

(** halo/region.hh 19-23: halo distance with its two reserved values. *)
Inductive distance : Type := Dist (h : nat) | AllInterior | AllOverlap.

(** halo/region.hh 11-12. *)
Inductive region : Type := Interior | Overlap.

(** ** Splitting into patches *)

(** iteratorsplit.hh 78-86 and metis.hh 171-179: number of elements per automatic patch. *)
Definition per_patch (dim : nat) : nat :=
  match dim with 1 => 125 | 2 => 250 | _ => 500 end.

(** iteratorsplit.hh 78-86: the number of patches that an update works with, [n] = size(0). *)
Definition choose_patches (dim patches n : nat) : nat :=
  if patches =? 0 then Nat.max 1 (n / per_patch dim) else patches.

(** iteratorsplit.hh 97-107: the loop over the patches before the last one ([k] of them left) and the last
    chunk.  The iterators are positions; [std::next] beyond the end is undefined behaviour.  Result:
    pairs of positions [begin, end). *)
Fixpoint split_loop (k begin_it end_it chunk remainder : nat) : res (list (nat * nat)) :=
  match k with
  | 0 => Ok [(begin_it, end_it)]
  | S k' =>
      let next_end := begin_it + (chunk + (if remainder =? 0 then 0 else 1)) in
      if end_it <? next_end then UB else
      let* rest := split_loop k' next_end end_it chunk
                     (if remainder =? 0 then remainder else remainder - 1) in
      Ok ((begin_it, next_end) :: rest)
  end.

(** iteratorsplit.hh 88-108: one split of the entity set into [patches] iterator ranges. *)
Definition split_set {A} (patches : nat) (es : list A) : res (list (list A)) :=
  let dist := length es in
  let* rs := split_loop (patches - 1) 0 dist (dist / patches) (dist mod patches) in
  Ok (map (fun r => slice (fst r) (snd r - fst r) es) rs).

(** iteratorsplit.hh 75-109: state of the mixin (the member [_patches], which the automatic choice
    overwrites, and the single label set) and its update. *)
Definition split_update {A} (dim : nat) (st : nat * list (list A)) (es : list A)
  : res (nat * list (list A)) :=
  let p := choose_patches dim (fst st) (length es) in
  let* ps := split_set p es in
  Ok (p, ps).

(** iteratorsplit.hh 49-54 and 147-151: construction followed by any number of updates. *)
Definition split_history {A} (dim patches : nat) (es : list A) (updates : list (list A))
  : res (nat * list (list A)) :=
  foldM (split_update dim) (es :: updates) (patches, []).

(** identity.hh 72-75. *)
Definition identity_set {A} (es : list A) : list (list (list A)) := [[es]].

(** metis.hh 250-259: seeds are distributed over the patches as the graph partitioner [element_part]
    says.  The partitioner itself (METIS_PartMeshDual) is a parameter. *)
Definition metis_assign {A} (patches : nat) (element_part : list nat) (seeds : list A)
  : res (list (list A)) :=
  foldM (fun sp ip =>
           match nth_error sp (snd ip) with
           | Some l => Ok (upd (snd ip) (l ++ [fst ip]) sp)
           | None => UB
           end) (combine seeds element_part) (repeat [] patches).

(** metis.hh 168-260: one update of the METIS mixin; [part] is the partitioner. *)
Definition metis_update {A} (dim : nat) (part : nat -> list A -> list nat)
  (st : nat * list (list A)) (es : list A) : res (nat * list (list A)) :=
  let p := choose_patches dim (fst st) (length es) in
  if p =? 1 then Ok (p, [es])
  else let* ps := metis_assign p (part p es) es in Ok (p, ps).

(** metis.hh 150-155, 299-306: construction (which updates) followed by updates. *)
Definition metis_history {A} (dim : nat) (part : nat -> list A -> list nat) (patches : nat)
  (es : list A) (updates : list (list A)) : res (nat * list (list A)) :=
  foldM (metis_update dim part) (es :: updates) (patches, []).

(** ** Mesh as the halo code sees it *)

Record mesh : Type := Mesh {
  n_elem : nat;               (** size of the element mapper *)
  n_sub : nat;                (** size of the mapper over all codimensions *)
  subs : nat -> list nat;     (** sub-entity indices of an element, all codimensions *)
  nbrs : nat -> list nat      (** outside elements of its intersections *)
}.

(** ** Coloured partitions *)

(** Dune::MatrixIndexSet::add on one row: an ordered set of indices. *)
Fixpoint sins (x : nat) (l : list nat) : list nat :=
  match l with
  | [] => [x]
  | y :: t => if x <? y then x :: l else if x =? y then l else y :: sins x t
  end.

Definition row_add (i x : nat) (rows : list (list nat)) : list (list nat) :=
  upd i (sins x (nth i rows [])) rows.

(** halo/colored.hh 134-135: connections between patches and patches seen at every sub-entity. *)
Definition links_state : Type := list (list nat) * list (list nat).

(** halo/colored.hh 141-149: one sub-entity. *)
Definition mark_sub (id : nat) (st : links_state) (s : nat) : links_state :=
  let '(links, owners) := st in
  (fold_left (fun l owner => row_add id owner (row_add owner id l)) (nth s owners []) links,
   row_add s id owners).

(** halo/colored.hh 138-151. *)
Definition mark_entity (m : mesh) (id : nat) (st : links_state) (e : nat) : links_state :=
  fold_left (mark_sub id) (subs m e) st.

(** halo/colored.hh 154-162: the recursion over neighbours. *)
Fixpoint mark_overlap (m : mesh) (id h : nat) (st : links_state) (e : nat) : links_state :=
  let st1 := mark_entity m id st e in
  match h with
  | 0 => st1
  | S h' => fold_left (mark_overlap m id h') (nbrs m e) st1
  end.

(** halo/colored.hh 164-172: all patches of the base partition, numbered in order. *)
Definition mark_patches (m : mesh) (h : nat) (patches : list (list nat)) : links_state :=
  fold_left (fun st ip => fold_left (mark_overlap m (fst ip) h) (snd ip) st)
    (combine (seq 0 (length patches)) patches)
    (repeat [] (length patches), repeat [] (n_sub m)).

(** halo/colored.hh 126-186: the graph; the compressed rows are the ordered index sets. *)
Definition make_graph (m : mesh) (h : nat) (patches : list (list nat)) : list (list nat) :=
  fst (mark_patches m h patches).

(** Keys of the priority queue: saturation, degree, vertex (halo/colored.hh 198-199). *)
Definition qkey : Type := (nat * nat * nat)%type.
Definition kvertex (k : qkey) : nat := snd k.

Definition key_eqb (k l : qkey) : bool :=
  (fst (fst k) =? fst (fst l)) && (snd (fst k) =? snd (fst l)) && (snd k =? snd l).

(** Lexicographic [std::greater] of [std::array<size_t,3>]. *)
Definition key_gtb (k l : qkey) : bool :=
  (fst (fst l) <? fst (fst k))
  || ((fst (fst l) =? fst (fst k))
      && ((snd (fst l) <? snd (fst k))
          || ((snd (fst l) =? snd (fst k)) && (snd l <? snd k)))).

(** [std::set<…, std::greater<>>::emplace]. *)
Fixpoint qins (k : qkey) (q : list qkey) : list qkey :=
  match q with
  | [] => [k]
  | l :: t => if key_gtb k l then k :: q else if key_eqb k l then q else l :: qins k t
  end.

(** [std::set::find] and [erase] of the found iterator; erasing the end iterator is undefined. *)
Fixpoint qerase (k : qkey) (q : list qkey) : res (list qkey) :=
  match q with
  | [] => UB
  | l :: t => if key_eqb k l then Ok t else let* t' := qerase k t in Ok (l :: t')
  end.

(** halo/colored.hh 190-199: working state of the colouring. *)
Record cstate : Type := CState {
  col : list (option nat);     (** None = uncolored *)
  deg : list nat;              (** unsigned char *)
  adj : list (list nat);       (** adjacent_colors *)
  used : list bool;
  maxc : nat;
  queue : list qkey
}.

(** halo/colored.hh 192: numeric_limits<unsigned char>::max(). *)
Definition max_degree : nat := 255.

(** halo/colored.hh 202-209: one vertex of the initialisation of the queue. *)
Definition init_vertex (g : list (list nat)) (st : list nat * list qkey) (v : nat)
  : res (list nat * list qkey) :=
  let d := length (nth v g []) in
  if max_degree <=? d then Throw
  else Ok (upd v d (fst st), qins (0, d, v) (snd st)).

Definition init_state (g : list (list nat)) : res cstate :=
  let n := length g in
  let* dq := foldM (init_vertex g) (seq 0 n) (repeat 0 n, []) in
  Ok (CState (repeat None n) (fst dq) (repeat [] n) (repeat false n) 0 (snd dq)).

(** halo/colored.hh 220-222 ([b] = true) and 228-230 ([b] = false): set the flags of the colours of
    coloured neighbours. *)
Definition set_used (b : bool) (c : list (option nat)) (u : list bool) (nb : nat) : res (list bool) :=
  match nth_error c nb with
  | None => UB
  | Some None => Ok u
  | Some (Some x) => if x <? length u then Ok (upd x b u) else UB
  end.

(** halo/colored.hh 224-226. *)
Fixpoint lowest_unused (u : list bool) : nat :=
  match u with
  | true :: t => S (lowest_unused t)
  | _ => 0
  end.

(** halo/colored.hh 238-246: one neighbour of the freshly coloured node; the degree is decremented in
    an unsigned char. *)
Definition requeue (c : list (option nat)) (this_color : nat)
  (st : list nat * list (list nat) * list qkey) (nb : nat)
  : res (list nat * list (list nat) * list qkey) :=
  let '(dg, ad, q) := st in
  match nth_error c nb with
  | None => UB
  | Some (Some _) => Ok st
  | Some None =>
      let* q1 := qerase (length (nth nb ad []), nth nb dg 0, nb) q in
      let ad' := row_add nb this_color ad in
      let dg' := upd nb ((nth nb dg 0 + 255) mod 256) dg in
      Ok (dg', ad', qins (length (nth nb ad' []), nth nb dg' 0, nb) q1)
  end.

(** halo/colored.hh 213-247: one pass of the loop for the node popped from the queue. *)
Definition colour_node (g : list (list nat)) (st : cstate) (node : nat) (q : list qkey) : res cstate :=
  let row := nth node g [] in
  let* u1 := foldM (set_used true (col st)) row (used st) in
  let this_color := lowest_unused u1 in
  let* u2 := foldM (set_used false (col st)) row u1 in
  let c' := upd node (Some this_color) (col st) in
  let* dq := foldM (requeue c' this_color) row (deg st, adj st, q) in
  let '(dg, ad, q') := dq in
  Ok (CState c' dg ad u2 (Nat.max (maxc st) this_color) q').

(** halo/colored.hh 212-248: the loop; running out of [fuel] with a non-empty queue stands for a loop
    that does not end. *)
Fixpoint colour_loop (fuel : nat) (g : list (list nat)) (st : cstate) : res cstate :=
  match queue st with
  | [] => Ok st
  | k :: q =>
      match fuel with
      | 0 => UB
      | S f => let* st' := colour_node g st (kvertex k) q in colour_loop f g st'
      end
  end.

(** halo/colored.hh 250-259: the check of the result for one vertex and one neighbour. *)
Definition check_link (c : list (option nat)) (mx v nb : nat) : bool :=
  negb (negb (v =? nb)
        && match nth v c None, nth nb c None with
           | Some a, Some b => a =? b | None, None => true | _, _ => false end)
  && match nth v c None with Some a => a <? mx + 1 | None => false end.

(** halo/colored.hh 189-262. *)
Definition make_colors (g : list (list nat)) : res (list (option nat) * nat) :=
  let* st0 := init_state g in
  let* st := colour_loop (length g) g st0 in
  if forallb (fun v => forallb (check_link (col st) (maxc st) v) (nth v g [])) (seq 0 (length g))
  then Ok (col st, maxc st + 1)
  else Throw.

(** halo/colored.hh 116-120: a patch is appended to the label set of its colour. *)
Definition assign_label {A} (colors : list (option nat)) (ls : list (list A)) (ip : nat * A)
  : res (list (list A)) :=
  match nth_error colors (fst ip) with
  | Some (Some c) =>
      match nth_error ls c with Some l => Ok (upd c (l ++ [snd ip]) ls) | None => UB end
  | _ => UB
  end.

(** halo/colored.hh 92-121: update of the adaptor; [base] is the base partition (labels of patches). *)
Definition colored_update (m : mesh) (d : distance) (base : list (list (list nat)))
  : res (list (list (list nat))) :=
  let patches := concat base in
  match d with
  | AllOverlap => Throw
  | AllInterior => Ok [patches]
  | Dist h =>
      let* cc := make_colors (make_graph m h patches) in
      foldM (assign_label (fst cc)) (combine (seq 0 (length patches)) patches)
        (repeat [] (snd cc))
  end.

(** iteratorsplit.hh 173-182: construction or update of the coloured split; every update starts from
    the requested number of patches. *)
Definition colored_split (m : mesh) (d : distance) (dim patches : nat) (es : list nat)
  : res (list (list (list nat))) :=
  let* b := split_update dim (patches, []) es in
  colored_update m d [snd b].

(** ** Halo of uncoloured partitions *)

(** halo/uncolored.hh 128-137: elements the recursion visits from [e], in order. *)
Fixpoint visits (m : mesh) (h e : nat) : list nat :=
  e :: match h with
       | 0 => []
       | S h' => flat_map (visits m h') (nbrs m e)
       end.

(** halo/uncolored.hh 155-168: [apply] for every element of every patch of the label; the patch number
    is the identity of the thread. *)
Definition for_each_element {B} (label : list (list nat)) (f : nat -> nat -> list B) : list B :=
  flat_map (fun ip => flat_map (f (fst ip)) (snd ip)) (combine (seq 0 (length label)) label).

(** halo/uncolored.hh 105-112: the stores of phase 1, as pairs (sub-entity, patch). *)
Definition owner_stores (m : mesh) (label : list (list nat)) : list (nat * nat) :=
  for_each_element label (fun id e => map (fun s => (s, id)) (subs m e)).

(** halo/uncolored.hh 109. *)
Definition store_owner (ow : list (option nat)) (si : nat * nat) : list (option nat) :=
  upd (fst si) (Some (snd si)) ow.

(** halo/uncolored.hh 115-137: the tests of phase 2, as pairs (sub-entity, patch). *)
Definition overlap_tests (m : mesh) (h : nat) (label : list (list nat)) : list (nat * nat) :=
  for_each_element label
    (fun id e => flat_map (fun x => map (fun s => (s, id)) (subs m x)) (visits m h e)).

(** halo/uncolored.hh 119-122: load the owner, store the flag if it is another patch. *)
Definition test_overlap (ow : list (option nat)) (ov : list bool) (si : nat * nat) : list bool :=
  match nth (fst si) ow None with
  | Some o => if o =? snd si then ov else upd (fst si) true ov
  | None => upd (fst si) true ov
  end.

(** halo/uncolored.hh 140-152: the tests of phase 3, as pairs (element, sub-entity). *)
Definition halo_tests (m : mesh) (label : list (list nat)) : list (nat * nat) :=
  for_each_element label (fun _ e => map (fun s => (e, s)) (subs m e)).

(** halo/uncolored.hh 145-149. *)
Definition test_halo (ov : list bool) (halo : list bool) (es : nat * nat) : list bool :=
  if nth (snd es) ov false then upd (fst es) true halo else halo.

(** halo/uncolored.hh 170-182: the three phases for one label under given orders of the accesses.  Each
    phase ends before the next begins ([std::for_each] returns); no phase reads an array that it
    writes.  The accesses are relaxed atomics, so within a phase ANY order of all accesses of all
    threads is allowed, not only interleavings of the threads' programs; the load and the store of a
    test are taken together because nothing that is loaded changes during the phase. *)
Definition label_phases (m : mesh) (o1 o2 o3 : list (nat * nat)) (halo : list bool) : list bool :=
  let ow := fold_left store_owner o1 (repeat None (n_sub m)) in
  let ov := fold_left (test_overlap ow) o2 (repeat false (n_sub m)) in
  fold_left (test_halo ov) o3 halo.

(** The executions of one label: every order of the accesses of each phase. *)
Definition label_run (m : mesh) (h : nat) (label : list (list nat)) (halo halo' : list bool) : Prop :=
  exists o1 o2 o3,
    Permutation o1 (owner_stores m label)
    /\ Permutation o2 (overlap_tests m h label)
    /\ Permutation o3 (halo_tests m label)
    /\ halo' = label_phases m o1 o2 o3 halo.

(** halo/uncolored.hh 170: the labels one after the other. *)
Inductive labels_run (m : mesh) (h : nat) : list (list (list nat)) -> list bool -> list bool -> Prop :=
| labels_nil halo : labels_run m h [] halo halo
| labels_cons label ls halo halo1 halo2 :
    label_run m h label halo halo1 ->
    labels_run m h ls halo1 halo2 ->
    labels_run m h (label :: ls) halo halo2.

(** halo/uncolored.hh 58-186: all executions of [updateHalo]; None when no region is stored. *)
Definition update_halo (m : mesh) (d : distance) (ls : list (list (list nat)))
  (r : option (list bool)) : Prop :=
  match d with
  | Dist h => exists halo, labels_run m h ls (repeat false (n_elem m)) halo /\ r = Some halo
  | _ => r = None
  end.

(** halo/uncolored.hh 42-51. *)
Definition halo_region (d : distance) (r : option (list bool)) (e : nat) : res region :=
  match d with
  | AllOverlap => Ok Overlap
  | AllInterior => Ok Interior
  | Dist _ =>
      match r with
      | None => UB
      | Some halo => match nth_error halo e with
                     | None => UB
                     | Some true => Ok Overlap
                     | Some false => Ok Interior
                     end
      end
  end.
