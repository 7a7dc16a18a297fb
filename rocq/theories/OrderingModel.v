(** Model of the DOF orderings: /repo/dune/pdelab/ordering/*.hh and the two tree visitors that drive them
    (gridfunctionspace/lfsindexcache.hh, gridfunctionspace/datahandleprovider.hh).

    Conventions.
    - An entity index is (geometry type index, index of the entity among those of its type).
    - Tree indices and container indices are lists whose HEAD is the C++ [back()]: for tree indices that is the
      child taken at the root, for container indices the outermost block.  [push_back] is [cons].
    - The capacity of multi-indices is not modelled here (see MultiIndexModel).
    - Leaf data is the state after the leaf's own update(); LeafUpdateModel models how it is computed from the
      finite element map. *)
From Verif Require Import Common.

Definition ent := (nat * nat)%type.

Definition at_ {A} (l : list A) (i : nat) : res A :=
  match nth_error l i with Some x => Ok x | None => UB end.

Definition b2n (b : bool) : nat := if b then 1 else 0.

(** directleaflocalordering.hh 325-342: the size information of a leaf.
    [FixedSizes gts]: _fixed_size; per geometry type (indexSet().size(gt), _gt_dof_sizes[gt]).
    [EntitySizes gts]: per geometry type the number of DOFs of every entity; [[]] when _gt_used[gt] is false. *)
Inductive lsizes :=
| FixedSizes (gts : list (nat * nat))
| EntitySizes (gts : list (list nat)).

(** Local orderings below an entity-blocked ordering: leaflocalordering.hh / entityblockedlocalordering.hh.
    The flag is _container_blocked of localorderingbase.hh. *)
Inductive ltree :=
| LLeaf (s : lsizes)
| LNode (blocked : bool) (cs : list ltree).

(** Ordering trees.
    [OLeaf b s]      LeafGridViewOrdering (leafgridviewordering.hh), container blocked iff [b]
    [OGV b ents t]   GridViewOrdering (gridviewordering.hh) with indexSet().size per geometry type [ents]
    [OLex b cs]      Power/CompositeLexicographicOrdering (lexicographicordering.hh)
    [OInter b m cs]  Power/CompositeInterleavedOrdering with offsets() of the tag [m] (interleavedordering.hh)
    [OChunk bs o]    ChunkedBlockOrdering (chunkedblockordering.hh)
    [OPerm p o]      PermutedOrdering (permutedordering.hh) *)
Inductive ord :=
| OLeaf (blocked : bool) (s : lsizes)
| OGV (blocked : bool) (ents : list nat) (t : ltree)
| OLex (blocked : bool) (cs : list ord)
| OInter (blocked : bool) (merge : list nat) (cs : list ord)
| OChunk (bs : nat) (o : ord)
| OPerm (perm : list nat) (o : ord).

(** ci.back() += n *)
Definition add_back (n : nat) (ci : list nat) : res (list nat) :=
  match ci with [] => UB | h :: t => Ok (h + n :: t) end.

(* ------------------------------------------------------------------ leaf data *)

(** directleaflocalordering.hh 109-121 / localorderingbase.hh 237-250 (leaf case): size(gt,e). *)
Definition leaf_ent_size (s : lsizes) (gt e : nat) : nat :=
  match s with
  | FixedSizes gts => snd (nth gt gts (0, 0))
  | EntitySizes gts => nth e (nth gt gts []) 0
  end.

(** leafgridviewordering.hh 163-181 (fixed size: _gt_dof_offsets; blocked: one block per used entity). *)
Definition leaf_gt_offsets (blocked : bool) (gts : list (nat * nat)) : list nat :=
  psums 0 (map (fun nd => (if blocked then b2n (0 <? snd nd) else snd nd) * fst nd) gts).

(** directleaflocalordering.hh 234-247: _gt_entity_offsets. *)
Definition leaf_entity_offsets (gts : list (list nat)) : list nat := psums 0 (map (@length nat) gts).

(** directleaflocalordering.hh 305-306: _entity_dof_offsets after partial_sum. *)
Definition leaf_dof_offsets (gts : list (list nat)) : list nat := psums 0 (concat gts).

(** leafgridviewordering.hh 163-188: _block_count (line 187: also for blocked containers the number of DOFs). *)
Definition leaf_block_count (blocked : bool) (s : lsizes) : nat :=
  match s with
  | FixedSizes gts => last (leaf_gt_offsets blocked gts) 0
  | EntitySizes gts => last (leaf_dof_offsets gts) 0
  end.

(** leafgridviewordering.hh 166-188: _size. *)
Definition leaf_size (s : lsizes) : nat :=
  match s with
  | FixedSizes gts => sum_nat (map (fun nd => snd nd * fst nd) gts)
  | EntitySizes gts => last (leaf_dof_offsets gts) 0
  end.

(** leaforderingbase.hh 97-141 mapIndex. *)
Definition leaf_map (blocked : bool) (s : lsizes) (en : ent) (path : list nat) : res (list nat) :=
  let (gt, e) := en in
  match path with
  | [i] =>
      match s with
      | FixedSizes gts =>
          let* o := at_ (leaf_gt_offsets blocked gts) gt in
          if blocked then Ok [o + e; i]
          else let* nd := at_ gts gt in Ok [i + (o + e * snd nd)]
      | EntitySizes gts =>
          let* eo := at_ (leaf_entity_offsets gts) gt in
          if blocked then Ok [eo + e; i]
          else let* o := at_ (leaf_dof_offsets gts) (eo + e) in Ok [i + o]
      end
  | _ => UB
  end.

(* ------------------------------------------------------------------ local orderings *)

(** localorderingbase.hh 441: _fixed_size after update: gridviewordering.hh 43-76 and 338-365. *)
Fixpoint lfixed (t : ltree) : bool :=
  match t with
  | LLeaf (FixedSizes _) => true
  | LLeaf (EntitySizes _) => false
  | LNode _ cs => forallb lfixed cs
  end.

(** _gt_used: gridviewordering.hh 95-101, 127-131, 257-263; leaflocalordering.hh 107. *)
Fixpoint lused (t : ltree) (gt : nat) : bool :=
  match t with
  | LLeaf (FixedSizes gts) => 0 <? snd (nth gt gts (0, 0))
  | LLeaf (EntitySizes gts) => match nth gt gts [] with [] => false | _ => true end
  | LNode _ cs => existsb (fun c => lused c gt) cs
  end.

(** gridviewordering.hh 240-246 for an inner node: _gt_entity_offsets. *)
Definition node_entity_offsets (ents : list nat) (used : nat -> bool) : list nat :=
  psums 0 (map (fun gt => if used gt then nth gt ents 0 else 0) (seq 0 (length ents))).

(** gridviewordering.hh 140-158 and 380-398: _gt_dof_offsets of an inner node with fixed size, one partially
    summed row of child sizes per geometry type.  [sz] are the size functions of the children. *)
Definition fixed_table (ngt : nat) (sz : list (nat -> nat -> nat)) : list nat :=
  concat (map (fun gt => tl (psums 0 (map (fun f => f gt 0) sz))) (seq 0 ngt)).

(** gridviewordering.hh 406-418: _entity_dof_offsets of an inner node with variable size, one partially summed
    row of child sizes per entity of a used geometry type. *)
Definition entity_table (ents : list nat) (used : nat -> bool) (sz : list (nat -> nat -> nat)) : list nat :=
  concat (map (fun gt =>
    if used gt then
      concat (map (fun e => tl (psums 0 (map (fun f => f gt e) sz))) (seq 0 (nth gt ents 0)))
    else []) (seq 0 (length ents))).

(** localorderingbase.hh 237-250: size(gt,e).  Out-of-range table reads give 0 (never happens for entities of
    the grid, see the proofs). *)
Fixpoint lsize (ents : list nat) (t : ltree) (gt e : nat) : nat :=
  match t with
  | LLeaf s => leaf_ent_size s gt e
  | LNode _ cs =>
      let sz := map (fun c => lsize ents c) cs in
      let cc := length cs in
      if forallb lfixed cs then nth (gt * cc + cc - 1) (fixed_table (length ents) sz) 0
      else
        let used := fun g => existsb (fun c => lused c g) cs in
        if used gt then nth ((nth gt (node_entity_offsets ents used) 0 + e) * cc + cc - 1) (entity_table ents used sz) 0
        else 0
  end.

(** localorderingbase.hh 92-105: the amount added to ci.back() for child [c] of a non-blocked inner node. *)
Definition local_offset (ents : list nat) (cs : list ltree) (gt e c : nat) : res nat :=
  let sz := map (fun c => lsize ents c) cs in
  let cc := length cs in
  if 0 <? c then
    if forallb lfixed cs then at_ (fixed_table (length ents) sz) (gt * cc + c - 1)
    else
      let used := fun g => existsb (fun c => lused c g) cs in
      if used gt then
        let* eo := at_ (node_entity_offsets ents used) gt in
        at_ (entity_table ents used sz) ((eo + e) * cc + c - 1)
      else UB
  else Ok 0.

(** localorderingbase.hh 73-107: map_local_index. *)
Fixpoint map_local (ents : list nat) (t : ltree) (en : ent) (path : list nat) : res (list nat) :=
  match t with
  | LLeaf _ => match path with [i] => Ok [i] | _ => UB end
  | LNode b cs =>
      match path with
      | [] => UB
      | c :: p =>
          let* r := at_ (map (fun t' => map_local ents t' en p) cs) c in
          let* ci := r in
          if b then Ok (c :: ci)
          else let* off := local_offset ents cs (fst en) (snd en) c in add_back off ci
      end
  end.

(** gridviewordering.hh 471-473 / localorderingbase.hh 417-420: blocking of the local root is switched off. *)
Definition disable_blocking (t : ltree) : ltree :=
  match t with LLeaf s => LLeaf s | LNode _ cs => LNode false cs end.

(** gridviewordering.hh 747-765: _gt_dof_offsets of the GridViewOrdering. *)
Definition gv_gt_offsets (blocked : bool) (ents : list nat) (t : ltree) : list nat :=
  psums 0 (map (fun gt => let s := lsize ents t gt 0 in
                          (if blocked then b2n (0 <? s) else s) * nth gt ents 0) (seq 0 (length ents))).

(** gridviewordering.hh 772-782. *)
Definition gv_entity_offsets (ents : list nat) (t : ltree) : list nat := node_entity_offsets ents (lused t).

(** The sizes of all entities of used geometry types, in the order of the loops in gridviewordering.hh 789-802. *)
Definition gv_entity_sizes (ents : list nat) (t : ltree) : list nat :=
  concat (map (fun gt => if lused t gt then map (fun e => lsize ents t gt e) (seq 0 (nth gt ents 0)) else [])
              (seq 0 (length ents))).

(** gridviewordering.hh 783-799: _entity_dof_offsets. *)
Definition gv_dof_offsets (blocked : bool) (ents : list nat) (t : ltree) : list nat :=
  psums 0 (map (fun s => if blocked then b2n (0 <? s) else s) (gv_entity_sizes ents t)).

(** gridviewordering.hh 744-807: _block_count (line 800: for variable sizes the number of non-empty entities,
    whether or not the container is blocked). *)
Definition gv_block_count (blocked : bool) (ents : list nat) (t : ltree) : nat :=
  if lfixed t then last (gv_gt_offsets blocked ents t) 0
  else sum_nat (map (fun s => b2n (0 <? s)) (gv_entity_sizes ents t)).

(** gridviewordering.hh 751-758, 797, 803: _size. *)
Definition gv_size (ents : list nat) (t : ltree) : nat :=
  if lfixed t then sum_nat (map (fun gt => lsize ents t gt 0 * nth gt ents 0) (seq 0 (length ents)))
  else sum_nat (gv_entity_sizes ents t).

(** gridviewordering.hh 574-602: mapIndex. *)
Definition gv_map (blocked : bool) (ents : list nat) (t0 : ltree) (en : ent) (path : list nat) : res (list nat) :=
  let t := disable_blocking t0 in
  let (gt, e) := en in
  let* ci := map_local ents t en path in
  if blocked then
    if lfixed t then let* o := at_ (gv_gt_offsets blocked ents t) gt in Ok (o + e :: ci)
    else let* eo := at_ (gv_entity_offsets ents t) gt in
         let* o := at_ (gv_dof_offsets blocked ents t) (eo + e) in Ok (o :: ci)
  else
    if lfixed t then let* o := at_ (gv_gt_offsets blocked ents t) gt in add_back (o + e * lsize ents t gt e) ci
    else let* eo := at_ (gv_entity_offsets ents t) gt in
         let* o := at_ (gv_dof_offsets blocked ents t) (eo + e) in add_back o ci.

(* ------------------------------------------------------------------ global orderings *)

(** orderingbase.hh 97-137 (and chunkedblockordering.hh 223): _block_count after update(). *)
Fixpoint blockCount (o : ord) : nat :=
  match o with
  | OLeaf b s => leaf_block_count b s
  | OGV b ents t => gv_block_count b ents (disable_blocking t)
  | OLex b cs => if b then length cs else last (psums 0 (map blockCount cs)) 0
  | OInter b m cs =>
      let total := last (psums 0 (map blockCount cs)) 0 in
      if b then total / last m 0 else total
  | OChunk bs o => blockCount o / bs
  | OPerm _ o => last (psums 0 [blockCount o]) 0
  end.

(** orderingbase.hh 97-137: _size after update(). *)
Fixpoint osize (o : ord) : nat :=
  match o with
  | OLeaf _ s => leaf_size s
  | OGV _ ents t => gv_size ents (disable_blocking t)
  | OLex _ cs | OInter _ _ cs => last (psums 0 (map osize cs)) 0
  | OChunk _ o | OPerm _ o => last (psums 0 [osize o]) 0
  end.

(** Update every element of a list of children. *)
Definition mapM {A B} (f : A -> res B) : list A -> res (list B) :=
  fix go l := match l with
              | [] => Ok []
              | a :: l' => let* b := f a in let* bs := go l' in Ok (b :: bs)
              end.

(** Construction and update() of the whole tree: interleavedordering.hh 48-59 (offsets must match the degree),
    orderingbase.hh 117-132 (blocked interleaving), chunkedblockordering.hh 210-224, permutedordering.hh 196-217
    (the permutation is overwritten by the identity).  A modulo by zero is UB. *)
Fixpoint update (o : ord) : res ord :=
  match o with
  | OLeaf b s => Ok (OLeaf b s)
  | OGV b ents t => Ok (OGV b ents t)
  | OLex b cs => let* cs' := mapM update cs in Ok (OLex b cs')
  | OInter b m cs =>
      if negb (length cs + 1 =? length m) then Throw else
      let* cs' := mapM update cs in
      if b then
        if last m 0 =? 0 then UB
        else if last (psums 0 (map blockCount cs')) 0 mod last m 0 =? 0 then Ok (OInter b m cs') else Throw
      else Ok (OInter b m cs')
  | OChunk bs o =>
      let* o' := update o in
      if bs =? 0 then UB else if blockCount o' mod bs =? 0 then Ok (OChunk bs o') else Throw
  | OPerm perm o =>
      let* o' := update o in
      if negb (length perm =? 0) && negb (length perm =? blockCount o') then Throw
      else Ok (OPerm (seq 0 (blockCount o')) o')
  end.

(** tags.hh 101-112: InterleavedOrderingTag turns block sizes into offsets. *)
Definition tag_offsets (sizes : list nat) : list nat := psums 0 sizes.

(** orderingbase.hh 232-262 (_mapIndex), lexicographic merge. *)
Definition lex_map (b : bool) (cs : list ord) (c : nat) (ci : list nat) : res (list nat) :=
  if b then Ok (c :: ci)
  else let* off := at_ (psums 0 (map blockCount cs)) c in add_back off ci.

(** orderingbase.hh 243-260 (_mapIndex), interleaved merge. *)
Definition inter_map (b : bool) (m : list nat) (c : nat) (ci : list nat) : res (list nat) :=
  let* cbo := at_ m c in
  let* cbn := at_ m (S c) in
  let cbs := cbn - cbo in
  match ci with
  | [] => UB
  | h :: t =>
      if cbs =? 0 then UB else
      let block_index := h / cbs in
      let offset := h mod cbs in
      let block_offset := cbo + offset in
      if b then Ok (block_index :: block_offset :: t)
      else Ok (block_index * last m 0 + block_offset :: t)
  end.

(** chunkedblockordering.hh 170-178. *)
Definition chunk_map (bs : nat) (ci : list nat) : res (list nat) :=
  match ci with
  | [] => UB
  | h :: t => if bs =? 0 then UB else Ok (h / bs :: h mod bs :: t)
  end.

(** permutedordering.hh 168-172. *)
Definition perm_map (perm : list nat) (ci : list nat) : res (list nat) :=
  match ci with
  | [] => UB
  | h :: t => let* x := at_ perm h in Ok (x :: t)
  end.

(** orderingbase.hh 51-59, 232-262: mapIndex of the whole tree. *)
Fixpoint mapIndex (o : ord) (en : ent) (path : list nat) : res (list nat) :=
  match o with
  | OLeaf b s => leaf_map b s en path
  | OGV b ents t => gv_map b ents t en path
  | OLex b cs =>
      match path with
      | [] => UB
      | c :: p => let* r := at_ (map (fun o' => mapIndex o' en p) cs) c in
                  let* ci := r in lex_map b cs c ci
      end
  | OInter b m cs =>
      match path with
      | [] => UB
      | c :: p => let* r := at_ (map (fun o' => mapIndex o' en p) cs) c in
                  let* ci := r in inter_map b m c ci
      end
  | OChunk bs o => let* ci := mapIndex o en path in chunk_map bs ci
  | OPerm perm o => let* ci := mapIndex o en path in perm_map perm ci
  end.

(* ------------------------------------------------------------------ size(suffix) *)

(** std::prev(std::upper_bound(l.begin(), l.end(), x)) as a position: the last position whose entry is <= x in
    a sorted list.  UB when there is none (decrementing begin()).  upper_bound is modelled as the first entry
    greater than [x], which is its value on sorted ranges. *)
Fixpoint ub_pos (l : list nat) (x : nat) : nat :=
  match l with [] => 0 | h :: t => if x <? h then 0 else S (ub_pos t x) end.
Definition prev_ub (l : list nat) (x : nat) : res nat :=
  match ub_pos l x with 0 => UB | S k => Ok k end.

(** localorderingbase.hh 287-337 (node_size) restricted to what a suffix that still has entries can ask of a
    local ordering: a leaf answers 0; an inner node searches its whole offset table (lines 311-318). *)
Fixpoint lsize_suffix (ents : list nat) (t : ltree) (suffix : list nat) (gt e : nat) : res nat :=
  match suffix with
  | [] => Ok (lsize ents t gt e)
  | x :: rest =>
      match t with
      | LLeaf _ => Ok 0
      | LNode b cs =>
          let cc := length cs in
          let sz := map (fun c => lsize ents c) cs in
          if b then
            let* f := at_ (map (fun c => lsize_suffix ents c rest gt e) cs) x in f
          else
            let* child :=
              if forallb lfixed cs then
                let* d := prev_ub (fixed_table (length ents) sz) x in
                if d + 1 <? gt * cc then UB else Ok (d + 1 - gt * cc)
              else
                let used := fun g => existsb (fun c => lused c g) cs in
                let* d := prev_ub (entity_table ents used sz) x in
                let* eo := at_ (node_entity_offsets ents used) gt in
                if d + 1 <? (eo + e) * cc then UB else Ok (d + 1 - (eo + e) * cc) in
            let* f := at_ (map (fun c => lsize_suffix ents c suffix gt e) cs) child in f
      end
  end.

(** leafgridviewordering.hh 65-117 followed by directleaflocalordering.hh 91-99. *)
Definition leaf_size_suffix (b : bool) (s : lsizes) (x : nat) (rest : list nat) : res nat :=
  if b then
    match rest with
    | _ :: _ => Ok 0
    | [] =>
        match s with
        | FixedSizes gts => let* gt := prev_ub (leaf_gt_offsets b gts) x in
                            if length gts <=? gt then UB else Ok (leaf_ent_size s gt 0)
        | EntitySizes gts => let* gt := prev_ub (leaf_entity_offsets gts) x in
                             let* o := at_ (leaf_entity_offsets gts) gt in
                             if length gts <=? gt then UB else
                             Ok (leaf_ent_size s gt (x - o))
        end
    end
  else Ok 0.

(** gridviewordering.hh 514-550. *)
Definition gv_size_suffix (b : bool) (ents : list nat) (t0 : ltree) (x : nat) (rest : list nat) : res nat :=
  let t := disable_blocking t0 in
  let suffix := if b then rest else x :: rest in
  if lfixed t then
    let* gt := prev_ub (gv_gt_offsets b ents t) x in
    if length ents <=? gt then UB else lsize_suffix ents t suffix gt 0
  else
    let* d := prev_ub (gv_dof_offsets b ents t) x in
    let* gt := prev_ub (gv_entity_offsets ents t) d in
    let* eo := at_ (gv_entity_offsets ents t) gt in
    if length ents <=? gt then UB else lsize_suffix ents t suffix gt (d - eo).

(** size(suffix) of the whole tree; [md] is ContainerIndex::max_depth.
    lexicographicordering.hh 155-172, 276-301 (the offset VALUE is used as the child number when not blocked; a
    Composite that finds no such child returns the largest size_type, modelled as UB),
    interleavedordering.hh 138-193, chunkedblockordering.hh 228-241, permutedordering.hh 160-166. *)
Fixpoint size_suffix (md : nat) (o : ord) (suffix : list nat) : res nat :=
  match o with
  | OLeaf b s =>
      if length suffix =? md then Ok 0 else
      match suffix with [] => Ok (leaf_block_count b s) | x :: rest => leaf_size_suffix b s x rest end
  | OGV b ents t =>
      if length suffix =? md then Ok 0 else
      match suffix with [] => Ok (gv_block_count b ents (disable_blocking t)) | x :: rest => gv_size_suffix b ents t x rest end
  | OLex b cs =>
      if length suffix =? md then Ok 0 else
      match suffix with
      | [] => Ok (blockCount (OLex b cs))
      | x :: rest =>
          if b then let* r := at_ (map (fun o' => size_suffix md o' rest) cs) x in r
          else
            let offs := psums 0 (map blockCount cs) in
            let* k := prev_ub offs x in
            let* child := at_ offs k in
            let* r := at_ (map (fun o' => size_suffix md o' suffix) cs) child in r
      end
  | OInter b m cs =>
      match suffix with
      | [] => Ok (blockCount (OInter b m cs))
      | x :: rest =>
          let block_size := last m 0 in
          let go block_index block_offset rest' :=
            let* child := prev_ub m block_offset in
            let* cbo := at_ m child in
            let* cbn := at_ m (S child) in
            let idx := (cbn - cbo) * block_index + block_offset in
            let* r := at_ (map (fun o' => size_suffix md o' (idx :: rest')) cs) child in r in
          if b then
            match rest with
            | [] => Ok block_size
            | y :: rest' => go x y rest'
            end
          else if block_size =? 0 then UB else go (x / block_size) (x mod block_size) rest
      end
  | OChunk bs o =>
      match suffix with
      | [] => Ok (blockCount (OChunk bs o))
      | [_] => Ok bs
      | x :: y :: rest => size_suffix md o (bs * x + y :: rest)
      end
  | OPerm perm o =>
      match suffix with
      | [] => size_suffix md o []
      | x :: rest => let* x' := at_ perm x in size_suffix md o (x' :: rest)
      end
  end.

(* ------------------------------------------------------------------ batched mapping *)

(** lexicographicordering.hh 60-72: map_lfs_indices for one DOF with child index [c]. *)
Definition lex_lfs (b : bool) (cs : list ord) (c : nat) (ci : list nat) : res (list nat) :=
  if b then Ok (c :: ci)
  else let* off := at_ (psums 0 (map blockCount cs)) c in add_back off ci.

(** interleavedordering.hh 62-95: map_lfs_indices. *)
Definition inter_lfs (b : bool) (m : list nat) (c : nat) (ci : list nat) : res (list nat) :=
  let* cbo := at_ m c in
  let* cbn := at_ m (S c) in
  let cbs := cbn - cbo in
  match ci with
  | [] => UB
  | index :: t =>
      if cbs =? 0 then UB else
      let block_index := index / cbs in
      let offset := index mod cbs in
      let block_offset := cbo + offset in
      if b then Ok (block_index :: block_offset :: t)
      else Ok (block_index * last m 0 + block_offset :: t)
  end.

(** leaforderingbase.hh 145-203: map_lfs_indices for one DOF of entity [en] with leaf tree index [i]. *)
Definition leaf_lfs (blocked : bool) (s : lsizes) (en : ent) (i : nat) : res (list nat) :=
  let (gt, e) := en in
  match s with
  | FixedSizes gts =>
      if blocked then let* o := at_ (leaf_gt_offsets blocked gts) gt in Ok [o + e; i]
      else let* o := at_ (leaf_gt_offsets blocked gts) gt in
           let* nd := at_ gts gt in add_back (o + e * snd nd) [i]
  | EntitySizes gts =>
      if blocked then let* eo := at_ (leaf_entity_offsets gts) gt in Ok [eo + e; i]
      else let* eo := at_ (leaf_entity_offsets gts) gt in
           let* o := at_ (leaf_dof_offsets gts) (eo + e) in add_back o [i]
  end.

(** localorderingbase.hh 122-169: map_lfs_indices of an inner local node for one DOF with child index [c]. *)
Definition lnode_lfs (ents : list nat) (b : bool) (cs : list ltree) (en : ent) (c : nat) (ci : list nat)
  : res (list nat) :=
  if b then Ok (c :: ci)
  else
    let sz := map (fun c => lsize ents c) cs in
    let cc := length cs in
    if 0 <? c then
      if forallb lfixed cs then
        let* off := at_ (fixed_table (length ents) sz) (fst en * cc + c - 1) in add_back off ci
      else
        let used := fun g => existsb (fun c => lused c g) cs in
        if used (fst en) then
          let* eo := at_ (node_entity_offsets ents used) (fst en) in
          let* off := at_ (entity_table ents used sz) ((eo + snd en) * cc + c - 1) in add_back off ci
        else UB
    else Ok ci.

(** gridviewordering.hh 604-643: map_lfs_indices for one DOF. *)
Definition gv_lfs (blocked : bool) (ents : list nat) (t : ltree) (en : ent) (ci : list nat) : res (list nat) :=
  let (gt, e) := en in
  if blocked then
    if lfixed t then let* o := at_ (gv_gt_offsets blocked ents t) gt in Ok (o + e :: ci)
    else let* eo := at_ (gv_entity_offsets ents t) gt in
         let* o := at_ (gv_dof_offsets blocked ents t) (eo + e) in Ok (o :: ci)
  else if lfixed t then
    let* o := at_ (gv_gt_offsets blocked ents t) gt in add_back (o + e * lsize ents t gt e) ci
  else
    let* eo := at_ (gv_entity_offsets ents t) gt in
    let* o := at_ (gv_dof_offsets blocked ents t) (eo + e) in add_back o ci.

(** A DOF index: entity and tree index (root first). *)
Definition dof := (ent * list nat)%type.

(** treeIndex().back() of the view of a DOF index cut by [tail] (lfsindexcache.hh 113-116). *)
Definition view_back (tail : nat) (d : dof) : res nat := at_ (snd d) tail.

(** Apply a per-DOF operation to a segment of DOFs and their container indices. *)
Fixpoint zipM (f : dof -> list nat -> res (list nat)) (ds : list dof) (cis : list (list nat)) : res (list (list nat)) :=
  match ds, cis with
  | d :: ds', ci :: cis' => let* x := f d ci in let* xs := zipM f ds' cis' in Ok (x :: xs)
  | _, _ => Ok []
  end.

(** Running state of the visitor of lfsindexcache.hh 178-239: leaf sizes and DOF indices not yet consumed, and the
    container indices produced for the current node. *)
Definition bstate := (list nat * list dof * list (list nat))%type.

(** leaf(): lfsindexcache.hh 183-195; takes *leaf_size_pos++ DOFs. *)
Definition take_leaf (ls : list nat) (ds : list dof) : res (list dof * list nat * list dof) :=
  match ls with
  | [] => UB
  | n :: ls' => if length ds <? n then UB else Ok (firstn n ds, ls', skipn n ds)
  end.

(** Visit the children one after another (TypeTree::applyToTree), concatenating what they produce. *)
Definition visit_all {T} (visit : T -> list nat -> list dof -> res bstate) :
  list T -> list nat -> list dof -> res bstate :=
  fix go cs ls ds :=
    match cs with
    | [] => Ok (ls, ds, [])
    | c :: cs' =>
        let* r := visit c ls ds in
        let '(ls1, ds1, out1) := r in
        let* r2 := go cs' ls1 ds1 in
        let '(ls2, ds2, out2) := r2 in
        Ok (ls2, ds2, out1 ++ out2)
    end.

(** The DOFs consumed between two visitor states. *)
Definition consumed (before after : list dof) : list dof := firstn (length before - length after) before.

(** post() on an inner local node: restore_back() then map_lfs_indices on the node's range. *)
Fixpoint lbatch (ents : list nat) (tail : nat) (t : ltree) (ls : list nat) (ds : list dof) : res bstate :=
  match t with
  | LLeaf _ =>
      let* r := take_leaf ls ds in
      let '(mine, ls', ds') := r in
      let* out := zipM (fun d ci => let* i := view_back tail d in
                                    if length (snd d) =? S tail then Ok (i :: ci) else UB) mine (map (fun _ => []) mine) in
      Ok (ls', ds', out)
  | LNode b cs =>
      let* r := visit_all (lbatch ents (S tail)) cs ls ds in
      let '(ls', ds', out) := r in
      let* out' := zipM (fun d ci => let* c := view_back tail d in lnode_lfs ents b cs (fst d) c ci)
                        (consumed ds ds') out in
      Ok (ls', ds', out')
  end.

(** The whole visitor.  [tail] counts the tree levels already cut off the DOF index views. *)
Fixpoint batch (tail : nat) (o : ord) (ls : list nat) (ds : list dof) : res bstate :=
  match o with
  | OLeaf b s =>
      let* r := take_leaf ls ds in
      let '(mine, ls', ds') := r in
      let* out := zipM (fun d _ => let* i := view_back tail d in
                                   if length (snd d) =? S tail then leaf_lfs b s (fst d) i else UB)
                       mine (map (fun _ => []) mine) in
      Ok (ls', ds', out)
  | OGV b ents t0 =>
      let t := disable_blocking t0 in
      let* r := lbatch ents tail t ls ds in
      let '(ls', ds', out) := r in
      let* out' := zipM (fun d ci => gv_lfs b ents t (fst d) ci) (consumed ds ds') out in
      Ok (ls', ds', out')
  | OLex b cs =>
      let* r := visit_all (batch (S tail)) cs ls ds in
      let '(ls', ds', out) := r in
      let* out' := zipM (fun d ci => let* c := view_back tail d in lex_lfs b cs c ci) (consumed ds ds') out in
      Ok (ls', ds', out')
  | OInter b m cs =>
      let* r := visit_all (batch (S tail)) cs ls ds in
      let '(ls', ds', out) := r in
      let* out' := zipM (fun d ci => let* c := view_back tail d in inter_lfs b m c ci) (consumed ds ds') out in
      Ok (ls', ds', out')
  | OChunk bs o' =>
      let* r := batch tail o' ls ds in
      let '(ls', ds', out) := r in
      (* chunkedblockordering.hh 181-191 *)
      let* out' := zipM (fun _ ci => match ci with
                                     | [] => UB
                                     | h :: t => if bs =? 0 then UB else Ok (h / bs :: h mod bs :: t)
                                     end) (consumed ds ds') out in
      Ok (ls', ds', out')
  | OPerm perm o' =>
      let* r := batch tail o' ls ds in
      let '(ls', ds', out) := r in
      (* permutedordering.hh 174-181 *)
      let* out' := zipM (fun _ ci => match ci with
                                     | [] => UB
                                     | h :: t => let* x := at_ perm h in Ok (x :: t)
                                     end) (consumed ds ds') out in
      Ok (ls', ds', out')
  end.

(** lfsindexcache.hh 319-340: update() of an index cache on the whole space. *)
Definition batch_map (o : ord) (leaf_sizes : list nat) (ds : list dof) : res (list (list nat)) :=
  let* r := batch 0 o leaf_sizes ds in
  let '(_, _, out) := r in Ok out.

(* ------------------------------------------------------------------ extraction per entity *)

Fixpoint mapM2 {A B} (f : A -> res B) (l : list A) : res (list B) :=
  match l with
  | [] => Ok []
  | a :: l' => let* b := f a in let* bs := mapM2 f l' in Ok (b :: bs)
  end.

(** datahandleprovider.hh afterChild 116-134: apply the node's extract operation to the container indices of
    child [c] and, if the node consumes a tree index, push the child index. *)
Definition after_child (f : list nat -> res (list nat)) (c : option nat) (l : list (list nat * list nat))
  : res (list (list nat * list nat)) :=
  mapM2 (fun x : list nat * list nat =>
           let* ci := f (snd x) in
           Ok (match c with Some c => c :: fst x | None => fst x end, ci)) l.

(** leaforderingbase.hh 205-262: container indices; directleaflocalordering.hh 64-80: tree indices. *)
Definition leaf_extract (blocked : bool) (s : lsizes) (en : ent) : res (list (list nat * list nat)) :=
  let (gt, e) := en in
  match s with
  | FixedSizes gts =>
      let* nd := at_ gts gt in
      if negb (0 <? snd nd) then Ok [] else
      let* o := at_ (leaf_gt_offsets blocked gts) gt in
      Ok (map (fun i => ([i], if blocked then [o + e; i] else [i + (o + e * snd nd)])) (seq 0 (snd nd)))
  | EntitySizes gts =>
      let* es := at_ gts gt in
      match es with
      | [] => Ok []
      | _ =>
        let* eo := at_ (leaf_entity_offsets gts) gt in
        let index := eo + e in
        let* hi := at_ (leaf_dof_offsets gts) (S index) in
        let* lo := at_ (leaf_dof_offsets gts) index in
        Ok (map (fun i => ([i], if blocked then [index; i] else [i + lo])) (seq 0 (hi - lo)))
      end
  end.

(** Concatenate the contributions of the children, numbered from [k]. *)
Definition extract_children {T} (f : nat -> T -> res (list (list nat * list nat))) :
  nat -> list T -> res (list (list nat * list nat)) :=
  fix go k cs :=
    match cs with
    | [] => Ok []
    | c :: cs' => let* a := f k c in let* b := go (S k) cs' in Ok (a ++ b)
    end.

(** localorderingbase.hh 171-227. *)
Fixpoint local_extract (ents : list nat) (t : ltree) (en : ent) : res (list (list nat * list nat)) :=
  match t with
  | LLeaf s =>
      if negb (lused t (fst en)) then Ok []
      else Ok (map (fun i => ([i], [i])) (seq 0 (leaf_ent_size s (fst en) (snd en))))
  | LNode b cs =>
      extract_children
        (fun k c =>
           let* l := local_extract ents c en in
           after_child (fun ci =>
             if negb (lused t (fst en)) then Ok ci
             else if b then Ok (k :: ci)
             else let* off := local_offset ents cs (fst en) (snd en) k in add_back off ci) (Some k) l) 0 cs
  end.

(** interleavedordering.hh 99-134. *)
Definition inter_extract (b : bool) (m : list nat) (c : nat) (ci : list nat) : res (list nat) :=
  let* cbo := at_ m c in
  let* cbn := at_ m (S c) in
  let cbs := cbn - cbo in
  match ci with
  | [] => UB
  | index :: t =>
      if cbs =? 0 then UB else
      let block_index := index / cbs in
      let offset := index mod cbs in
      if b then Ok (block_index :: cbo + offset :: t)
      else Ok (block_index * last m 0 + cbo + offset :: t)
  end.

(** The whole visitor of datahandleprovider.hh 78-170: tree indices and container indices of the DOFs on [en]. *)
Fixpoint extract (o : ord) (en : ent) : res (list (list nat * list nat)) :=
  match o with
  | OLeaf b s => leaf_extract b s en
  | OGV b ents t0 =>
      let t := disable_blocking t0 in
      let* l := local_extract ents t en in
      (* gridviewordering.hh 645-686 *)
      after_child (fun ci =>
        if b then
          if lfixed t then let* o := at_ (gv_gt_offsets b ents t) (fst en) in Ok (o + snd en :: ci)
          else let* eo := at_ (gv_entity_offsets ents t) (fst en) in
               let* o := at_ (gv_dof_offsets b ents t) (eo + snd en) in Ok (o :: ci)
        else if lfixed t then
          let* o := at_ (gv_gt_offsets b ents t) (fst en) in
          add_back (o + snd en * lsize ents t (fst en) (snd en)) ci
        else
          let* eo := at_ (gv_entity_offsets ents t) (fst en) in
          let* o := at_ (gv_dof_offsets b ents t) (eo + snd en) in add_back o ci) None l
  | OLex b cs =>
      extract_children (fun k c =>
        let* l := extract c en in
        (* lexicographicordering.hh 76-97 *)
        after_child (fun ci => if b then Ok (k :: ci)
                               else let* off := at_ (psums 0 (map blockCount cs)) k in add_back off ci) (Some k) l) 0 cs
  | OInter b m cs =>
      extract_children (fun k c =>
        let* l := extract c en in after_child (inter_extract b m k) (Some k) l) 0 cs
  | OChunk bs o' =>
      let* l := extract o' en in
      (* chunkedblockordering.hh 193-208 *)
      after_child (fun ci => match ci with
                             | [] => UB
                             | h :: t => if bs =? 0 then UB else Ok (h / bs :: h mod bs :: t)
                             end) None l
  | OPerm perm o' =>
      let* l := extract o' en in
      (* permutedordering.hh 183-194 *)
      after_child (fun ci => match ci with
                             | [] => UB
                             | h :: t => let* x := at_ perm h in Ok (x :: t)
                             end) None l
  end.
