(** Model of the exchange of matrix entries and patterns between the border DOFs of nonoverlapping decompositions.

    Modelled code:
    - dune/pdelab/common/borderindexidcache.hh 80-147 (constructor, update, isBorderEntity, id, index, findIndex),
      157-182 (create_for_codim)
    - dune/pdelab/gridoperator/common/borderdofexchanger.hh 162-195 (addEntries), 198-215 (size), 217-235
      (gather_pattern), 237-262 (gather_data), 330-362 (PatternExtender), 425-462 (EntryAccumulator), 495-508
      (accumulateBorderEntries)
    - dune/pdelab/gridoperator/default/patternengine.hh 130-138, 268-282 (recording and extending the pattern)
    - dune/pdelab/gridoperator/gridoperator.hh 216-219 (make_consistent)

    The distributed grid and its messages are those of ParModel; entities have global ids (the numbers of ParModel) and
    an index on every rank.

    Simplifications: one range of indices for all geometry types; the tree index of a DOF is its number on the entity;
    hash tables are association lists in which a key occurs once, sets are lists without repetition; all entities with
    DOFs belong to the entity set. *)
From Coq Require Import Reals.
From Verif Require Import Common ParModel.

(** ** BorderIndexIdCache *)

Inductive partition_type := Interior | Border | Elsewhere.
Record entity := Entity { eid : nat; eindex : nat; epart : partition_type }.

Definition is_border (e : entity) : bool := match epart e with Border => true | _ => false end.
Definition is_interior_border (e : entity) : bool := match epart e with Elsewhere => false | _ => true end.

Record cache := Cache {
  border_entities : list bool;          (** _border_entities, by index *)
  index_to_id : list (nat * nat);       (** _index_to_id *)
  id_to_index : list (nat * nat)        (** _id_to_index *)
}.
Definition empty_cache : cache := Cache [] [] [].

Fixpoint lookup (k : nat) (l : list (nat * nat)) : option nat :=
  match l with
  | [] => None
  | (k', v) :: t => if k =? k' then Some v else lookup k t
  end.
Definition assign (k v : nat) (l : list (nat * nat)) : list (nat * nat) :=
  (k, v) :: filter (fun p => negb (fst p =? k)) l.

(** std::vector<bool>::resize *)
Definition resize (n : nat) (l : list bool) : list bool := firstn n l ++ repeat false (n - length l).

(** borderindexidcache.hh 168-180 *)
Definition cache_entity (c : cache) (e : entity) : cache :=
  let border_entity := is_border e in
  let flags := upd (eindex e) border_entity (border_entities c) in
  if negb border_entity then Cache flags (index_to_id c) (id_to_index c)
  else Cache flags (assign (eindex e) (eid e) (index_to_id c)) (assign (eid e) (eindex e) (id_to_index c)).

(** borderindexidcache.hh 88-110: [n] is the number of entities of positive codimension with DOFs, [entities] the list
    of them.  _index_to_id is cleared, _id_to_index is not, and the flags are only resized. *)
Definition cache_update (n : nat) (entities : list entity) (c : cache) : cache :=
  fold_left cache_entity (filter is_interior_border entities)
    (Cache (resize n (border_entities c)) [] (id_to_index c)).

(** borderindexidcache.hh 112-147 *)
Definition is_border_entity (c : cache) (i : nat) : bool := nth i (border_entities c) false.
Definition get_id (c : cache) (i : nat) : res nat := match lookup i (index_to_id c) with Some id => Ok id | None => Throw end.
Definition get_index (c : cache) (id : nat) : res nat := match lookup id (id_to_index c) with Some i => Ok i | None => Throw end.
Definition find_index (c : cache) (id : nat) : option nat := lookup id (id_to_index c).

(** ** CommunicationCache *)

(** A DOF index of one rank: entity index and tree index.  A global DOF index: entity id and tree index (a [dof]). *)
Definition ldof := (nat * nat)%type.
Definition pair_eqb (a b : nat * nat) : bool := (fst a =? fst b) && (snd a =? snd b).
Definition entry_eqb (a b : ldof * dof) : bool := pair_eqb (fst a) (fst b) && pair_eqb (snd a) (snd b).
Definition border_pattern := list (ldof * dof).

(** unordered_set::insert *)
Definition insert_entry (x : ldof * dof) (l : border_pattern) : border_pattern :=
  if existsb (entry_eqb x) l then l else x :: l.

(** borderdofexchanger.hh 162-195: the links of all local patterns of the rank; [consV], [consU]: is the DOF
    constrained? *)
Definition add_entries (c : cache) (consV consU : ldof -> bool) (links : list (ldof * ldof)) (p : border_pattern)
  : res border_pattern :=
  foldM (fun p '(di, dj) =>
    if consV di || consU dj then Ok p else
    if negb (is_border_entity c (fst di)) || negb (is_border_entity c (fst dj)) then Ok p else
    let* id := get_id c (fst dj) in
    Ok (insert_entry (di, (id, snd dj)) p)) links p.

(** _border_pattern.find(di): the columns of a row. *)
Definition columns (p : border_pattern) (di : ldof) : list dof :=
  map snd (filter (fun x => pair_eqb (fst x) di) p).

(** ** Matrices *)

(** The entries of the pattern, by container indices, and the values. *)
Record matrix := Matrix { pattern : list (nat * nat); value : nat -> nat -> R }.

(** matrix(i,j): an entry that is not in the pattern must not be accessed. *)
Definition entry (m : matrix) (i j : nat) : res R :=
  if existsb (pair_eqb (i, j)) (pattern m) then Ok (value m i j) else UB.
Definition add_to_entry (m : matrix) (i j : nat) (v : R) : res matrix :=
  if existsb (pair_eqb (i, j)) (pattern m)
  then Ok (Matrix (pattern m) (fun i' j' => if pair_eqb (i, j) (i', j') then (value m i' j' + v)%R else value m i' j'))
  else UB.
(** SparsityPattern::add_link *)
Definition add_link (i j : nat) (p : list (nat * nat)) : list (nat * nat) :=
  if existsb (pair_eqb (i, j)) p then p else (i, j) :: p.

(** ** Communication with one state per rank *)

Definition upd_rank {S} (st : nat -> S) (q : nat) (x : S) : nat -> S := fun q' => if q' =? q then x else st q'.

(** As ParModel.communicate, but gather() and scatter() see the whole state of the rank. *)
Definition exchange {S B} (gather : nat -> nat -> S -> res B) (scatter : nat -> nat -> S -> B -> res S)
  (order : list (nat * nat * nat)) (st : nat -> S) : res (nat -> S) :=
  foldM (fun st' '(s, q, e) =>
    let* b := gather s e (st s) in
    let* x := scatter q e (st' q) b in
    Ok (upd_rank st' q x)) order st.

Section exchanger.
  Variable W : world.
  Variable cell : nat -> bool.                  (** codimension 0 *)
  Variable border : nat -> nat -> bool.         (** rank, entity: partitionType() is BorderEntity *)
  Variable lindex : nat -> nat -> nat.          (** rank, entity: index *)
  Variable nindices : nat -> nat.               (** number of indices of a rank *)

  Definition part_type (q e : nat) : partition_type :=
    if border q e then Border else if ib W q e then Interior else Elsewhere.
  Definition entities (q : nat) : list entity :=
    map (fun e => Entity e (lindex q e) (part_type q e)) (filter (fun e => negb (cell e)) (held W q)).

  (** borderdofexchanger.hh 118-121, 134-139: a fresh cache is made on construction and on update. *)
  Definition rank_cache (q : nat) : cache := cache_update (nindices q) (entities q) empty_cache.

  (** The DOF of an entity on a rank. *)
  Definition local (q : nat) (d : dof) : ldof := (lindex q (fst d), snd d).

  Variable rec : nat -> border_pattern.         (** _border_pattern of every rank *)

  (** borderdofexchanger.hh 198-215: the size announced for an entity. *)
  Definition message_size (q e : nat) : nat :=
    if cell e then 0 else
    fold_left (fun n k => n + length (columns (rec q) (lindex q e, k))) (seq 0 (ndofs W e)) 0.

  (** borderdofexchanger.hh 217-235 *)
  Definition gather_pattern (q e : nat) : list (nat * dof) :=
    if cell e then [] else
    flat_map (fun k => map (fun col => (k, col)) (columns (rec q) (lindex q e, k))) (seq 0 (ndofs W e)).

  (** borderdofexchanger.hh 330-362; [map_row], [map_col] are mapIndex of the orderings of the two spaces. *)
  Definition scatter_pattern (map_row map_col : nat -> ldof -> nat) (q e : nat) (p : list (nat * nat)) (data : list (nat * dof))
    : list (nat * nat) :=
    if cell e then p else
    fold_left (fun p '(k, col) =>
      match find_index (rank_cache q) (fst col) with
      | None => p
      | Some i => add_link (map_row q (lindex q e, k)) (map_col q (i, snd col)) p
      end) data p.

  (** borderdofexchanger.hh 237-262 *)
  Definition gather_data (map_row map_col : nat -> ldof -> nat) (q e : nat) (m : matrix) : res (list (nat * dof * R)) :=
    if cell e then Ok [] else
    foldM (fun buf k =>
      foldM (fun buf col =>
        let* i := get_index (rank_cache q) (fst col) in
        let* v := entry m (map_row q (lindex q e, k)) (map_col q (i, snd col)) in
        Ok (buf ++ [(k, col, v)])) (columns (rec q) (lindex q e, k)) buf) (seq 0 (ndofs W e)) [].

  (** borderdofexchanger.hh 425-462 *)
  Definition scatter_data (map_row map_col : nat -> ldof -> nat) (q e : nat) (m : matrix) (data : list (nat * dof * R)) : res matrix :=
    if cell e then Ok m else
    foldM (fun m '(k, col, v) =>
      match find_index (rank_cache q) (fst col) with
      | None => Ok m
      | Some i => add_to_entry m (map_row q (lindex q e, k)) (map_col q (i, snd col)) v
      end) data m.

  (** The orderings of test and trial space: container index of a DOF. *)
  Variables mapV mapU : nat -> ldof -> nat.

  (** patternengine.hh 268-282: the pattern of every rank is extended. *)
  Definition extend_pattern (order : list (nat * nat * nat)) (p : nat -> list (nat * nat)) : res (nat -> list (nat * nat)) :=
    exchange (fun q e _ => Ok (gather_pattern q e)) (fun q e p d => Ok (scatter_pattern mapV mapU q e p d)) order p.

  (** borderdofexchanger.hh 495-508 and 466-474.  The accumulator is constructed with (test space, trial space), its
      parameters are (gfsu, gfsv): its _gfsu is the test space and its _gfsv the trial space.  Gathering uses the
      spaces of the cache. *)
  Definition accumulate (order : list (nat * nat * nat)) (m : nat -> matrix) : res (nat -> matrix) :=
    if 1 <? nranks W
    then let handle_gfsu := mapV in let handle_gfsv := mapU in
         exchange (gather_data mapV mapU) (scatter_data handle_gfsv handle_gfsu) order m
    else Ok m.
End exchanger.

(** patternengine.hh 130-138: recording on every rank; the test constraints apply to rows, the trial constraints to
    columns. *)
Definition record (W : world) cell border lindex nindices (consV consU : nat -> ldof -> bool)
  (links : nat -> list (ldof * ldof)) (q : nat) : res border_pattern :=
  add_entries (rank_cache W cell border lindex nindices q) (consV q) (consU q) (links q) [].
