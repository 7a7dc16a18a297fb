(** Model of the parallel exchange of DOF data: data handles and the parallel helper of the ISTL backend.

    Modelled code:
    - dune/pdelab/gridfunctionspace/genericdatahandle.hh 310-352 (DataGatherScatter with identical layouts),
      645-800 (Add, Copy, Min and Max handles), 811-840 (ghost flags), 902-961 (disjoint partitioning),
      1024-1050 (shared DOFs), 1140-1155 (neighbour ranks)
    - dune/pdelab/backend/istl/parallelhelper.hh 66-121 (constructor), 124-157 (maskForeignDOFs), 162-172 (owned,
      isGhost), 174-245 (disjointDot), 307-420 (createIndexSetAndProjectForAMG)

    A distributed grid is a number of ranks, the entities each rank stores, and which of those are interior or border
    there.  Ranks and entities are natural numbers; an entity has the same number on every rank that stores it.

    Simplifications: one number of DOFs per entity, the same on every rank that stores it (different layouts: WireModel);
    only entities of the entity set of the function space are stored, so the branches for other partitions of
    DataGatherScatter do not occur (they are in WireModel); real numbers instead of floating point numbers. *)
From Coq Require Import Reals.
From Verif Require Import Common.

Record world := World {
  nranks : nat;                  (** comm().size() *)
  held : nat -> list nat;        (** the entities stored on a rank *)
  ib : nat -> nat -> bool;       (** rank, entity: partitionType() is InteriorEntity or BorderEntity *)
  ndofs : nat -> nat             (** number of DOFs attached to an entity *)
}.

Definition stores (W : world) (q e : nat) : bool := existsb (Nat.eqb e) (held W q).

(** Distributed vector: rank, entity, values of the DOFs of the entity on that rank. *)
Definition dvec (A : Type) := nat -> nat -> list A.

(** ** GridView::communicate *)

(** The messages of one communication, as (sender, receiver, entity).  The grid is not part of PDELab; this is what its
    interface promises: for an entity stored on two different ranks, a message from a rank where its partition type is
    in the sending set to a rank where its type is in the receiving set. *)
Definition messages (W : world) (snd rcv : nat -> nat -> bool) : list (nat * nat * nat) :=
  flat_map (fun q =>
    flat_map (fun e =>
      map (fun s => (s, q, e))
        (filter (fun s => negb (s =? q) && stores W s e && snd s e && rcv q e) (seq 0 (nranks W))))
      (held W q))
    (seq 0 (nranks W)).

(** The interface types used in parallelhelper.hh 76-90. *)
Definition everywhere (q e : nat) : bool := true.
Definition interior_border_all (W : world) := messages W (ib W) everywhere.
Definition all_all (W : world) := messages W everywhere everywhere.
Definition interior_border_interior_border (W : world) := messages W (ib W) (ib W).

Definition upd2 {A} (st : dvec A) (q e : nat) (v : list A) : dvec A :=
  fun q' e' => if (q' =? q) && (e' =? e) then v else st q' e'.

(** One call of scatter() on the receiver, with what gather() wrote on the sender. *)
Definition deliver {A B} (scatter : nat -> nat -> list A -> B -> res (list A)) (sent : nat -> nat -> B)
  (st : dvec A) (m : nat * nat * nat) : res (dvec A) :=
  let '(s, q, e) := m in
  let* v := scatter q e (st q e) (sent s e) in
  Ok (upd2 st q e v).

(** gridView().communicate(handle, interface, ForwardCommunication): every rank calls gather() for all its messages
    before its first scatter(), and the messages arrive in the order [order].
    [gather s e v]: what gather() writes on rank s for entity e with local values v. *)
Definition communicate {A B} (gather : nat -> nat -> list A -> B) (scatter : nat -> nat -> list A -> B -> res (list A))
  (order : list (nat * nat * nat)) (st : dvec A) : res (dvec A) :=
  foldM (deliver scatter (fun s e => gather s e (st s e))) order st.

(** ** Data handles *)

Fixpoint zip {A B C} (f : A -> B -> C) (l : list A) (l' : list B) : list C :=
  match l, l' with
  | a :: t, b :: t' => f a b :: zip f t t'
  | _, _ => []
  end.

(** genericdatahandle.hh 319-325: all values of the entity are written. *)
Definition gather_dofs {A} (s e : nat) (v : list A) : list A := v.

(** genericdatahandle.hh 328-340: the sizes must agree; every value is combined with the received one. *)
Definition scatter_dofs {A} (op : A -> A -> A) (q e : nat) (v : list A) (received : list A) : res (list A) :=
  if negb (length v =? length received) then Throw else Ok (zip op v received).

(** genericdatahandle.hh 646-800: what scatter() of the functors makes of the present value and the received one. *)
Definition op_add (data x : R) : R := (data + x)%R.
Definition op_copy {A} (data x : A) : A := x.
(** std::min(a,b): b if b < a, otherwise a; std::max(a,b): b if a < b, otherwise a. *)
Definition op_min (data x : R) : R := if Rlt_dec x data then x else data.
Definition op_max (data x : R) : R := if Rlt_dec data x then x else data.

Definition add_handle := communicate gather_dofs (scatter_dofs op_add).
Definition copy_handle {A} := communicate (@gather_dofs A) (scatter_dofs op_copy).
Definition min_handle := communicate gather_dofs (scatter_dofs op_min).
Definition max_handle := communicate gather_dofs (scatter_dofs op_max).

(** genericdatahandle.hh 811-840: the flag sent is ignored, the receiver's own partition type counts. *)
Definition ghost_gather (W : world) (s e : nat) (v : list bool) : bool := negb (ib W s e).
Definition ghost_scatter (W : world) (q e : nat) (v : list bool) (dummy : bool) : res (list bool) :=
  Ok (map (fun _ => negb (ib W q e)) v).

(** genericdatahandle.hh 907-945: ranks.  [unknown] stands for numeric_limits<RankIndex>::max(), here None. *)
Definition partition_gather (s e : nat) (v : list nat) : nat := s.
Definition partition_scatter (W : world) (q e : nat) (v : list nat) (received : nat) : res (list nat) :=
  Ok (map (fun current =>
             let current := if negb (ib W q e) && (current =? q) then None else Some current in
             match current with Some c => Nat.min c received | None => received end) v).

(** genericdatahandle.hh 1026-1046 *)
Definition shared_gather (s e : nat) (v : list bool) : bool := 0 <? length v.
Definition shared_scatter (q e : nat) (v : list bool) (remote_entity_has_dofs : bool) : res (list bool) :=
  Ok (map (fun b => b || remote_entity_has_dofs) v).

(** ** ParallelHelper *)

(** parallelhelper.hh 69-70: vectors initialised with one value. *)
Definition filled {A} (W : world) (x : nat -> A) : dvec A := fun q e => repeat (x q) (ndofs W e).

(** parallelhelper.hh 76-90: does the entity set span only the interior and border partitions? *)
Definition ib_all_messages (W : world) (only_interior_border : bool) :=
  if only_interior_border then interior_border_interior_border W else interior_border_all W.
Definition all_all_messages (W : world) (only_interior_border : bool) :=
  if only_interior_border then interior_border_interior_border W else all_all W.

(** parallelhelper.hh 92-105: the two vectors of the helper.  The orders are those in which the messages of the two
    communications arrive. *)
Definition ghosts (W : world) (order : list (nat * nat * nat)) : res (dvec bool) :=
  communicate (ghost_gather W) (ghost_scatter W) order (filled W (fun _ => false)).
Definition rank_partition (W : world) (order : list (nat * nat * nat)) : res (dvec nat) :=
  communicate partition_gather (partition_scatter W) order (filled W (fun q => q)).

(** parallelhelper.hh 107-115: the other ranks in the partition vector of rank [q], in increasing order (std::set). *)
Definition neighbor_ranks (W : world) (part : dvec nat) (q : nat) : list nat :=
  filter (fun r => negb (r =? q) && existsb (fun e => existsb (Nat.eqb r) (part q e)) (held W q)) (seq 0 (nranks W)).

(** *** Nested block vectors *)

(** A native ISTL vector: a FieldVector of values or a BlockVector of blocks. *)
Inductive blocks (A : Type) : Type :=
| Field (l : list A)
| Block (l : list (blocks A)).
Arguments Field {A} l.
Arguments Block {A} l.

Fixpoint bmap {A B} (f : A -> B) (t : blocks A) : blocks B :=
  match t with
  | Field l => Field (map f l)
  | Block l => Block (map (bmap f) l)
  end.

Fixpoint flatten {A} (t : blocks A) : list A :=
  match t with
  | Field l => l
  | Block l => flat_map flatten l
  end.

(** parallelhelper.hh 124-157 (maskForeignDOFs): entries whose mask is not the rank are set to 0.  Vector and mask
    belong to the same function space and have the same blocks; iteration ends with the vector's. *)
Fixpoint mask_foreign (rank : nat) (x : blocks R) (mask : blocks nat) : blocks R :=
  match x, mask with
  | Field l, Field m => Field (zip (fun v r => if r =? rank then v else 0%R) l m)
  | Block l, Block m =>
      Block ((fix go l m := match l, m with x :: l, k :: m => mask_foreign rank x k :: go l m | _, _ => [] end) l m)
  | _, _ => x
  end.

(** parallelhelper.hh 174-245 (disjointDot): the product of two entries counts iff the mask is the rank. *)
Fixpoint disjoint_dot (rank : nat) (x y : blocks R) (mask : blocks nat) : R :=
  match x, y, mask with
  | Field l, Field l', Field m =>
      (fix go l l' m := match l, l', m with
         | a :: l, b :: l', r :: m => ((if (r =? rank)%nat then a * b else 0) + go l l' m)%R
         | _, _, _ => 0%R end) l l' m
  | Block l, Block l', Block m =>
      (fix go l l' m := match l, l', m with
         | a :: l, b :: l', r :: m => (disjoint_dot rank a b r + go l l' m)%R
         | _, _, _ => 0%R end) l l' m
  | _, _, _ => 0%R
  end.

(** *** Global indices for the parallel AMG *)

(** A DOF block: entity and position on the entity. *)
Definition dof := (nat * nat)%type.
Definition at_dof {A} (d : A) (v : nat -> list A) (x : dof) : A := nth (snd x) (v (fst x)) d.

(** parallelhelper.hh 345-353: which blocks are shared with another process. *)
Definition shared_dofs (W : world) (order : list (nat * nat * nat)) : res (dvec bool) :=
  communicate shared_gather shared_scatter order (filled W (fun _ => false)).

Section index_set.
  Variable W : world.
  Variable layout : nat -> list dof.    (** the blocks of a rank in the order of its vectors *)
  Variable part : dvec nat.             (** _rank_partition *)
  Variable shared : dvec bool.          (** sharedDOF *)
  Variable max_index : nat.             (** numeric_limits<GlobalIndex>::max() *)

  (** parallelhelper.hh 247-252 and 359-361, 374-375 *)
  Definition owned_for_amg (q : nat) (x : dof) : bool := at_dof 0 (part q) x =? q.
  Definition counted (q : nat) (x : dof) : bool := owned_for_amg q x && at_dof false (shared q) x.

  (** parallelhelper.hh 356-361 *)
  Definition shared_count (q : nat) : nat :=
    fold_left (fun count x => if counted q x then S count else count) (layout q) 0.

  (** parallelhelper.hh 365-370: allgather and accumulate over the lower ranks. *)
  Definition start_index (q : nat) : nat :=
    fold_left Nat.add (firstn q (map shared_count (seq 0 (nranks W)))) 0.

  (** scalarIndices of one rank; the vector is stored by entity. *)
  Definition set_index (v : nat -> list nat) (x : dof) (i : nat) : nat -> list nat :=
    fun e => if e =? fst x then upd (snd x) i (v e) else v e.

  (** parallelhelper.hh 374-379 *)
  Definition number_owned (q : nat) : nat -> list nat :=
    fst (fold_left (fun '(v, start) x => if counted q x then (set_index v x start, S start) else (v, start))
                   (layout q) (fun e => repeat max_index (ndofs W e), start_index q)).

  (** parallelhelper.hh 382-386: MinDataHandle on the indices. *)
  Definition scalar_indices (order : list (nat * nat * nat)) : res (dvec nat) :=
    communicate gather_dofs (scatter_dofs Nat.min) order number_owned.

  (** parallelhelper.hh 389-409: the index set of rank [q]: global index, local index, is owner. *)
  Definition index_set (indices : dvec nat) (q : nat) : list (nat * nat * bool) :=
    flat_map (fun '(i, x) =>
      let g := at_dof 0 (indices q) x in
      if g =? max_index then [] else [(g, i, owned_for_amg q x)])
      (combine (seq 0 (length (layout q))) (layout q)).
End index_set.

(** genericdatahandle.hh 1140-1155 and parallelhelper.hh 412-419: the neighbours of [q] are the ranks a message came
    from, in increasing order (std::set). *)
Definition amg_neighbors (W : world) (order : list (nat * nat * nat)) (q : nat) : list nat :=
  filter (fun s => existsb (fun m => (fst (fst m) =? s) && (snd (fst m) =? q)) order) (seq 0 (nranks W)).

(** parallelhelper.hh 307-420 (createIndexSetAndProjectForAMG), all ranks together: [o1], [o2], [o3] are the orders of
    arrival in the partition, shared-DOF and index exchanges.  The result is the index set of every rank.
    The matrix argument of the function is never used. *)
Definition amg_index_sets (W : world) (layout : nat -> list dof) (max_index : nat) (o1 o2 o3 : list (nat * nat * nat))
  : res (nat -> list (nat * nat * bool)) :=
  let* part := rank_partition W o1 in
  let* shared := shared_dofs W o2 in
  let* indices := scalar_indices W layout part shared max_index o3 in
  Ok (index_set layout part max_index indices).
