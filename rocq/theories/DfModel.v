(** Grid function spaces on top of dune-functions bases.
    gridfunctionspace/dunefunctionsgridfunctionspace.hh (abbreviated dfgfs.hh),
    gridfunctionspace/dunefunctionslfsindexcache.hh (dfcache.hh) and
    gridfunctionspace/dunefunctionslocalfunctionspace.hh (dflfs.hh). *)
From Verif Require Export Common.

(** What the code asks of the grid and the basis.  A local dof: the global geometry type index and the index of
    the subentity its local key names (refElement.type, indexSet.subIndex), the index() of the key and
    localView.index(i). *)
Record ldof := mkld { ld_type : nat; ld_ent : nat; ld_key : nat; ld_glob : nat }.
(** An element: the index of its geometry type, its local finite element (a number) and its local dofs. *)
Record cell := mkcell { c_type : nat; c_fe : nat; c_dofs : list ldof }.
(** indexSet.types(codim), gridView.size(type), the elements in the order of iteration, basis.size() and the
    dimension. *)
Record mesh := mkmesh { me_dim : nat; me_types : nat -> list nat; me_size : nat -> nat; me_cells : list cell; me_basis : nat }.
Definition all_types (m : mesh) : list nat := flat_map (me_types m) (seq 0 (S (me_dim m))).
Definition all_dofs (m : mesh) : list ldof := flat_map c_dofs (me_cells m).

(** A vector of vectors, indexed by geometry types. *)
Definition put {X} (c : nat -> X) (t : nat) (x : X) : nat -> X := fun s => if s =? t then x else c s.

(** dfgfs.hh 255-263: the vectors exist for the types of the index set only. *)
Definition count_new (m : mesh) : nat -> list nat :=
  fun t => repeat 0 (if existsb (Nat.eqb t) (all_types m) then me_size m t else 0).
(** dfgfs.hh 273-285. *)
Definition count_visit (d : nat -> list nat) (l : ldof) : res (nat -> list nat) :=
  match nth_error (d (ld_type l)) (ld_ent l) with
  | None => UB
  | Some n => Ok (put d (ld_type l) (upd (ld_ent l) (Nat.max n (ld_key l + 1)) (d (ld_type l))))
  end.
(** dfgfs.hh 265-286. *)
Definition count_dofs (m : mesh) : res (nat -> list nat) := foldM count_visit (all_dofs m) (count_new m).

(** dfgfs.hh 288-297: default constructed container indices ([None]). *)
Definition index_new (d : nat -> list nat) : nat -> list (list (option nat)) := fun t => map (fun n => repeat None n) (d t).
(** dfgfs.hh 307-318. *)
Definition index_visit (c : nat -> list (list (option nat))) (l : ldof) : res (nat -> list (list (option nat))) :=
  match nth_error (c (ld_type l)) (ld_ent l) with
  | None => UB
  | Some r => if ld_key l <? length r
              then Ok (put c (ld_type l) (upd (ld_ent l) (upd (ld_key l) (Some (ld_glob l)) r) (c (ld_type l)))) else UB
  end.
(** dfgfs.hh 299-320. *)
Definition index_dofs (m : mesh) (d : nat -> list nat) : res (nat -> list (list (option nat))) :=
  foldM index_visit (all_dofs m) (index_new d).

(** dfgfs.hh 337-344: the loop over i = 1, 2, ... with the entries i-1 and i. *)
Fixpoint flag_loop (prev : nat) (d : list nat) (st : bool * bool) : bool * bool :=
  match d with
  | [] => st
  | x :: d => flag_loop x d ((if 0 <? x then true else fst st), (if negb (prev =? x) then false else snd st))
  end.
(** dfgfs.hh 330-345: the flags contains and fixedSize after one more type; dofs[0] does not exist if the type
    has no entities. *)
Definition flag_type (d : list nat) (st : bool * bool) : res (bool * bool) :=
  match d with [] => UB | x :: r => Ok (flag_loop x r ((if 0 <? x then true else fst st), snd st)) end.
(** dfgfs.hh 324-347. *)
Definition flags (m : mesh) (d : nat -> list nat) (codim : nat) : res (bool * bool) :=
  foldM (fun st t => flag_type (d t) st) (me_types m codim) (false, true).

(** dfgfs.hh 349-364: the state of the ordering. *)
Record ordering := mkord { o_index : nat -> list (list (option nat)); o_contains : nat -> bool; o_fixed : nat -> bool }.
(** The flags of the codimensions 0..dim, as functions of the codimension. *)
Fixpoint all_flags (m : mesh) (d : nat -> list nat) (codims : list nat) : res (nat -> bool * bool) :=
  match codims with
  | [] => Ok (fun _ => (false, true))
  | c :: r => let* f := flags m d c in let* g := all_flags m d r in Ok (put g c f)
  end.
(** dfgfs.hh 247-347: LeafOrdering::update. *)
Definition update (m : mesh) : res ordering :=
  let* d := count_dofs m in
  let* c := index_dofs m d in
  let* f := all_flags m d (seq 0 (S (me_dim m))) in
  Ok (mkord c (fun k => fst (f k)) (fun k => snd (f k))).

(** dfgfs.hh 201-204 and 226-240: the dofs of an entity, as the communication asks for them. *)
Definition entity_size (o : ordering) (t e : nat) : res nat :=
  match nth_error (o_index o t) e with None => UB | Some r => Ok (length r) end.
Definition entity_indices (o : ordering) (t e : nat) : res (list (option nat)) :=
  match nth_error (o_index o t) e with None => UB | Some r => Ok r end.
(** dfgfs.hh 242-245. *)
Definition container_index (o : ordering) (t e k : nat) : res (option nat) :=
  match nth_error (o_index o t) e with
  | None => UB
  | Some r => match nth_error r k with None => UB | Some g => Ok g end
  end.

(** dflfs.hh 107-136: dofIndex(i) and containerIndex(i) of the local function space bound to the element. *)
Definition lfs_dof_index (c : cell) (i : nat) : res (nat * nat * nat) :=
  match nth_error (c_dofs c) i with None => UB | Some l => Ok (ld_type l, ld_ent l, ld_key l) end.
Definition lfs_container_index (c : cell) (i : nat) : res nat :=
  match nth_error (c_dofs c) i with None => UB | Some l => Ok (ld_glob l) end.

(** dfcache.hh 62-98: the cache with constraints.  The flags are set to 0 by the constructor, and update() does
    nothing.  Constraints are given by the container indices of the constrained dofs. *)
Definition cache_flags (max_size : nat) (constraints : list nat) : list nat := repeat 0 max_size.
Definition cache_update (constraints : list nat) (c : cell) (flags : list nat) : list nat := flags.
Definition cache_is_constrained (flags : list nat) (i : nat) : res bool :=
  match nth_error flags i with None => UB | Some f => Ok (Nat.odd f) end.

(** ** A space and its copies *)

(** All copies of a space share the basis and the ordering, and the ordering refers to the space it was built
    for, number 0 (dfgfs.hh 156-188, 351, 475-489, and the implicit copy constructor).  The cache of
    finite elements is copied.  [w_grid]: the grid as it is now; [w_basis]: as it was when the basis was
    updated last. *)
Record world := mkw { w_grid : mesh; w_basis : mesh; w_order : ordering; w_alive : nat -> bool; w_cache : nat -> list (nat * nat) }.
(** dfgfs.hh 475-489. *)
Definition w_new (m : mesh) : res world :=
  let* o := update m in Ok (mkw m m o (fun i => i =? 0) (fun _ => [])).
Fixpoint lookup (t : nat) (l : list (nat * nat)) : option nat :=
  match l with [] => None | (s, x) :: r => if s =? t then Some x else lookup t r end.
(** dfgfs.hh 112-127. *)
Definition fem_find (cache : list (nat * nat)) (c : cell) : list (nat * nat) * nat :=
  match lookup (c_type c) cache with
  | Some x => (cache, x)
  | None => ((c_type c, c_fe c) :: cache, c_fe c)
  end.
Inductive op :=
| Adapt (m : mesh)
| Copy (i j : nat)
| Destroy (i : nat)
| Update (i : nat)
| Find (i : nat) (c : cell).
(** dfgfs.hh 557-564 (update) and the calls above.  Calls on spaces that do not exist are undefined, and so is
    the access of the ordering to a space that does not exist any more. *)
Definition step (w : world) (o : op) : res world :=
  match o with
  | Adapt m => Ok (mkw m (w_basis w) (w_order w) (w_alive w) (w_cache w))
  | Copy i j => if w_alive w i && negb (w_alive w j)
                then Ok (mkw (w_grid w) (w_basis w) (w_order w) (put (w_alive w) j true) (put (w_cache w) j (w_cache w i))) else UB
  | Destroy i => if w_alive w i then Ok (mkw (w_grid w) (w_basis w) (w_order w) (put (w_alive w) i false) (w_cache w)) else UB
  | Update i => if w_alive w i then
                  if w_alive w 0 then let* o := update (w_grid w) in Ok (mkw (w_grid w) (w_grid w) o (w_alive w) (put (w_cache w) i []))
                  else UB
                else UB
  | Find i c => if w_alive w i then Ok (mkw (w_grid w) (w_basis w) (w_order w) (w_alive w) (put (w_cache w) i (fst (fem_find (w_cache w i) c)))) else UB
  end.
Definition run (l : list op) (w : world) : res world := foldM step l w.
(** dfgfs.hh 532-545 with 195-198: size(), blockCount() and globalSize(). *)
Definition size (w : world) (i : nat) : res nat := if w_alive w i then if w_alive w 0 then Ok (me_basis (w_basis w)) else UB else UB.
(** The element finiteElementMap().find(c) returns. *)
Definition find (w : world) (i : nat) (c : cell) : res nat := if w_alive w i then Ok (snd (fem_find (w_cache w i) c)) else UB.
