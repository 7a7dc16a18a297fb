(** Load balancing with data: dune/pdelab/gridfunctionspace/loadbalance.hh.
    Entities are named by numbers (the identity that the id sets of all processes agree on); [copy] tells the copies of an entity on different levels apart.
    Not modelled: the grid (which entities it moves, and in which order it calls gather and scatter, is the list of transfers), the conversion of values to
    bytes (Wire), the numbering of the DOFs (a vector gives the DOFs of an entity in the order of the local view). *)
From Verif Require Import Common.

Record entity := mkent { e_id : nat; e_copy : nat }.
(** The grid: dimension, codimension of an entity, its id on a process *)
Record lbgrid := mkgrid { gdim : nat; codim : nat -> nat; lid : nat -> nat -> nat }.
(** Values, the number of DOFs as a value (line 150: static_cast<R0>) and back (line 204: (size_t)) *)
Record wire (A : Type) := mkwire { enc : nat -> A; dec : A -> nat; zero : A }.
Arguments enc {A}. Arguments dec {A}. Arguments zero {A}.
(** A vector with its space: finiteElementMap().hasDOFs, entitySet().contains on a process, interior and border entities of the entity set before and after,
    size of the local view, and DOFs of the entities known to a process before *)
Record slot (A : Type) := mkslot { has_dofs : nat -> bool; contains : nat -> entity -> bool; before : nat -> list nat; after : nat -> list nat;
  view_size : nat -> nat; val : nat -> nat -> list A }.
Arguments has_dofs {A}. Arguments contains {A}. Arguments before {A}. Arguments after {A}. Arguments view_size {A}. Arguments val {A}.

(** std::unordered_map<ID,std::vector<R>>: insert keeps an existing entry. *)
Definition dmap (A : Type) := list (nat * list A).
Fixpoint find {A} (i : nat) (m : dmap A) : option (list A) := match m with [] => None | (j, d) :: m => if i =? j then Some d else find i m end.
Definition insert {A} (i : nat) (d : list A) (m : dmap A) : dmap A := match find i m with Some _ => m | None => (i, d) :: m end.

(** loadBalanceMapFiller: 243-271, for one codimension; FillLoadBalanceDOFMap: 274-297 *)
Definition map_filler {A} (G : lbgrid) (s : slot A) (p c : nat) (m : dmap A) : dmap A :=
  fold_left (fun m e => if codim G e =? c then insert (lid G p e) (val s p e) m else m) (before s p) m.
Definition fill_map {A} (G : lbgrid) (s : slot A) (p : nat) : dmap A :=
  fold_left (fun m c => if has_dofs s c then map_filler G s p c m else m) (rev (seq 0 (S (gdim G)))) [].

(** size: sizeTMP 61-103; [w] is sizeof(R). UB: the assertion that the entity is in the map *)
Fixpoint comm_size {A} (G : lbgrid) (w p : nat) (e : entity) (vs : list (slot A * dmap A)) : res nat :=
  match vs with
  | [] => Ok 0
  | (s, m) :: vs =>
      let* n := if has_dofs s (codim G (e_id e)) then
        if contains s p e then match find (lid G p (e_id e)) m with Some d => Ok (w + length d * w) | None => UB end else Ok w
        else Ok 0 in
      let* r := comm_size G w p e vs in Ok (n + r)
  end.
(** gather: gatherTMP 117-166 *)
Fixpoint gather {A} (W : wire A) (G : lbgrid) (p : nat) (e : entity) (vs : list (slot A * dmap A)) : res (list A) :=
  match vs with
  | [] => Ok []
  | (s, m) :: vs =>
      let* b := if has_dofs s (codim G (e_id e)) then
        if contains s p e then match find (lid G p (e_id e)) m with Some d => Ok (enc W (length d) :: d) | None => UB end else Ok [enc W 0]
        else Ok [] in
      let* r := gather W G p e vs in Ok (b ++ r)
  end.
(** buf.read; past the end of the message it is undefined. *)
Definition read {A} (b : list A) : res (A * list A) := match b with [] => UB | a :: b => Ok (a, b) end.
Fixpoint read_n {A} (n : nat) (b : list A) : res (list A * list A) :=
  match n with O => Ok ([], b) | S n => let* (a, b) := read b in let* (l, b) := read_n n b in Ok (a :: l, b) end.
(** scatter: scatterTMP 187-220: the maps of the receiver, and the rest of the message *)
Fixpoint scatter {A} (W : wire A) (G : lbgrid) (q : nat) (e : entity) (vs : list (slot A * dmap A)) (b : list A) : res (list (dmap A) * list A) :=
  match vs with
  | [] => Ok ([], b)
  | (s, m) :: vs =>
      let* (m, b) := if has_dofs s (codim G (e_id e)) then
          let* (tmp, b) := read b in let* (dofs, b) := read_n (dec W tmp) b in Ok (insert (lid G q (e_id e)) dofs m, b)
        else Ok (m, b) in
      let* (ms, b) := scatter W G q e vs b in Ok (m :: ms, b)
  end.

(** grid.loadBalance(dh): 457: for every transfer (p, q, e) process p gathers and q scatters. *)
Definition maps (A : Type) := nat -> list (dmap A).
Definition transfer {A} (W : wire A) (G : lbgrid) (ss : list (slot A)) (M : maps A) (t : nat * nat * entity) : res (maps A) :=
  let '(p, q, e) := t in
  let* msg := gather W G p e (combine ss (M p)) in
  let* (ms, _) := scatter W G q e (combine ss (M q)) msg in
  Ok (fun p' => if p' =? q then ms else M p').

(** loadBalanceMapReader: 299-335, for one codimension; UB: the assertions. ReadLoadBalanceDOFMap: 338-361 *)
Definition map_reader {A} (G : lbgrid) (s : slot A) (p c : nat) (m : dmap A) (v : nat -> list A) : res (nat -> list A) :=
  foldM (fun v e => if codim G e =? c then
      match find (lid G p e) m with
      | Some d => if length d =? view_size s e then Ok (fun e' => if e' =? e then d else v e') else UB
      | None => UB end
    else Ok v) (after s p) v.
Definition read_map {A} (G : lbgrid) (s : slot A) (p : nat) (m : dmap A) (v : nat -> list A) : res (nat -> list A) :=
  foldM (fun v c => if has_dofs s c then map_reader G s p c m v else Ok v) (rev (seq 0 (S (gdim G)))) v.

Fixpoint each {X Y} (f : X -> res Y) (l : list X) : res (list Y) := match l with [] => Ok [] | a :: l => let* b := f a in let* r := each f l in Ok (b :: r) end.
(** iterateTuple 404-445 and iteratePacks: fill the maps of all vectors of all packs, balance, update the spaces, and for each vector V(gfs,0.0) and read.
    The result is the new vectors of process p. *)
Definition load_balance {A} (W : wire A) (G : lbgrid) (ss : list (slot A)) (moves : list (nat * nat * entity)) (p : nat) : res (list (nat -> list A)) :=
  let* M := foldM (transfer W G ss) moves (fun p => map (fun s => fill_map G s p) ss) in
  each (fun '(s, m) => read_map G s p m (fun e => repeat (zero W) (view_size s e))) (combine ss (M p)).
