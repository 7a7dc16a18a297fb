(** Model of the construction of constraints: the assembly loop (dune/pdelab/constraints/common/constraints.hh), the
    constraint classes (constraints/conforming.hh, noconstraints.hh, p0.hh, p0ghost.hh, raviartthomas0.hh,
    interiornode.hh) and the tables some of them precompute.

    The grid is an arbitrary list of cells with intersections (DriverModel); reference elements, index sets,
    partition types and local finite elements are arbitrary tables. *)
From Verif Require Import OrderingModel.
From Verif Require Export ConsModel DriverModel.

Inductive partition := Interior | Border | Overlap | Front | Ghost.

(** ReferenceElement: size(codim), GlobalGeometryTypeIndex of type(i,codim), and the list of subEntity(face,1,j,codim) for
    j < size(face,1,codim). *)
Record ref := mkref { rsize : nat -> nat; rtype : nat -> nat -> nat; closure : nat -> nat -> list nat }.
(** What is asked of the grid for a cell, given by its index: reference element, indexInInside of an intersection,
    subIndex(cell,i,codim), partitionType; for the grid view: dimension, number of geometry type indices, types(codim)
    as geometry type indices and size(type). *)
Record geo := mkgeo {
  dim : nat; refel : nat -> ref; inside_face : nat -> face -> nat; sub_index : nat -> nat -> nat -> nat;
  ptype : nat -> partition; ntypes : nat; types : nat -> list nat; tsize : nat -> nat }.

(** A local DOF: codimension and number of the sub-entity it is attached to, index there (LocalKey), DOF index. *)
Record ldof := mkldof { codim : nat; sub : nat; nr : nat; dofidx : nat }.
(** Parameter classes: isDirichlet and isNeumann at the centre of an intersection. *)
Record param := mkparam { is_dirichlet : nat -> face -> bool; is_neumann : nat -> face -> bool }.

(** trafo[d] = empty *)
Definition fix_dof (d : ldof) (t : container) : container := put (dofidx d) [] t.

(** The loops of ConformingDirichletConstraints::boundary and OverlappingConformingDirichletConstraints::processor over
    all DOFs and all sub-entities of the face: conforming.hh 75-91, 124-137. *)
Definition fix_face (G : geo) (c : nat) (f : face) (ds : list ldof) (t : container) : container :=
  fold_left (fun t d =>
    if (codim d =? 0)%nat then t
    else fold_left (fun t s => if (sub d =? s)%nat then fix_dof d t else t)
           (closure (refel G c) (inside_face G c f) (codim d)) t) ds t.
Definition fix_all (ds : list ldof) (t : container) : container := fold_left (fun t d => fix_dof d t) ds t.

(** Tables of NonoverlappingConformingDirichletConstraints: conforming.hh 249-250. *)
Record ghost_table := mkghosts { gt_offsets : list nat; ghosts : list bool }.
Definition write {A} (i : nat) (x : A) (l : list A) : res (list A) := if (i <? length l)%nat then Ok (upd i x l) else UB.
(** compute_ghosts: conforming.hh 193-237; [contains] is gfs.ordering().contains, [cells] the cells of the grid view. *)
Definition ghost_offsets (G : geo) (contains : nat -> bool) : res (list nat) :=
  let* sizes := foldM (fun o cd => if contains cd then foldM (fun o gt => write (S gt) (tsize G gt) o) (types G cd) o else Ok o)
                  (seq 0 (S (dim G))) (repeat 0%nat (S (ntypes G))) in
  Ok (tl (psums 0 sizes)).
Definition compute_ghosts (G : geo) (contains : nat -> bool) (cells : list nat) : res ghost_table :=
  let* offs := ghost_offsets G contains in
  let* gh := foldM (fun gh c => foldM (fun gh cd =>
                      if contains cd then
                        foldM (fun gh i =>
                          let* o := at_ offs (rtype (refel G c) cd i) in write (o + sub_index G c i cd) false gh)
                          (seq 0 (rsize (refel G c) cd)) gh
                      else Ok gh) (seq 0 (S (dim G))) gh)
               (filter (fun c => match ptype G c with Interior => true | _ => false end) cells)
               (repeat true (last offs 0%nat)) in
  Ok (mkghosts offs gh).
(** NonoverlappingConformingDirichletConstraints::volume: conforming.hh 154-191 *)
Definition ghost_volume (G : geo) (gt : ghost_table) (c : nat) (ds : list ldof) (t : container) : res container :=
  match ptype G c with
  | Interior => Ok t
  | _ => foldM (fun t d =>
           let* o := at_ (gt_offsets gt) (rtype (refel G c) (codim d) (sub d)) in
           let* b := at_ (ghosts gt) (o + sub_index G c (sub d) (codim d)) in
           Ok (if b then fix_dof d t else t)) ds t
  end.

(** InteriorNodeConstraints: updateInteriorNodes, interiornode.hh 75-111 *)
Definition interior_nodes (G : geo) (vertices : nat) (cells : list cell) : res (list bool) :=
  foldM (fun it c => foldM (fun it f =>
           if boundary f then
             foldM (fun it v => write (sub_index G (cid c) v (dim G)) false it)
               (closure (refel G (cid c)) (inside_face G (cid c) f) (dim G)) it
           else Ok it) (faces c) it) cells (repeat true vertices).
(** volume: interiornode.hh 40-68; the asserts abort *)
Definition interior_volume (G : geo) (interior : list bool) (c : nat) (ds : list ldof) (t : container) : res container :=
  foldM (fun t d =>
    if (codim d =? dim G)%nat && (nr d =? 0)%nat then
      let* b := at_ interior (sub_index G c (sub d) (dim G)) in Ok (if b then fix_dof d t else t)
    else Throw) ds t.

(** The constraint classes; [None]: the flag (doVolume, doBoundary, ...) is false. *)
Inductive kind :=
| Unconstrained | Conforming | Overlapping | Nonoverlapping (g : ghost_table) | P0Overlapping | P0Ghosts | RT0
| InteriorNodes (interior : list bool).
(** conforming.hh 146, p0ghost.hh 34-51, interiornode.hh 30 *)
Definition volume (G : geo) (k : kind) : option (param -> nat -> list ldof -> container -> res container) :=
  match k with
  | Nonoverlapping g => Some (fun _ c => ghost_volume G g c)
  | P0Ghosts => Some (fun _ c ds t => match ptype G c with Ghost => Ok (fix_all ds t) | _ => Ok t end)
  | InteriorNodes i => Some (fun _ c => interior_volume G i c)
  | _ => None
  end.
(** conforming.hh 40-43 and 53-92 (inherited by the parallel variants), raviartthomas0.hh 35-46 *)
Definition conforming_boundary (G : geo) (q : param) (c : nat) (f : face) (ds : list ldof) (t : container) : res container :=
  if is_dirichlet q c f then Ok (fix_face G c f ds t) else Ok t.
Definition boundary_part (G : geo) (k : kind) : option (param -> nat -> face -> list ldof -> container -> res container) :=
  match k with
  | Conforming | Overlapping | Nonoverlapping _ => Some (conforming_boundary G)
  | RT0 => Some (fun q c f ds t => if is_neumann q c f then let* d := at_ ds (inside_face G c f) in Ok (fix_dof d t) else Ok t)
  | _ => None
  end.
(** conforming.hh 108-139, p0.hh 31-40 *)
Definition processor_part (G : geo) (k : kind) : option (nat -> face -> list ldof -> container -> res container) :=
  match k with
  | Overlapping => Some (fun c f ds t => Ok (fix_face G c f ds t))
  | P0Overlapping => Some (fun _ _ ds t => Ok (fix_all ds t))
  | _ => None
  end.

(** Local function space trees and parameter trees.  A leaf has a constraint class and its DOFs on every cell. *)
Record leaf := mkleaf { cls : kind; local : nat -> list ldof }.
Inductive stree := SLeaf (l : leaf) | SNode (ts : list stree).
Inductive ptree := PLeaf (q : param) | PNode (ps : list ptree).
Fixpoint leaves (t : stree) : list leaf :=
  match t with SLeaf l => [l] | SNode ts => flat_map leaves ts end.
(** Pairs of parameters and leaves visited by applyToTreePair with BoundaryConstraints / VolumeConstraints: constraints.hh
    154-192, 287-325.  A parameter leaf is used for a whole subtree of spaces; all other mismatches are rejected by the
    compiler. *)
Fixpoint pairs (p : ptree) (t : stree) : list (param * leaf) :=
  match p with
  | PLeaf q => map (pair q) (leaves t)
  | PNode ps =>
      match t with
      | SLeaf _ => []
      | SNode ts =>
          (fix go ps ts := match ps, ts with p :: ps', t :: ts' => pairs p t ++ go ps' ts' | _, _ => [] end) ps ts
      end
  end.

(** ConstraintsCallVolume, -Boundary, -Processor: constraints.hh 65-106 *)
Definition call_volume (G : geo) (c : nat) (t : container) (ql : param * leaf) : res container :=
  match volume G (cls (snd ql)), local (snd ql) c with Some v, (_ :: _) as ds => v (fst ql) c ds t | _, _ => Ok t end.
Definition call_boundary (G : geo) (c : nat) (f : face) (t : container) (ql : param * leaf) : res container :=
  match boundary_part G (cls (snd ql)), local (snd ql) c with Some b, (_ :: _) as ds => b (fst ql) c f ds t | _, _ => Ok t end.
Definition call_processor (G : geo) (c : nat) (f : face) (t : container) (l : leaf) : res container :=
  match processor_part G (cls l), local l c with Some b, (_ :: _) as ds => b c f ds t | _, _ => Ok t end.

(** One intersection: constraints.hh 627-670.  None of the classes above has doSkeleton, so skeleton and periodic
    intersections contribute nothing (see HangModel for the one that has). *)
Definition visit_face (e : env) (G : geo) (p : ptree) (t : stree) (c : nat) (cl : container) (f : face) : res container :=
  match classify e f with
  | Skeleton | Periodic => Ok cl
  | Boundary => foldM (call_boundary G c f) (pairs p t) cl
  | Processor => foldM (call_processor G c f) (leaves t) cl
  end.
(** One element: constraints.hh 609-678; [ci] maps DOF indices to container indices, [hash] is the order in which the
    local unordered_map is traversed. *)
Definition visit_cell (e : env) (G : geo) (ci : nat -> nat) (hash : container -> container) (p : ptree) (t : stree)
    (cg : transformation) (c : cell) : res transformation :=
  let* cl := foldM (call_volume G (cid c)) (pairs p t) [] in
  let* cl := foldM (visit_face e G p t (cid c)) (faces c) cl in
  Ok match cl with [] => cg | _ => import ci (hash cl) cg end.
(** ConstraintsAssemblerHelper::assemble: constraints.hh 588-678 *)
Definition assemble (e : env) (G : geo) (ci : nat -> nat) (hash : container -> container) (cells : list cell)
    (p : ptree) (t : stree) (cg : transformation) : res transformation :=
  foldM (visit_cell e G ci hash p t) cells cg.
(** constraints(p, gfs, cg): 774-781 and constraints(gfs, cg): 748-754; the latter does not clear. *)
Definition build (e : env) (G : geo) ci hash cells p t (cg : transformation) : res transformation :=
  assemble e G ci hash cells p t cleared.
Definition build_without_parameters (e : env) (G : geo) ci hash cells t (cg : transformation) : res transformation :=
  assemble e G ci hash cells (PLeaf (mkparam (fun _ _ => false) (fun _ _ => false))) t cg.
