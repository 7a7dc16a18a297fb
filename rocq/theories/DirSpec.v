(** Which DOFs a user expects to be constrained. *)
From Verif Require Import DirModel ConsSpec.

(** Parameters [q] apply to leaf space [l]: parameter and space trees are followed in parallel, a parameter leaf applies
    to everything below the space node it meets. *)
Inductive below_node : stree -> leaf -> Prop :=
| below_leaf l : below_node (SLeaf l) l
| below_child ts t l : In t ts -> below_node t l -> below_node (SNode ts) l.
Inductive governs : ptree -> stree -> param -> leaf -> Prop :=
| governs_leaf q t l : below_node t l -> governs (PLeaf q) t q l
| governs_child ps ts i p t q l : nth_error ps i = Some p -> nth_error ts i = Some t -> governs p t q l ->
    governs (PNode ps) (SNode ts) q l.
(** The two trees fit. *)
Inductive fits : ptree -> stree -> Prop :=
| fits_leaf q t : fits (PLeaf q) t
| fits_node ps ts : Forall2 fits ps ts -> fits (PNode ps) (SNode ts).

Section Spec.
  Variables (e : env) (G : geo).
  (** DOF [d] of cell [c] is attached to a vertex, edge, ... of intersection [f] or to the face itself. *)
  Definition lies_on (c : nat) (f : face) (d : ldof) : Prop :=
    (0 < codim d)%nat /\ In (sub d) (closure (refel G c) (inside_face G c f) (codim d)).
  Definition on_dirichlet_boundary (q : param) (c : cell) (d : ldof) : Prop :=
    exists f, In f (faces c) /\ classify e f = Boundary /\ is_dirichlet q (cid c) f = true /\ lies_on (cid c) f d.
  Definition on_processor_boundary (c : cell) (d : ldof) : Prop :=
    exists f, In f (faces c) /\ classify e f = Processor /\ lies_on (cid c) f d.
  (** The grid entity, as geometry type and index, a DOF is attached to, and the entities of a cell. *)
  Definition entity_of (c : nat) (d : ldof) : nat * nat :=
    (rtype (refel G c) (codim d) (sub d), sub_index G c (sub d) (codim d)).
  Definition has_entity (c : nat) (x : nat * nat) : Prop :=
    exists cd i, (cd <= dim G)%nat /\ (i < rsize (refel G c) cd)%nat /\
      x = (rtype (refel G c) cd i, sub_index G c i cd).
  (** Vertex on the boundary of the domain. *)
  Definition boundary_vertex (grid : list cell) (v : nat) : Prop :=
    exists c f i, In c grid /\ In f (faces c) /\ boundary f = true /\
      In i (closure (refel G (cid c)) (inside_face G (cid c) f) (dim G)) /\ v = sub_index G (cid c) i (dim G).

  (** Is DOF [d] of cell [c] to be constrained?  [grid]: all cells of the grid view. *)
  Definition fixed (grid : list cell) (k : kind) (q : param) (ds : list ldof) (c : cell) (d : ldof) : Prop :=
    match k with
    | Unconstrained => False
    | Conforming => on_dirichlet_boundary q c d
    | Overlapping => on_dirichlet_boundary q c d \/ on_processor_boundary c d
    | Nonoverlapping _ => on_dirichlet_boundary q c d \/
        forall c', In c' grid -> ptype G (cid c') = Interior -> ~ has_entity (cid c') (entity_of (cid c) d)
    | P0Overlapping => exists f, In f (faces c) /\ classify e f = Processor
    | P0Ghosts => ptype G (cid c) = Ghost
    | RT0 => exists f, In f (faces c) /\ classify e f = Boundary /\ is_neumann q (cid c) f = true /\
        nth_error ds (inside_face G (cid c) f) = Some d
    | InteriorNodes _ => ~ boundary_vertex grid (sub_index G (cid c) (sub d) (dim G))
    end.

  (** Container index [g] is to be constrained. *)
  Definition to_be_constrained (ci : nat -> nat) (grid cells : list cell) (p : ptree) (t : stree) (g : nat) : Prop :=
    exists c q l d, In c cells /\ governs p t q l /\ In d (local l (cid c)) /\
      fixed grid (cls l) q (local l (cid c)) c d /\ g = ci (dofidx d).

  (** A proper grid view: indices are below the sizes, types are numbered, every type belongs to one codimension, the
      sub-entities of a face are sub-entities of the cell. *)
  Record proper_grid (grid : list cell) : Prop := {
    types_numbered : forall cd gt, In gt (types G cd) -> (gt < ntypes G)%nat;
    types_once : forall cd cd' gt, In gt (types G cd) -> In gt (types G cd') -> cd = cd';
    entity_indexed : forall c cd i, In c grid -> (cd <= dim G)%nat -> (i < rsize (refel G (cid c)) cd)%nat ->
      In (rtype (refel G (cid c)) cd i) (types G cd) /\
      (sub_index G (cid c) i cd < tsize G (rtype (refel G (cid c)) cd i))%nat;
    closure_of_face : forall c f cd i, In c grid -> In f (faces c) -> (cd <= dim G)%nat ->
      In i (closure (refel G (cid c)) (inside_face G (cid c) f) cd) -> (i < rsize (refel G (cid c)) cd)%nat }.
  (** DOFs are attached to sub-entities of the cell. *)
  Definition proper_leaf (grid : list cell) (l : leaf) : Prop :=
    forall c d, In c grid -> In d (local l (cid c)) ->
      (codim d <= dim G)%nat /\ (sub d < rsize (refel G (cid c)) (codim d))%nat.
  (** The precomputed tables of a class were computed for this grid; classes for special elements are used with them. *)
  Definition prepared (grid : list cell) (l : leaf) : Prop :=
    match cls l with
    | Nonoverlapping gt => exists contains, compute_ghosts G contains (map cid grid) = Ok gt /\
        forall c d, In c grid -> In d (local l (cid c)) -> contains (codim d) = true
    | RT0 => forall c f, In c grid -> In f (faces c) -> local l (cid c) <> [] ->
        (inside_face G (cid c) f < length (local l (cid c)))%nat
    | InteriorNodes it => exists n, interior_nodes G n grid = Ok it /\
        (forall c i, In c grid -> (i < rsize (refel G (cid c)) (dim G))%nat -> (sub_index G (cid c) i (dim G) < n)%nat) /\
        forall c d, In c grid -> In d (local l (cid c)) -> codim d = dim G /\ nr d = 0%nat
    | _ => True
    end.
End Spec.
