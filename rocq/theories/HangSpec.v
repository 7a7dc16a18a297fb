(** Hanging nodes. *)
From Verif Require Import HangModel ConsSpec.
Local Open Scope nat_scope.

Section Spec.
  Variables (H : hgeo) (cells : list cell).
  Definition has_vertex (c v : nat) : Prop := exists i, i < rsize (refel (hg H) c) (dim (hg H)) /\ v = sub_index (hg H) c i (dim (hg H)).
  (** [v] is a vertex of face [f] of cell [c]. *)
  Definition vertex_of_face (c : nat) (f : face) (v : nat) : Prop :=
    exists i, In i (closure (refel (hg H) c) (inside_face (hg H) c f) (dim (hg H))) /\ v = sub_index (hg H) c i (dim (hg H)).
  (** [f] is part of a face of a coarser cell. *)
  Definition nonconforming (c : cell) (f : face) : Prop :=
    neighbor f = true /\ boundary f = false /\ conforming H (cid c) f = false /\ level H (outside f) < level H (cid c).
  (** A hanging node: a vertex on the face of a coarser cell that is no vertex of that cell. *)
  Definition hangs (v : nat) : Prop := exists c f, In c cells /\ In f (faces c) /\ nonconforming c f /\
    vertex_of_face (cid c) f v /\ ~ has_vertex (outside f) v.

  (** A sequential grid of nested refinement: no processor boundaries, different levels on both sides of a nonconforming
      face, faces have vertices of the cell, vertices exist from some level on, and a vertex on the face of a coarser cell that
      exists on the level of that cell is a vertex of it. *)
  Record refined : Prop := {
    rf_faces : forall c f, In c cells -> In f (faces c) -> boundary f = true \/ neighbor f = true;
    rf_levels : forall c f, In c cells -> In f (faces c) -> neighbor f = true -> boundary f = false -> conforming H (cid c) f = false ->
      level H (cid c) <> level H (outside f);
    rf_closure : forall c f v, In c cells -> In f (faces c) -> vertex_of_face (cid c) f v -> has_vertex (cid c) v;
    rf_outside : forall c f, In c cells -> In f (faces c) -> neighbor f = true -> exists c', In c' cells /\ cid c' = outside f;
    rf_born : exists born : nat -> nat,
      (forall c v, In c cells -> has_vertex (cid c) v -> born v <= level H (cid c)) /\
      (forall c f v, In c cells -> In f (faces c) -> nonconforming c f -> vertex_of_face (cid c) f v ->
         ~ has_vertex (outside f) v -> level H (outside f) < born v) }.
End Spec.
