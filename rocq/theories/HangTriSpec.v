(** Isolated hanging nodes on all kinds of cells (C165). *)
From Coq Require Import Reals Permutation.
From Verif Require Import HangModel HangSpec HangTriModel.
Local Open Scope nat_scope.

(** Position [p] is the midpoint of the positions of two vertices. *)
Definition midpoint (T : tgeo) (p : list R) (v w : nat) : Prop :=
  p = map (fun i => ((nth i (position T v) 0 + nth i (position T w) 0) / 2)%R) (seq 0 (dim (hg (th T)))).

(** Every vertex has as many coordinates as the grid has dimensions. *)
Definition placed (T : tgeo) : Prop := forall v, length (position T v) = dim (hg (th T)).

(** Faces of simplices have as many vertices as the grid has dimensions. *)
Definition simplex_faces (T : tgeo) (cells : list cell) : Prop :=
  forall c f, In c cells -> simplex T (cid c) = true -> In f (faces c) ->
    length (closure (refel (hg (th T)) (cid c)) (inside_face (hg (th T)) (cid c) f) (dim (hg (th T)))) = dim (hg (th T)).

(** [v] is a vertex of a finer neighbor in the middle of an edge of the simplex [c]. *)
Definition hangs_on_edge (T : tgeo) (c : cell) (v : nat) : Prop :=
  exists f w1 w2, In f (faces c) /\ boundary f = false /\ level (th T) (cid c) < level (th T) (outside f) /\
    has_vertex (th T) (outside f) v /\ w1 <> w2 /\
    vertex_of_face (th T) (cid c) f w1 /\ vertex_of_face (th T) (cid c) f w2 /\ midpoint T (position T v) w1 w2.

(** Levels of the leaf cells. *)
Definition cell_levels (T : tgeo) (cells : list cell) : list nat := map (fun c => level (th T) (cid c)) cells.

(** On the grids of the family [good] the grid manager replaces every cell that the sweep marks by at most [B] cells of the
    next level, keeps the others, and yields a grid of the family. *)
Definition refines_marked (B : nat) (good : tgeo -> list cell -> Prop) (dir : nat -> face -> nat -> bool)
    (refine : tgeo * list cell -> list cell -> tgeo * list cell) : Prop :=
  forall T cells t, good T cells -> analyze (th T) dir cells = Ok t -> fst (sweep T t cells) = true ->
    let marked := snd (sweep T t cells) in
    exists T' cells' (kids : cell -> nat), refine (T, cells) marked = (T', cells') /\ good T' cells' /\ (forall c, kids c <= B) /\
      Permutation (cell_levels T' cells')
        (flat_map (fun c => if existsb (fun m => cid m =? cid c) marked then repeat (S (level (th T) (cid c))) (kids c)
                            else [level (th T) (cid c)]) cells).
