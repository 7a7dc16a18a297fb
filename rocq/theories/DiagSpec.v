(** Diagonal and off-diagonal blocks of an assembled matrix. *)
From Verif Require Import DiagModel EngineSpec.
Local Open Scope R_scope.

(** Every intersection that is visited: the cell, its number and the intersection. *)
Definition slot : Type := (cell * (nat * face))%type.
Definition visited_slots (e : env) (cells : list cell) : list slot :=
  flat_map (fun c => map (fun p => (c, p)) (numbered e c)) (filter (fun c => negb (skip_entity e c)) cells).
Definition is_interior (e : env) (s : slot) : bool :=
  match classify e (snd (snd s)) with Skeleton | Periodic => true | _ => false end.
Definition interior_slots (e : env) (cells : list cell) : list slot := filter (is_interior e) (visited_slots e cells).

(** [m] maps the view of a face from one side to the view from the other side: the grid is conforming to itself, every
    interior face is seen from both of its (different) cells. *)
Definition mirrored (e : env) (cells : list cell) (m : slot -> slot) : Prop :=
  NoDup (interior_slots e cells) /\
  forall s, In s (interior_slots e cells) ->
    In (m s) (interior_slots e cells) /\ m (m s) = s /\
    cid (fst (m s)) = outside (snd (snd s)) /\ outside (snd (snd (m s))) = cid (fst s) /\ cid (fst s) <> outside (snd (snd s)).

(** The derivative terms of a face do not depend on the side it is seen from. *)
Definition flip (b : (mat * mat) * (mat * mat)) : (mat * mat) * (mat * mat) :=
  ((snd (snd b), fst (snd b)), (snd (fst b), fst (fst b))).
Definition side_independent (e : env) (cells : list cell) (m : slot -> slot) (J : jterms) : Prop :=
  forall s t x y, In s (interior_slots e cells) ->
    let '(c, (i, f)) := s in let '(c', (i', f')) := m s in
    j_skeleton J c' f' i' t y x = flip (j_skeleton J c f i t x y).

(** A discontinuous space: every DOF belongs to one cell. *)
Definition dg_space (G : space) (owner : nat -> nat) : Prop :=
  forall c g, In g (lfsu G c) \/ In g (lfsv G c) -> owner g = c.

(** No two cells have the same index, and there are no periodic faces. *)
Definition distinct_cells (cells : list cell) : Prop := NoDup (map cid cells).
Definition no_periodic (e : env) (cells : list cell) : Prop :=
  forall c f, In c cells -> In f (faces c) -> classify e f <> Periodic.
Definition nothing_skipped (e : env) : Prop := (forall c, skip_entity e c = false) /\ forall c f, skip_intersection e c f = false.
(** The inside-inside derivative block of a face does not depend on the outside coefficients. *)
Definition outside_free (J : jterms) : Prop :=
  forall c f i t x y y', fst (fst (j_skeleton J c f i t x y)) = fst (fst (j_skeleton J c f i t x y')).
(** Trial and test space have the same, pairwise different DOFs on every cell. *)
Definition galerkin (G : space) : Prop := forall c, lfsu G c = lfsv G c /\ NoDup (lfsu G c).
