(** Model of HangingNodeManager::adaptToIsolatedHangingNodes for all kinds of cells, with the extra check for simplices:
    dune/pdelab/constraints/hangingnodemanager.hh 264-496.  Grid, node table and analyzeView as in HangModel.

    Simplifications: positions are real vectors; [refine] is what mark and adapt make of the grid. *)
From Coq Require Import Reals.
From Verif Require Import OrderingModel.
From Verif Require Export HangModel.

(** What is asked of the grid in addition: position of a vertex (by its index) and isSimplex(). *)
Record tgeo := mktgeo { th : hgeo; position : nat -> list R; simplex : nat -> bool }.

Section isolation.
  Variable T : tgeo.
  Notation H := (th T).

  Fixpoint vadd (a b : list R) : list R := match a, b with x :: a, y :: b => (x + y)%R :: vadd a b | _, _ => [] end.
  Definition vscale (r : R) (a : list R) : list R := map (fun x => (r * x)%R) a.
  Definition norm2 (a : list R) : R := fold_right (fun x s => (x * x + s)%R) 0%R a.

  (** 391-404: the centre of an edge of the face; [face_vertices]: vertices of the face of the cell. *)
  Definition edge_center (c : nat) (f : face) (counter : nat) : list R :=
    let d := dim (hg H) in
    let corner k := position T (nth (k mod d) (face_vertices H c f) 0) in
    vscale (/ 2) (vadd (corner counter) (corner (S counter))).
  (** 365-379 *)
  Definition edge_centers (c : nat) (f : face) : list (list R) :=
    map (edge_center c f) (seq 0 (if dim (hg H) =? 2 then 1 else 3)).

  (** 425-431 *)
  Definition near (p q : list R) : bool :=
    if Rlt_dec (norm2 (vadd p (vscale (-1) q))) (5 / 10 ^ 12) then true else false.

  (** 434-444: the vertex lies on a centre and belongs to a cell two or more levels finer. *)
  Definition too_fine (t : table) (c v : nat) : bool := 1 <? maximum_level (t v) - level H c.

  (** 343-472: the extra check of one face. *)
  Definition extra_face (t : table) (c : nat) (f : face) : bool :=
    if boundary f then false
    else if negb (level H c <? level H (outside f)) then false
    else existsb (fun p => existsb (fun v => near p (position T v) && too_fine t c v) (cell_vertices H (outside f)))
           (edge_centers c f).

  Definition extra_check (t : table) (c : cell) : bool := existsb (extra_face t (cid c)) (faces c).

  (** 283-478: one sweep over the cells; the state is reiterate and the marked cells. *)
  Definition sweep_cell (t : table) (st : bool * list cell) (c : cell) : bool * list cell :=
    let st := if to_refine H t c then (true, snd st ++ [c]) else st in
    if simplex T (cid c) && negb (fst st) && extra_check t c then (true, snd st ++ [c]) else st.
  Definition sweep (t : table) (cells : list cell) : bool * list cell := fold_left (sweep_cell t) cells (false, []).
End isolation.

(** 271-496: the loop, as the relation between the grids before and after. *)
Inductive isolates_all (dir : nat -> face -> nat -> bool) (refine : tgeo * list cell -> list cell -> tgeo * list cell) :
    tgeo * list cell -> table -> tgeo * list cell -> table -> Prop :=
| all_isolated T cells t : fst (sweep T t cells) = false -> isolates_all dir refine (T, cells) t (T, cells) t
| all_more T cells t T' cells' t' g'' t'' : fst (sweep T t cells) = true ->
    refine (T, cells) (snd (sweep T t cells)) = (T', cells') -> analyze (th T') dir cells' = Ok t' ->
    isolates_all dir refine (T', cells') t' g'' t'' -> isolates_all dir refine (T, cells) t g'' t''.
