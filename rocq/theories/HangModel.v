(** Model of the constraints for hanging nodes: HangingNodeManager (dune/pdelab/constraints/hangingnodemanager.hh) and
    HangingNodesDirichletConstraints (constraints/hangingnode.hh).  Reference elements and index sets as in DirModel;
    vertices are given by their index in the leaf index set. *)
From Verif Require Import OrderingModel.
From Verif Require Export DirModel.

(** What is asked of the grid in addition: indexInOutside, level and conforming(). *)
Record hgeo := mkhgeo { hg : geo; outside_face : nat -> face -> nat; level : nat -> nat; conforming : nat -> face -> bool }.

(** Vertices of a cell and of a face seen from its inside cell *)
Definition vertex (H : hgeo) (c i : nat) : nat := sub_index (hg H) c i (dim (hg H)).
Definition cell_vertices (H : hgeo) (c : nat) : list nat := map (vertex H c) (seq 0 (rsize (refel (hg H) c) (dim (hg H)))).
Definition face_vertices (H : hgeo) (c : nat) (f : face) : list nat :=
  map (vertex H c) (closure (refel (hg H) c) (inside_face (hg H) c f) (dim (hg H))).

(** NodeInfo: hangingnodemanager.hh 28-58; [None] stands for the maximum of unsigned short (levels are smaller). *)
Record node_info := mknode { minimum_level : option nat; maximum_level : nat; touching_level : option nat; node_dirichlet : bool }.
Definition fresh_node : node_info := mknode None 0 None false.
Definition opt_min (o : option nat) (l : nat) : option nat := match o with None => Some l | Some m => Some (Nat.min m l) end.
Definition add_level (l : nat) (n : node_info) : node_info :=
  mknode (opt_min (minimum_level n) l) (Nat.max (maximum_level n) l) (touching_level n) (node_dirichlet n).
Definition add_touching (l : nat) (n : node_info) : node_info :=
  mknode (minimum_level n) (maximum_level n) (opt_min (touching_level n) l) (node_dirichlet n).
Definition set_dirichlet (b : bool) (n : node_info) : node_info :=
  mknode (minimum_level n) (maximum_level n) (touching_level n) b.
Notation table := (nat -> node_info).
Definition change (v : nat) (f : node_info -> node_info) (t : table) : table := setv v (f (t v)) t.

(** analyzeView: hangingnodemanager.hh 100-212; outside() of an intersection without neighbor is undefined; [dir]:
    isDirichlet at the i-th vertex of the intersection. *)
Definition analyze_face (H : hgeo) (dir : nat -> face -> nat -> bool) (c : nat) (t : table) (f : face) : res table :=
  if boundary f then
    Ok (fold_left (fun t iv => change (snd iv) (fun n => add_touching (level H c) (set_dirichlet (dir c f (fst iv)) n)) t)
          (combine (seq 0 (length (face_vertices H c f))) (face_vertices H c f)) t)
  else if negb (neighbor f) then UB
  else if conforming H c f then Ok t
  else if (level H c =? level H (outside f))%nat then Throw
  else if (level H c <? level H (outside f))%nat then Ok t
  else Ok (fold_left (fun t v => change v (add_touching (level H (outside f))) t) (face_vertices H c f) t).
Definition analyze_cell (H : hgeo) dir (t : table) (c : cell) : res table :=
  foldM (analyze_face H dir (cid c)) (faces c)
    (fold_left (fun t v => change v (add_level (level H (cid c))) t) (cell_vertices H (cid c)) t).
Definition analyze (H : hgeo) dir (cells : list cell) : res table := foldM (analyze_cell H dir) cells (fun _ => fresh_node).

(** hangingNodes: hangingnodemanager.hh 220-262 *)
Definition is_hanging (n : node_info) : bool :=
  match touching_level n, minimum_level n with
  | None, _ => false | Some _, None => true | Some t, Some m => (t <? m)%nat end.
Definition hanging_nodes (H : hgeo) (t : table) (c : nat) : list bool := map (fun v => is_hanging (t v)) (cell_vertices H c).

(** adaptToIsolatedHangingNodes for cells that are not simplices: hangingnodemanager.hh 264-330, 480-496.  [refine] is what
    mark and adapt do to the grid.  The loop is the relation between the grids before and after. *)
Definition to_refine (H : hgeo) (t : table) (c : cell) : bool :=
  existsb (fun v => (1 <? maximum_level (t v) - level H (cid c))%nat) (cell_vertices H (cid c)).
Inductive isolates (dir : nat -> face -> nat -> bool) (refine : hgeo * list cell -> list cell -> hgeo * list cell) :
    hgeo * list cell -> table -> hgeo * list cell -> table -> Prop :=
| isolated H cells t : existsb (to_refine H t) cells = false -> isolates dir refine (H, cells) t (H, cells) t
| isolate_more H cells t H' cells' t' g'' t'' : existsb (to_refine H t) cells = true ->
    refine (H, cells) (filter (to_refine H t) cells) = (H', cells') -> analyze H' dir cells' = Ok t' ->
    isolates dir refine (H', cells') t' g'' t'' -> isolates dir refine (H, cells) t g'' t''.

(** assembleConstraints: hangingnode.hh 27-175 (cubes) and 184-302 (simplices).  [d]: the constant called dimension;
    [state]: nodeState of the chosen cell; [m]: sub-entities of codimension [d] of its face; [gl]: their subIndex; [dof]: DOF
    index of a vertex.  The asserts abort. *)
Section Assembler.
  Variables (d : nat) (state : list bool) (m : list nat) (gl : list nat) (dof : nat -> nat).
  Definition hang (j : nat) : res bool := let* s := at_ m j in at_ state s.
  Definition contribute (j k : nat) (w : R) (t : container) : res container :=
    let* gj := at_ gl j in let* gk := at_ gl k in Ok (put (dof gj) [(dof gk, w)] t).
  (** hangingnode.hh 94 *)
  Definition fi : list nat := [0; 1; 2; 3; 1; 0; 3; 2; 2; 0; 3; 1; 3; 1; 2; 0]%nat.
  (** 86-145 *)
  Definition cube_3 (t : container) (j : nat) : res container :=
    if negb (length state =? 8)%nat then Throw
    else
      let* h := hang j in
      if negb h then Ok t
      else
        let* n1 := at_ fi (4 * j + 1) in let* n2 := at_ fi (4 * j + 2) in let* n3 := at_ fi (4 * j + 3) in
        let* h1 := hang n1 in
        if h1 then
          let* h2 := hang n2 in
          if h2 then contribute j n3 (/ 4)%R t
          else contribute j n2 (/ 2)%R t
        else contribute j n1 (/ 2)%R t.
  (** 147-168 (cubes, four vertices), 273-293 (triangles, three vertices); 1-j of unsigned numbers wraps around *)
  Definition flat_2 (vertices : nat) (t : container) (j : nat) : res container :=
    if negb (length state =? vertices)%nat then Throw
    else
      let* h := hang j in
      if negb h then Ok t
      else if (1 <? j)%nat then UB
      else let* h' := hang (1 - j) in if h' then Throw else contribute j (1 - j) (/ 2)%R t.
  (** 248-272; the row grows with every neighbor that is not hanging *)
  Definition simplex_3 (t : container) (j : nat) : res container :=
    if negb (length state =? 4)%nat then Throw
    else
      let* h := hang j in
      if negb h then Ok t
      else
        let* st := foldM (fun (st : row * container) k =>
            let n := ((j + k) mod 3)%nat in
            let* hn := hang n in
            if hn then Ok st
            else let* gn := at_ gl n in let* gj := at_ gl j in
                 let c := put (dof gn) (/ 2)%R (fst st) in Ok (c, put (dof gj) c (snd st))) [1; 2]%nat ([], t) in
        Ok (snd st).
  Definition cube_assembler (t : container) : res container :=
    foldM (fun t j => match d with 3 => cube_3 t j | 2 => flat_2 4 t j | _ => Ok t end) (seq 0 (length m)) t.
  Definition simplex_assembler (t : container) : res container :=
    foldM (fun t j => match d with 3 => simplex_3 t j | 2 => flat_2 3 t j | _ => Ok t end) (seq 0 (length m)) t.
End Assembler.
Inductive shape := Cubes | Simplices.
Definition assembler (s : shape) := match s with Cubes => cube_assembler | Simplices => simplex_assembler end.

(** skeleton: hangingnode.hh 344-407, with the choice of the cell in assembleConstraints (47-62).  The constant dimension
    of the assemblers is mydimension of the intersection (42, 204), the dimension of the grid minus one. *)
Definition mydimension (H : hgeo) : nat := dim (hg H) - 1.
Definition face_hangs (H : hgeo) (t : table) (c fc : nat) : bool :=
  existsb (fun i => is_hanging (t (vertex H c i))) (closure (refel (hg H) c) fc (dim (hg H))).
Definition run (s : shape) (d : nat) (H : hgeo) (t : table) (dof : nat -> nat) (c fc : nat) (tr : container) : res container :=
  let m := closure (refel (hg H) c) fc d in
  assembler s d (hanging_nodes H t c) m (map (fun i => sub_index (hg H) c i d) m) dof tr.
Definition skeleton_with (d : nat) (s : shape) (H : hgeo) (t : table) (dof : nat -> nat) (c : nat) (f : face)
    (st : container * container) : res (container * container) :=
  let fe := inside_face (hg H) c f in
  let ff := outside_face H c f in
  let he := face_hangs H t c fe in
  let hf := face_hangs H t (outside f) ff in
  if he && hf then Ok st
  else if he then let* te := run s d H t dof c fe (fst st) in Ok (te, snd st)
  else if hf then let* tf := run s d H t dof (outside f) ff (snd st) in Ok (fst st, tf)
  else Ok st.
Definition skeleton (s : shape) (H : hgeo) := skeleton_with (mydimension H) s H.
(** The whole construction for one space of vertex DOFs: constraints.hh 588-678 with conforming.hh 53-92 on the boundary. *)
Definition hang_face (s : shape) (H : hgeo) (t : table) (dof : nat -> nat) (ci : nat -> nat) (e : env) (q : param)
    (ds : nat -> list ldof) (c : nat) (st : container * transformation) (f : face) : res (container * transformation) :=
  match classify e f with
  | Skeleton | Periodic =>
      if (outside f <? c)%nat then
        let* (cl, cln) := skeleton s H t dof c f (fst st, []) in Ok (cl, import ci cln (snd st))
      else Ok st
  | Boundary => let* cl := conforming_boundary (hg H) q c f (ds c) (fst st) in Ok (cl, snd st)
  | Processor => Ok st
  end.
Definition hang_cell (s : shape) (H : hgeo) t dof ci e q ds (cg : transformation) (c : cell) : res transformation :=
  let* (cl, cg') := foldM (hang_face s H t dof ci e q ds (cid c)) (faces c) ([], cg) in Ok (import ci cl cg').
Definition hang_build (s : shape) (H : hgeo) t dof ci e q ds (cells : list cell) : res transformation :=
  foldM (hang_cell s H t dof ci e q ds) cells cleared.
