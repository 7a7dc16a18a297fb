(** Model of addSolutionToVTKWriter: dune/pdelab/gridfunctionspace/vtk.hh (line numbers below refer to it) and
    finiteElement() of localfunctionspace.hh.

    Simplified: all spaces live on the grid view of the writer; the local vector is that of the cell (its caching is modelled
    in EsetModel); a writer is the list of data sets added to it.  Not modelled: addCellFunction and addVertexFunction,
    values of dataSetType() other than the two of its enumeration, the files. *)
From Coq Require Export String Reals.
From Coq Require Import Ascii DecimalString Decimal.
From Verif Require Export Common.
Local Open Scope R_scope.

Inductive kind := VertexData | CellData.
(** A leaf space with the solution on it.  [basis]: the values of the basis functions on a cell in a point, by component of
    the range; [coef]: the entries of the local vector; [contains]: whether the cell is in the entity set. *)
Record leaf := mkleaf { l_name : string; l_kind : kind; contains : nat -> bool;
                        basis : nat -> R -> list (nat -> R); coef : nat -> nat -> R }.
(** Leaf spaces, VectorGridFunctionSpaces (whose children are scalar leaves), other power and composite spaces. *)
Inductive space := SLeaf (l : leaf) | SVector (name : string) (k : kind) (children : list leaf)
                 | SNode (name : string) (children : list space).
Definition path := list nat.

(** size() of a leaf of the local function space: localfunctionspace.hh 101-115 *)
Definition size (l : leaf) (c : nat) (x : R) : nat := if contains l c then List.length (basis l c x) else 0%nat.
(** finiteElement(): localfunctionspace.hh 597-606, with the null pointer of unbindFiniteElement (713) outside the set; the
    values of its basis *)
Definition fe_values (l : leaf) (c : nat) (x : R) : res (list (nat -> R)) := if contains l c then Ok (basis l c x) else UB.

(** DGFTreeLeafFunction::evaluate: 196-214 *)
Definition leaf_evaluate (l : leaf) (c : nat) (x : R) : res (nat -> R) :=
  let y := fun _ => 0 in
  if (size l c x =? 0)%nat then Ok y
  else
    let* b := fe_values l c x in
    Ok (fold_left (fun y i => fun j => y j + coef l c i * nth i b (fun _ => 0) j) (seq 0 (size l c x)) y).
(** DGFTreeVectorFunction::evaluate: 295-315 *)
Definition vector_evaluate (ls : list leaf) (c : nat) (x : R) : res (nat -> R) :=
  foldM (fun y k =>
           match nth_error ls k with
           | None => UB
           | Some l =>
               let* b := fe_values l c x in
               Ok (fold_left (fun (y : nat -> R) i => fun j => if (j =? k)%nat then y j + coef l c i * nth i b (fun _ => 0) 0%nat else y j)
                             (seq 0 (size l c x)) y)
           end) (seq 0 (List.length ls)) (fun _ => 0).

Inductive func := FLeaf (l : leaf) | FVector (ls : list leaf).
Record dataset := mkset { d_name : string; d_kind : kind; d_func : func }.
(** evaluate of the function of a data set *)
Definition evaluate (f : func) : nat -> R -> res (nat -> R) :=
  match f with FLeaf l => leaf_evaluate l | FVector ls => vector_evaluate ls end.

(** DefaultFunctionNameGenerator: 337-409 *)
Record scheme := mkscheme { prefix : string; suffix : string; separator : string }.
Definition default_scheme : scheme := mkscheme "" "" "_".
Definition number (n : nat) : string := NilZero.string_of_uint (Nat.to_uint n).
(** 360-362 *)
Definition path_name (sep : string) (p : path) : string :=
  fold_left (fun s i => (s ++ (if (0 <? i)%nat then sep else "") ++ number (nth i p 0%nat))%string) (seq 0 (List.length p)) ""%string.
Definition is_empty (s : string) : bool := match s with EmptyString => true | _ => false end.
Definition component_name (g : scheme) (name : string) (p : path) : res string :=
  if is_empty name then
    if is_empty (prefix g) && is_empty (suffix g) then Throw
    else
      let s := (if negb (is_empty (prefix g)) then prefix g ++ separator g else "")%string in
      let s := (s ++ path_name (separator g) p)%string in
      Ok (if negb (is_empty (suffix g)) then s ++ separator g ++ suffix g else s)%string
  else Ok (prefix g ++ name ++ suffix g)%string.

(** The writer, and whether an exception was thrown. *)
Definition added := (list dataset * bool)%type.
(** add_to_vtk_writer: 438-452 *)
Definition add_set (g : scheme) (name : string) (k : kind) (f : func) (p : path) (w : list dataset) : added :=
  match component_name g name p with
  | Ok s => (w ++ [mkset s k f], false)
  | _ => (w, true)
  end.
(** The visitor with applyToTree: 413-555: leaf, and post after the children, which are not visited for vector spaces
    (422-432).  Exceptions end the traversal. *)
Fixpoint visit (g : scheme) (pred : path -> bool) (t : space) (p : path) (w : list dataset) : added :=
  match t with
  | SLeaf l => if pred p then add_set g (l_name l) (l_kind l) (FLeaf l) p w else (w, false)
  | SVector n k ls => if pred p then add_set g n k (FVector ls) p w else (w, false)
  | SNode _ ts =>
      (fix children ts i w : added :=
         match ts with
         | [] => (w, false)
         | t :: ts' => let '(w, thrown) := visit g pred t (p ++ [i]) w in
                       if thrown then (w, true) else children ts' (S i) w
         end) ts 0%nat w
  end.
(** addSolution, addSolutionToVTKWriter: 571-578, 645-690 *)
Definition add_solution (g : scheme) (pred : path -> bool) (t : space) (w : list dataset) : added := visit g pred t [] w.
