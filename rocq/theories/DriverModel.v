(** Model of the assembly sweep (dune/pdelab/gridoperator/default/assembler.hh 85-279) and of the classification of
    intersections (dune/pdelab/common/intersectiontype.hh 36-54).

    The grid is an arbitrary list of cells, each with an arbitrary list of intersections; the unique index of a cell
    is any number.  The sweep is modelled as the list of calls it makes on the assembler engine.  The local function
    spaces bound along the way are determined by the cells named in the calls. *)
From Verif Require Export Common.

(** IntersectionType: common/intersectiontype.hh 13-22. *)
Inductive itype := Processor | Skeleton | Boundary | Periodic.

(** An intersection as iterated from one cell: Dune's neighbor(), boundary(), the unique index of outside() and
    whether the partition type of outside() belongs to the entity set.  [fid] names the geometric face. *)
Record face := mkface { fid : nat; neighbor : bool; boundary : bool; outside : nat; outside_in : bool }.
Record cell := mkcell { cid : nat; faces : list face }.

(** What the sweep asks the engine and the entity set before or during the traversal. *)
Record env := mkenv { all_partitions : bool; skip_entity : cell -> bool; skip_intersection : cell -> face -> bool }.
Record flags := mkflags {
  uv_skeleton : bool; v_skeleton : bool; uv_boundary : bool; v_boundary : bool;
  uv_post : bool; v_post : bool; two_sided : bool }.

(** classifyIntersection: common/intersectiontype.hh 36-54; 1*neighbor + 2*boundary as enum value. *)
Definition base_type (f : face) : itype :=
  match neighbor f, boundary f with
  | false, false => Processor | true, false => Skeleton | false, true => Boundary | true, true => Periodic end.
Definition classify (e : env) (f : face) : itype :=
  match base_type f with
  | Skeleton => if all_partitions e then Skeleton else if outside_in f then Skeleton else Processor
  | Periodic => if all_partitions e then Periodic else if outside_in f then Periodic else Processor
  | t => t
  end.

(** The calls on the assembler engine, with the cell, the intersection and the intersection index they receive. *)
Inductive call :=
| OnBindV (c : cell) | AsmVVolume (c : cell) | OnBindUV (c : cell) | LoadInside (c : cell) | AsmUVVolume (c : cell)
| OnBindVOutside (c : cell) (f : face) (i : nat) | AsmVSkeleton (c : cell) (f : face) (i : nat)
| OnBindUVOutside (c : cell) (f : face) (i : nat) | LoadOutside (c : cell) (f : face) (i : nat)
| AsmUVSkeleton (c : cell) (f : face) (i : nat) | OnUnbindUVOutside (c : cell) (f : face) (i : nat)
| OnUnbindVOutside (c : cell) (f : face) (i : nat)
| AsmVBoundary (c : cell) (f : face) (i : nat) | AsmUVBoundary (c : cell) (f : face) (i : nat)
| AsmVProcessor (c : cell) (f : face) (i : nat) | AsmUVProcessor (c : cell) (f : face) (i : nat)
| AsmVPost (c : cell) | AsmUVPost (c : cell) | OnUnbindUV (c : cell) | OnUnbindV (c : cell).

(** One intersection: assembler.hh 164-252.  require_uv_processor and require_v_processor are initialised from the
    boundary flags (116-117). *)
Definition face_calls (e : env) (fl : flags) (c : cell) (i : nat) (f : face) : list call :=
  match classify e f with
  | Skeleton | Periodic =>
      if uv_skeleton fl || v_skeleton fl then
        if (outside f <? cid c) || two_sided fl then
          OnBindVOutside c f i :: AsmVSkeleton c f i ::
          (if uv_skeleton fl then
             [OnBindUVOutside c f i; LoadOutside c f i; AsmUVSkeleton c f i; OnUnbindUVOutside c f i] else [])
          ++ [OnUnbindVOutside c f i]
        else []
      else []
  | Boundary =>
      if uv_boundary fl || v_boundary fl then
        AsmVBoundary c f i :: (if uv_boundary fl then [AsmUVBoundary c f i] else []) else []
  | Processor =>
      if uv_boundary fl || v_boundary fl then
        AsmVProcessor c f i :: (if uv_boundary fl then [AsmUVProcessor c f i] else []) else []
  end.

(** The loop over intersections: assembler.hh 156-255; the [continue] for a skipped intersection (161-162) jumps over
    the increment of the index (254). *)
Fixpoint faces_calls (e : env) (fl : flags) (c : cell) (i : nat) (fs : list face) : list call :=
  match fs with
  | [] => []
  | f :: fs' =>
      if skip_intersection e c f then faces_calls e fl c i fs'
      else face_calls e fl c i f ++ faces_calls e fl c (S i) fs'
  end.

(** One cell: assembler.hh 127-274. *)
Definition cell_calls (e : env) (fl : flags) (c : cell) : list call :=
  if skip_entity e c then []
  else
    [OnBindV c; AsmVVolume c; OnBindUV c; LoadInside c; AsmUVVolume c]
    ++ (if uv_skeleton fl || v_skeleton fl || uv_boundary fl || v_boundary fl
        then faces_calls e fl c 0 (faces c) else [])
    ++ (if uv_post fl || v_post fl then AsmVPost c :: (if uv_post fl then [AsmUVPost c] else []) else [])
    ++ [OnUnbindUV c; OnUnbindV c].

(** The whole sweep between preAssembly and postAssembly: assembler.hh 125-276. *)
Definition sweep (e : env) (fl : flags) (cells : list cell) : list call := flat_map (cell_calls e fl) cells.
