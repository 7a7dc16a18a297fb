(** What a sweep should visit. *)
From Verif Require Import DriverModel.

(** The kinds of integrals an engine is asked for. *)
Inductive kind := KVolume | KSkeleton | KBoundary | KProcessor | KPost.

(** The cells (resp. cell/face pairs) presented to trial+test ([uv = true]) or test-only terms of a kind. *)
Definition cell_visit (uv : bool) (k : kind) (x : call) : list cell :=
  match x, uv, k with
  | AsmUVVolume c, true, KVolume | AsmVVolume c, false, KVolume
  | AsmUVPost c, true, KPost | AsmVPost c, false, KPost => [c]
  | _, _, _ => []
  end.
Definition face_visit (uv : bool) (k : kind) (x : call) : list (cell * face) :=
  match x, uv, k with
  | AsmUVSkeleton c f _, true, KSkeleton | AsmVSkeleton c f _, false, KSkeleton
  | AsmUVBoundary c f _, true, KBoundary | AsmVBoundary c f _, false, KBoundary
  | AsmUVProcessor c f _, true, KProcessor | AsmVProcessor c f _, false, KProcessor => [(c, f)]
  | _, _, _ => []
  end.
Definition cells_visited uv k (l : list call) : list cell := flat_map (cell_visit uv k) l.
Definition faces_visited uv k (l : list call) : list (cell * face) := flat_map (face_visit uv k) l.
(** ... for one geometric face *)
Definition visits uv k F l : list (cell * face) := filter (fun s => fid (snd s) =? F) (faces_visited uv k l).

(** All the ways the intersections of a grid are seen from its cells. *)
Definition slots (cells : list cell) : list (cell * face) := flat_map (fun c => map (pair c) (faces c)) cells.
Definition seen_as (F : nat) (cells : list cell) (l : list (cell * face)) : Prop :=
  Permutation (filter (fun s => fid (snd s) =? F) (slots cells)) l.

Definition kept (e : env) (s : cell * face) : Prop :=
  skip_entity e (fst s) = false /\ skip_intersection e (fst s) (snd s) = false.

(** Face [F] lies between two different cells of the entity set, each of which names the other as neighbour. *)
Definition interior_face (e : env) (cells : list cell) (F : nat) (c1 : cell) (f1 : face) (c2 : cell) (f2 : face) : Prop :=
  seen_as F cells [(c1, f1); (c2, f2)] /\
  cid c1 <> cid c2 /\ outside f1 = cid c2 /\ outside f2 = cid c1 /\
  neighbor f1 = true /\ neighbor f2 = true /\
  (all_partitions e = true \/ outside_in f1 = true /\ outside_in f2 = true).

(** Face [F] is a domain boundary face of one cell. *)
Definition boundary_face (cells : list cell) (F : nat) (c : cell) (f : face) : Prop :=
  seen_as F cells [(c, f)] /\ neighbor f = false /\ boundary f = true.

(** Face [F] is on the border of the part of the grid this process assembles: no neighbour and no boundary, or the
    neighbour is outside the entity set. *)
Definition processor_face (e : env) (cells : list cell) (F : nat) (c : cell) (f : face) : Prop :=
  seen_as F cells [(c, f)] /\
  (neighbor f = false /\ boundary f = false \/
   neighbor f = true /\ all_partitions e = false /\ outside_in f = false).

(** The face and face index handed to an operator. *)
Definition face_arg (x : call) : option (cell * face * nat) :=
  match x with
  | AsmUVSkeleton c f i | AsmVSkeleton c f i | AsmUVBoundary c f i | AsmVBoundary c f i
  | AsmUVProcessor c f i | AsmVProcessor c f i => Some (c, f, i)
  | _ => None
  end.
