(** C28: faces and cells are visited the right number of times.  C29: the face index. *)
From Verif Require Import DriverModel DriverSpec DriverProofs.

Theorem c28_interior_faces_partial : forall e fl (uv : bool) cells F c1 f1 c2 f2,
  interior_face e cells F c1 f1 c2 f2 -> kept e (c1, f1) -> kept e (c2, f2) ->
  (if uv then uv_skeleton fl = true else uv_skeleton fl || v_skeleton fl = true) ->
  (two_sided fl = false ->
     visits uv KSkeleton F (sweep e fl cells) = [if cid c2 <? cid c1 then (c1, f1) else (c2, f2)]) /\
  (two_sided fl = true -> Permutation (visits uv KSkeleton F (sweep e fl cells)) [(c1, f1); (c2, f2)]).
Proof. exact interior_once. Qed.
Print Assumptions c28_interior_faces_partial.

Theorem c28_boundary_faces : forall e fl (uv : bool) cells F c f,
  boundary_face cells F c f -> kept e (c, f) ->
  (if uv then uv_boundary fl = true else uv_boundary fl || v_boundary fl = true) ->
  visits uv KBoundary F (sweep e fl cells) = [(c, f)].
Proof. exact boundary_once. Qed.
Print Assumptions c28_boundary_faces.

Theorem c28_processor_faces : forall e fl (uv : bool) cells F c f,
  processor_face e cells F c f -> kept e (c, f) ->
  (if uv then uv_boundary fl = true else uv_boundary fl || v_boundary fl = true) ->
  visits uv KProcessor F (sweep e fl cells) = [(c, f)].
Proof. exact processor_once. Qed.
Print Assumptions c28_processor_faces.

Theorem c28_nothing_else_visited : forall e fl uv k cells c f,
  In (c, f) (faces_visited uv k (sweep e fl cells)) ->
  In c cells /\ In f (faces c) /\ kept e (c, f) /\
  match k with
  | KSkeleton => neighbor f = true /\ (all_partitions e = true \/ outside_in f = true)
  | KBoundary => neighbor f = false /\ boundary f = true
  | KProcessor => neighbor f = false /\ boundary f = false \/
                  neighbor f = true /\ all_partitions e = false /\ outside_in f = false
  | _ => False
  end.
Proof. exact visited_type. Qed.
Print Assumptions c28_nothing_else_visited.

Theorem c28_volumes : forall e fl (uv : bool) cells,
  cells_visited uv KVolume (sweep e fl cells) = filter (fun c => negb (skip_entity e c)) cells /\
  ((if uv then uv_post fl = true else uv_post fl || v_post fl = true) ->
   cells_visited uv KPost (sweep e fl cells) = filter (fun c => negb (skip_entity e c)) cells).
Proof. intros. split; [apply volumes_once|apply posts_once]. Qed.
Print Assumptions c28_volumes.

(** A periodic face of a cell onto itself is never presented to one-sided skeleton terms. *)
Theorem c28_periodic_self_neighbour_refuted : exists e fl cells F c f,
  seen_as F cells [(c, f); (c, f)] /\ kept e (c, f) /\ neighbor f = true /\ outside f = cid c /\
  uv_skeleton fl = true /\ two_sided fl = false /\ visits true KSkeleton F (sweep e fl cells) = [].
Proof.
  exists (fst (no_skip false)), (snd (no_skip false)), ring1, 7, (mkcell 0 [mkface 7 true true 0 true; mkface 7 true true 0 true]),
    (mkface 7 true true 0 true).
  repeat split; try reflexivity. apply Permutation_refl.
Qed.
Print Assumptions c28_periodic_self_neighbour_refuted.

Example c28_strip : let (e, fl) := no_skip false in
  (exists c1 f1 c2 f2, interior_face e strip 1 c1 f1 c2 f2 /\ kept e (c1, f1) /\ kept e (c2, f2)) /\
  (exists c f, boundary_face strip 3 c f) /\
  map (fun s => (cid (fst s), fid (snd s))) (faces_visited true KSkeleton (sweep e fl strip)) = [(5, 1); (9, 2)].
Proof.
  cbn [no_skip fst snd]. split; [|split; [|reflexivity]].
  - do 4 eexists. unfold interior_face, seen_as, kept. split; [|split; split; reflexivity]. split; [apply Permutation_refl|].
    cbn. repeat split; try reflexivity; auto; discriminate.
  - do 2 eexists. unfold boundary_face, seen_as. split; [apply Permutation_refl|]. split; reflexivity.
Qed.

(** C29 *)
Theorem c29_face_index_partial : forall e fl cells x c f i,
  In x (sweep e fl cells) -> face_arg x = Some (c, f, i) ->
  (forall g, In g (faces c) -> skip_intersection e c g = false) ->
  In c cells /\ nth_error (faces c) i = Some f.
Proof. exact face_index. Qed.
Print Assumptions c29_face_index_partial.

(** A skipped intersection shifts the index of the following ones. *)
Theorem c29_skipped_intersection_refuted : exists e fl cells x c f i,
  In x (sweep e fl cells) /\ face_arg x = Some (c, f, i) /\ nth_error (faces c) i <> Some f.
Proof.
  exists (mkenv true (fun _ => false) (fun _ f => fid f =? 0)), (mkflags true true true true true true false), strip.
  set (c := mkcell 5 [mkface 0 false true 0 false; mkface 1 true false 3 true]).
  exists (AsmUVSkeleton c (mkface 1 true false 3 true) 0), c, (mkface 1 true false 3 true), 0.
  split; [|split; [reflexivity|discriminate]]. cbn. repeat (first [left; reflexivity | right]).
Qed.
Print Assumptions c29_skipped_intersection_refuted.

Example c29_meets : let (e, fl) := no_skip true in
  exists x c f, In x (sweep e fl strip) /\ face_arg x = Some (c, f, 1) /\ fid f = 2.
Proof.
  cbn [no_skip]. set (c := mkcell 3 [mkface 1 true false 5 true; mkface 2 true false 9 true]).
  exists (AsmUVSkeleton c (mkface 2 true false 9 true) 1), c, (mkface 2 true false 9 true).
  split; [|split; reflexivity]. cbn. repeat (first [left; reflexivity | right]).
Qed.
