(** C44, C45: binding a local function space to an element. *)
From Verif Require Import LfsModel LfsSpec LfsProofs CommonFacts.

(** C44.  Whatever the tree held before (offsets and sizes of an earlier bind), binding to any element, in fast or regular
    mode, keeps the tree, and the leaves in depth-first order occupy consecutive ranges starting at 0 whose sizes are
    those of their finite elements (0 outside the entity set) and which add up to size(). *)
Theorem c44_ranges : forall fast e t a t' a', bind_to fast e (t, a) = Ok (t', a') ->
  map (fun x => (path x, fe x)) (leaves t') = map (fun x => (path x, fe x)) (leaves t) /\ NoDup (map path (leaves t')) /\
  tiles 0 (leaves t') /\ size t' = total (leaves t') /\ offset t' = 0 /\
  (forall x, In x (leaves t') -> len x = if inside (fe x e) then (if fast then maxlocal (fe x e) else basis (fe x e)) else 0).
Proof.
  intros fast e t a t' a' B. unfold bind_to in B. apply bind_ok in B. destruct B as (a1 & _ & B). injection B as <- _. cbn [fst].
  destruct (compute_spec fast e t 0) as (A1 & A2 & A3 & A4 & A5 & A6). repeat split; auto. apply leaves_paths.
Qed.
Print Assumptions c44_ranges.

(** C44.  Every local index below size() is localIndex(i) of exactly one leaf and exactly one i below the leaf's size,
    and no other index is. *)
Theorem c44_local_index : forall fast e t a t' a', bind_to fast e (t, a) = Ok (t', a') ->
  (forall j, j < size t' -> exists p s i, node_at t' p = Some s /\ (exists o n f, s = Leaf o n f) /\ i < size s /\ local_index s i = j /\
     forall p' s' i', node_at t' p' = Some s' -> (exists o n f, s' = Leaf o n f) -> i' < size s' -> local_index s' i' = j -> p' = p /\ i' = i) /\
  (forall p s i, node_at t' p = Some s -> i < size s -> local_index s i < size t').
Proof. exact local_index_bijective. Qed.
Print Assumptions c44_local_index.

(** C44.  The range of an inner node is the union of the ranges of its leaves: its leaves are consecutive among the leaves
    of the tree, its offset is the number of DOFs before them and its size is the number of DOFs in them. *)
Theorem c44_nodes : forall fast e t a t' a', bind_to fast e (t, a) = Ok (t', a') -> forall p s, node_at t' p = Some s ->
  exists before after, leaves t' = before ++ map (fun l => mkleaf (p ++ path l) (start l) (len l) (fe l)) (leaves s) ++ after /\
    offset s = total before /\ size s = total (leaves s).
Proof.
  intros fast e t a t' a' B p s N. unfold bind_to in B. apply bind_ok in B. destruct B as (a1 & _ & B). injection B as <- _. cbn [fst] in N.
  exact (node_spec fast e p t 0 s N).
Qed.
Print Assumptions c44_nodes.

(** C45.  A regular bind succeeds when the array is large enough (maxLocalSize()), whatever the array and the tree held;
    DOF i of a leaf then carries the entity and the number of its i-th coefficient and the path to the leaf, reversed, and
    entries past size() are unchanged. *)
Theorem c45_dof_indices : forall e t a, consistent e t ->
  sum_nat (map (fun x => if inside (fe x e) then basis (fe x e) else 0) (leaves t)) <= length a ->
  exists t' a', bind_to false e (t, a) = Ok (t', a') /\ length a' = length a /\ skipn (size t') a' = skipn (size t') a /\
    forall p o n f i g x k, node_at t' p = Some (Leaf o n f) -> inside (f e) = true -> nth_error (locals (f e)) i = Some (g, x, k) ->
      i < n /\ nth_error a' (local_index (Leaf o n f) i) = Some (mkdof g x (k :: rev p)).
Proof. exact dof_indices_spec. Qed.
Print Assumptions c45_dof_indices.

(** C45.  The DOF indices of a bound space are pairwise distinct when no finite element attaches two coefficients to the
    same entity under the same number. *)
Theorem c45_distinct : forall e t a t' a', consistent e t -> size t' <= length a ->
  (forall x, In x (leaves t) -> inside (fe x e) = true -> NoDup (locals (fe x e))) ->
  bind_to false e (t, a) = Ok (t', a') -> NoDup (firstn (size t') a').
Proof. exact dof_indices_distinct. Qed.
Print Assumptions c45_distinct.

(** C45.  The path to its leaf is recovered from a DOF index, by dropping the first entry of the tree index and reversing. *)
Theorem c45_recovers_leaf : forall e t a t' a' j d, consistent e t -> size t' <= length a -> bind_to false e (t, a) = Ok (t', a') ->
  j < size t' -> nth_error a' j = Some d ->
  exists o n f, node_at t' (rev (tl (ti d))) = Some (Leaf o n f) /\ o <= j < o + n /\
    nth_error (locals (f e)) (j - o) = Some (gt d, ei d, hd 0 (ti d)).
Proof. exact dof_index_recovers. Qed.
Print Assumptions c45_recovers_leaf.

(** C44, C45.  After any history of binds, the ranges and the DOF indices are those of binding a fresh space. *)
Theorem c45_history : forall es e t a a0, (forall e', In e' (e :: es) -> consistent e' t /\
    sum_nat (map (fun x => if inside (fe x e') then basis (fe x e') else 0) (leaves t)) <= length a) -> length a0 = length a ->
  exists s t' a1 a2, foldM (fun s e => bind_to false e s) es (t, a) = Ok s /\ bind_to false e s = Ok (t', a1) /\
    bind_to false e (t, a0) = Ok (t', a2) /\ firstn (size t') a1 = firstn (size t') a2.
Proof. exact bind_history. Qed.
Print Assumptions c45_history.

(** A Taylor-Hood like space: two copies of a quadratic leaf under one node and a linear one. *)
Definition quad (e : nat) : element := mkfe true 3 3 1 e [(0, e, 0); (1, e, 0); (0, S e, 0)].
Definition lin (e : nat) : element := mkfe (e <? 5) 2 2 1 e [(0, e, 0); (0, S e, 0)].
Definition th : lfs := Inner 7 9 [Inner 1 1 [Leaf 4 4 quad; Leaf 0 0 quad]; Leaf 2 2 lin].
Example c44_meets : exists t' a', bind_to false 3 (th, repeat (mkdof 9 9 [1; 2; 3; 4]) 10) = Ok (t', a') /\ size t' = 8 /\ consistent 3 th /\
  (forall x, In x (leaves th) -> inside (fe x 3) = true -> NoDup (locals (fe x 3))) /\
  firstn 8 a' = [mkdof 0 3 [0; 0; 0]; mkdof 1 3 [0; 0; 0]; mkdof 0 4 [0; 0; 0]; mkdof 0 3 [0; 1; 0]; mkdof 1 3 [0; 1; 0]; mkdof 0 4 [0; 1; 0];
    mkdof 0 3 [0; 1]; mkdof 0 4 [0; 1]].
Proof.
  eexists; eexists; split; [reflexivity|]. split; [reflexivity|]. split; [|split].
  - intros x I. repeat (destruct I as [<-|I]; [intros _; reflexivity|]). destruct I.
  - intros x I. repeat (destruct I as [<-|I]; [intros _; repeat constructor; cbn; intuition discriminate|]). destruct I.
  - reflexivity.
Qed.

(** C45, finding: in fast mode only the first DOF index of each leaf is written, to the leaf's first position even when the
    leaf contributes no DOFs, so a leaf without DOFs on the element writes past the range of the whole space. *)
Theorem c45_fast_empty_leaf_refuted : exists e t a, sum_nat (map (fun x => leaf_size true (fe x e)) (leaves t)) <= length a /\
  consistent e t /\ bind_to true e (t, a) = UB.
Proof.
  exists 0, (Inner 0 0 [Leaf 0 0 (fun _ => mkfe true 1 1 0 0 [(0, 0, 0)]); Leaf 0 0 (fun _ => mkfe true 0 0 0 0 [])]), [mkdof 0 0 []].
  split; [cbn; lia|]. split; [|reflexivity]. intros x I. destruct I as [<-|[<-|[]]]; reflexivity.
Qed.
Print Assumptions c45_fast_empty_leaf_refuted.
