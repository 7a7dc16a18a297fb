(** Properties C36-C38: splits of entity sets, coloured partitions, marking of the halo. *)
From Verif Require Import Common CommonFacts PartModel PartSpec PartProofs PartProofs2 PartProofs3
  PartProofs4 PartProofs5.

(** A line of [n] elements: element [i] has itself and the vertices [n+i], [n+i+1] as sub-entities. *)
Definition line (n : nat) : mesh :=
  Mesh n (n + n + 1) (fun i => if i <? n then [i; n + i; n + i + 1] else [])
    (fun i => (if 0 <? i then [i - 1] else []) ++ (if i + 1 <? n then [i + 1] else [])).

Lemma line_ok n : mesh_ok (line n).
Proof.
  intros e s H. cbn [subs line] in H. cbn [n_sub line].
  destruct (e <? n) eqn:E; [|destruct H]. apply Nat.ltb_lt in E. cbn in H.
  destruct H as [<-|[<-|[<-|[]]]]; lia.
Qed.

(** ** C36 *)

(** After construction and any sequence of updates an iterator split of the current entity set has
    the requested number of patches (for request 0: one patch per 125, 250 or 500 elements of the
    entity set of the construction, at least one).  The patches in order are the entity set in order,
    so they are disjoint and cover it exactly once, and the first [n mod q] of them have one element
    more than the others. *)
Theorem c36_iterator_split : forall A dim patches (es : list A) updates,
  let now := last updates es in
  let n := length now in
  exists q ps,
    split_history dim patches es updates = Ok (q, ps)
    /\ (patches <> 0 -> q = patches)
    /\ (patches = 0 ->
        q = Nat.max 1 (length es / (if dim =? 1 then 125 else if dim =? 2 then 250 else 500)))
    /\ length ps = q
    /\ concat ps = now
    /\ (forall i, i < q -> length (nth i ps []) = n / q + (if i <? n mod q then 1 else 0)).
Proof.
  intros A dim patches es us now n.
  destruct (split_history_spec dim patches es us) as (ps & H1 & H2).
  set (q := choose_patches dim patches (length es)) in *.
  destruct (split_set_spec (last us es) q (choose_pos _ _ _)) as (ps' & E & P1 & P2 & P3).
  assert (ps' = ps) by congruence. subst ps'.
  exists q, ps. split; [exact H1|]. repeat split; auto.
  - intro N. apply choose_fix. lia.
  - intros ->. unfold q, choose_patches. cbn [Nat.eqb]. f_equal.
    destruct dim as [|[|[|dim]]]; reflexivity.
Qed.
Print Assumptions c36_iterator_split.

(** Sizes of two patches of an iterator split differ by at most one, and earlier patches are not
    smaller. *)
Theorem c36_balanced : forall A dim patches (es : list A) updates q ps i j,
  split_history dim patches es updates = Ok (q, ps) -> i <= j < length ps ->
  length (nth j ps []) <= length (nth i ps []) <= length (nth j ps []) + 1.
Proof.
  intros A dim patches es us q ps i j H L.
  destruct (c36_iterator_split A dim patches es us) as (q' & ps' & E & _ & _ & P1 & _ & P3).
  rewrite H in E. injection E as <- <-. subst q. rewrite !P3 by lia.
  destruct (i <? _) eqn:Ei; destruct (j <? _) eqn:Ej; lia.
Qed.
Print Assumptions c36_balanced.

(** The identity partition: one label with one patch that holds every element of the entity set once, in order. *)
Theorem c36_identity : forall A (es : list A),
  length (identity_set es) = 1 /\ concat (concat (identity_set es)) = es /\ Permutation (concat (concat (identity_set es))) es.
Proof. intros. unfold identity_set. cbn. rewrite app_nil_r. auto. Qed.
Print Assumptions c36_identity.

(** The METIS partition: whatever part number in range the graph partitioner gives to each element,
    every element is in the patch with that number and nowhere else, in the order of the entity
    set. *)
Theorem c36_metis : forall A dim part patches (es : list A) updates,
  (forall p l, length (part p l) = length l /\ Forall (fun k => k < p) (part p l)) ->
  let now := last updates es in
  exists q ps,
    metis_history dim part patches es updates = Ok (q, ps)
    /\ (patches <> 0 -> q = patches)
    /\ length ps = q
    /\ Permutation (concat ps) now
    /\ (1 < q -> forall k, k < q ->
          nth k ps [] = map fst (filter (fun x => snd x =? k) (combine now (part q now)))).
Proof.
  intros A dim part patches es us HP now.
  set (q := choose_patches dim patches (length es)).
  assert (Hq : 0 < q) by apply choose_pos.
  assert (Step : forall st u, choose_patches dim (fst st) (length u) = q ->
    exists ps, metis_update dim part st u = Ok (q, ps) /\ length ps = q /\ Permutation (concat ps) u
      /\ (1 < q -> forall k, k < q -> nth k ps [] = part_elems u (part q u) k)).
  { intros st u E. unfold metis_update. rewrite E. destruct (q =? 1) eqn:F.
    - apply Nat.eqb_eq in F. exists [u]. rewrite F. split; [reflexivity|]. split; [reflexivity|].
      split; [cbn; now rewrite app_nil_r|lia].
    - destruct (HP q u) as [L R]. destruct (metis_spec q u (part q u) L R) as (r & -> & L1 & L2 & L3).
      cbn [bind]. exists r. auto. }
  assert (All : forall us st, choose_patches dim (fst st) (length (hd es us)) = q -> us <> [] ->
    exists ps, foldM (metis_update dim part) us st = Ok (q, ps) /\ length ps = q
      /\ Permutation (concat ps) (last us es)
      /\ (1 < q -> forall k, k < q -> nth k ps [] = part_elems (last us es) (part q (last us es)) k)).
  { induction us0 as [|u us0 IH]; intros st E NE; [congruence|]. cbn [hd] in E.
    destruct (Step st u E) as (ps & E1 & E2 & E3 & E4). cbn [foldM]. rewrite E1. cbn [bind].
    destruct us0 as [|u' us0].
    - cbn [foldM last]. eauto.
    - change (last (u :: u' :: us0) es) with (last (u' :: us0) es). apply IH; [|discriminate].
      cbn [fst]. apply choose_fix. auto. }
  destruct (All (es :: us) (patches, [])) as (ps & E1 & E2 & E3 & E4); [reflexivity|discriminate|].
  assert (El : last (es :: us) es = now).
  { unfold now. destruct us; reflexivity. }
  rewrite El in E3, E4. exists q, ps. split; [exact E1|]. split; [|auto].
  intro N. apply choose_fix. lia.
Qed.
Print Assumptions c36_metis.

Example c36_meets :
  split_history 2 3 [10; 11] [[0; 1; 2; 3; 4; 5; 6; 7]] = Ok (3, [[0; 1; 2]; [3; 4; 5]; [6; 7]])
  /\ split_history 2 3 [10; 11] [] = Ok (3, [[10]; [11]; []])
  /\ metis_history 2 (fun p l => map (fun x => x mod p) l) 2 [0; 1; 2; 3; 4] []
     = Ok (2, [[0; 2; 4]; [1; 3]]).
Proof. repeat split; reflexivity. Qed.

(** The number of patches of the automatic choice belongs to the first entity set: it is not chosen
    again when a later update brings a larger one (whereas the coloured split chooses it again). *)
Theorem c36_automatic_count_is_kept : forall A dim (es : list A) updates q ps,
  split_history dim 0 es updates = Ok (q, ps) -> length es < 250 -> 1 < dim -> q = 1.
Proof.
  intros A dim es us q ps H L D.
  destruct (c36_iterator_split A dim 0 es us) as (q' & ps' & E & _ & C & _).
  rewrite H in E. injection E as <- <-. rewrite (C eq_refl).
  destruct (dim =? 1) eqn:E1; [apply Nat.eqb_eq in E1; lia|].
  assert (length es / (if dim =? 2 then 250 else 500) = 0).
  { apply Nat.div_small. destruct (dim =? 2); lia. }
  rewrite H0. reflexivity.
Qed.
Print Assumptions c36_automatic_count_is_kept.

(** ** C37 *)

(** A coloured partition that is returned has these properties: every patch of the base partition
    appears exactly once; two different patches of one label never touch a common sub-entity within
    the halo distance; no label is empty; there are at most as many labels as the largest number of
    conflicting patches plus one. *)
Theorem c37_colored : forall m h base labels,
  mesh_ok m ->
  colored_update m (Dist h) base = Ok labels ->
  Permutation (concat labels) (concat base)
  /\ (forall x i j p q, i <> j ->
        patch_of (nth x labels []) i p -> patch_of (nth x labels []) j q -> ~ conflict m h p q)
  /\ (concat base <> [] -> forall label, In label labels -> label <> [])
  /\ (forall D, (forall i l, conflicting m h (concat base) i l -> length l <= D) ->
        length labels <= D + 1).
Proof.
  intros m h base labels M E. destruct (colored_cases m h base M) as [D|D].
  - destruct (colored_ok m h base M D) as (l & E' & P). assert (l = labels) by congruence.
    subst l. exact P.
  - rewrite colored_throw in E by auto. discriminate.
Qed.
Print Assumptions c37_colored.

(** The colouring succeeds whenever every patch is in conflict with at most 253 others, whatever the
    mesh, the base partition and the distance. *)
Theorem c37_succeeds : forall m h base,
  mesh_ok m ->
  (forall i l, conflicting m h (concat base) i l -> length l <= 253) ->
  exists labels, colored_update m (Dist h) base = Ok labels.
Proof.
  intros m h base M B. destruct (colored_ok m h base M) as (l & E & _); [|eauto].
  intros v Hv. specialize (B v _ (others_conflicting m h (concat base) v M)).
  destruct (make_graph_spec m h (concat base) M) as (_ & G2 & _).
  pose proof (filter_not_length v _ (inc_nodup _ _ (G2 v))). unfold max_degree. lia.
Qed.
Print Assumptions c37_succeeds.

(** With more than 254 conflicting patches the constructor throws; it never has undefined behaviour
    (no queue entry is missed, no colour index out of range) and always ends. *)
Theorem c37_limit : forall m d base,
  mesh_ok m ->
  colored_update m d base <> UB
  /\ (d = AllOverlap -> colored_update m d base = Throw)
  /\ (d = AllInterior -> colored_update m d base = Ok [concat base])
  /\ (forall h i l, d = Dist h -> conflicting m h (concat base) i l -> 255 <= length l ->
        colored_update m d base = Throw).
Proof.
  intros m d base M. split; [|split; [|split]].
  - destruct d as [h| |]; try discriminate. destruct (colored_cases m h base M) as [D|D].
    + destruct (colored_ok m h base M D) as (l & -> & _). discriminate.
    + rewrite colored_throw by auto. discriminate.
  - intros ->. reflexivity.
  - intros ->. reflexivity.
  - intros h i l -> C L. apply colored_throw; auto. exists i. split.
    + destruct C as [N C]. destruct l as [|j l]; [cbn in L; lia|].
      destruct (proj1 (C j) (or_introl eq_refl)) as (_ & p & q & Hp & _).
      apply nth_error_Some. unfold patch_of in Hp. congruence.
    + rewrite (conflicting_unique _ _ _ _ _ _ C (others_conflicting m h (concat base) i M)) in L.
      pose proof (filter_length_le (fun j => negb (i =? j)) (nth i (make_graph m h (concat base)) [])).
      unfold max_degree. lia.
Qed.
Print Assumptions c37_limit.

(** The coloured iterator split: the elements of all patches of all labels are those of the entity
    set, each exactly once, and concurrently processed patches are free of conflicts. *)
Theorem c37_colored_split : forall m h dim patches es labels,
  mesh_ok m ->
  colored_split m (Dist h) dim patches es = Ok labels ->
  Permutation (concat (concat labels)) es
  /\ (forall x i j p q, i <> j ->
        patch_of (nth x labels []) i p -> patch_of (nth x labels []) j q -> ~ conflict m h p q).
Proof.
  intros m h dim patches es labels M E. unfold colored_split, split_update in E. cbn [fst] in E.
  destruct (split_set_spec es (choose_patches dim patches (length es)) (choose_pos _ _ _))
    as (ps & E1 & _ & E2 & _).
  rewrite E1 in E. cbn [bind snd] in E. apply c37_colored in E as (P & C & _); auto.
  split; [|exact C]. cbn [concat] in P. rewrite app_nil_r in P. rewrite <- E2.
  clear -P. induction P; cbn [concat]; auto.
  - now apply Permutation_app_head.
  - rewrite !app_assoc. apply Permutation_app_tail, Permutation_app_comm.
  - etransitivity; eauto.
Qed.
Print Assumptions c37_colored_split.

(** Eight elements in four patches: two colours at distance 0, three at distance 1. *)
Example c37_meets :
  colored_split (line 8) (Dist 0) 1 4 (seq 0 8) = Ok [[[0; 1]; [4; 5]]; [[2; 3]; [6; 7]]]
  /\ colored_split (line 8) (Dist 1) 1 4 (seq 0 8) = Ok [[[4; 5]]; [[2; 3]]; [[0; 1]; [6; 7]]]
  /\ colored_update (line 3) (Dist 0) [[[0]; [1]; []]; [[2]]] = Ok [[[1]; []]; [[0]; [2]]].
Proof. repeat split; vm_compute; reflexivity. Qed.

(** ** C38 *)

(** For every order of the concurrent accesses, an element is reported as Overlap exactly if one of
    its sub-entities is within the halo distance of another patch of its label. *)
Theorem c38_halo : forall m h labels r e,
  mesh_ok m -> e < n_elem m ->
  update_halo m (Dist h) labels r ->
  exists reg, halo_region (Dist h) r e = Ok reg
    /\ (reg = Overlap <-> exists label, In label labels /\ shared m h label e).
Proof.
  intros m h labels r e M He (halo & R & ->). cbn [halo_region].
  destruct (labels_run_spec m h labels _ _ M R) as (L & S). rewrite repeat_length in L, S.
  specialize (S e He). rewrite nth_repeat in S.
  rewrite (nth_error_nth' halo false) by lia. destruct (nth e halo false).
  - exists Overlap. split; [reflexivity|]. split; auto. intros _.
    destruct (proj1 S eq_refl) as [|]; [discriminate|auto].
  - exists Interior. split; [reflexivity|]. split; [discriminate|]. intro H.
    assert (false = true) by (apply S; now right). discriminate.
Qed.
Print Assumptions c38_halo.

(** The result does not depend on the schedule, and there always is one. *)
Theorem c38_schedule_independent : forall m d labels,
  mesh_ok m ->
  exists r, update_halo m d labels r /\ forall r', update_halo m d labels r' -> r' = r.
Proof.
  intros m d labels M. destruct d as [h| |]; cbn [update_halo]; try (exists None; split; auto; fail).
  destruct (labels_run_total m h labels (repeat false (n_elem m))) as (halo & R).
  exists (Some halo). split; [eauto|]. intros r' (halo' & R' & ->). f_equal.
  destruct (labels_run_spec m h labels _ _ M R) as (L & S).
  destruct (labels_run_spec m h labels _ _ M R') as (L' & S').
  apply nth_ext with (d := false) (d' := false); [lia|].
  intros i Hi. rewrite L' in Hi. specialize (S i Hi). specialize (S' i Hi).
  destruct (nth i halo false), (nth i halo' false); intuition discriminate.
Qed.
Print Assumptions c38_schedule_independent.

(** What the halo is for: elements of different concurrent patches that have a common sub-entity are
    both reported as Overlap, at any distance; and with distance at least one so are elements of
    different concurrent patches that have a common neighbour. *)
Theorem c38_protects : forall m h labels r label i j p q e f,
  mesh_ok m ->
  (forall x y, In y (nbrs m x) -> exists s, In s (subs m x) /\ In s (subs m y)) ->
  update_halo m (Dist h) labels r ->
  In label labels -> i <> j -> patch_of label i p -> patch_of label j q ->
  In e p -> In f q -> e < n_elem m -> f < n_elem m ->
  (exists s, In s (subs m e) /\ In s (subs m f))
  \/ (1 <= h /\ exists x, In x (nbrs m e) /\ In x (nbrs m f)) ->
  halo_region (Dist h) r e = Ok Overlap /\ halo_region (Dist h) r f = Ok Overlap.
Proof.
  assert (Main : forall m h labels r label i j p q e f,
    mesh_ok m ->
    (forall x y, In y (nbrs m x) -> exists s, In s (subs m x) /\ In s (subs m y)) ->
    update_halo m (Dist h) labels r ->
    In label labels -> i <> j -> patch_of label i p -> patch_of label j q ->
    In e p -> In f q -> e < n_elem m ->
    (exists s, In s (subs m e) /\ In s (subs m f))
    \/ (1 <= h /\ exists x, In x (nbrs m e) /\ In x (nbrs m f)) ->
    halo_region (Dist h) r e = Ok Overlap).
  { intros m h labels r label i j p q e f M NS U Hl N Hp Hq He Hf Le H.
    destruct (c38_halo m h labels r e M Le U) as (reg & -> & S). f_equal. apply S.
    exists label. split; auto. destruct H as [(s & Se & Sf)|(Lh & x & Xe & Xf)].
    - exists i, j, p, q, s. repeat split; auto. exists f, f. repeat split; auto. constructor.
    - destruct (NS e x Xe) as (s & Se & Sx). exists i, j, p, q, s. repeat split; auto.
      exists f, x. repeat split; auto. destruct h as [|h]; [lia|]. econstructor; eauto. constructor. }
  intros. split.
  - eapply (Main m h labels r label i j p q e f); eauto.
  - eapply (Main m h labels r label j i q p f e); eauto.
    destruct H10 as [(s & ? & ?)|(? & x & ? & ?)]; eauto 10.
Qed.
Print Assumptions c38_protects.

(** The reserved distances. *)
Theorem c38_reserved : forall m labels r d e,
  update_halo m d labels r ->
  (d = AllOverlap -> halo_region d r e = Ok Overlap)
  /\ (d = AllInterior -> halo_region d r e = Ok Interior).
Proof. intros m labels r d e _. split; intros ->; reflexivity. Qed.
Print Assumptions c38_reserved.

(** Two patches [0;1;2] and [3;4;5] on a line, distance 0 and 1. *)
Example c38_meets :
  (exists r, update_halo (line 6) (Dist 0) [[[0; 1; 2]; [3; 4; 5]]] r
     /\ map (halo_region (Dist 0) r) (seq 0 6)
        = [Ok Interior; Ok Interior; Ok Overlap; Ok Overlap; Ok Interior; Ok Interior])
  /\ (exists r, update_halo (line 6) (Dist 1) [[[0; 1; 2]; [3; 4; 5]]] r
     /\ map (halo_region (Dist 1) r) (seq 0 6)
        = [Ok Interior; Ok Overlap; Ok Overlap; Ok Overlap; Ok Overlap; Ok Interior]).
Proof.
  split; eexists; (split;
    [eexists; split; [eapply labels_cons; [|apply labels_nil];
                      do 3 eexists; repeat split; apply Permutation_refl|reflexivity]
    |vm_compute; reflexivity]).
Qed.

(** Distance one does not protect what TWO patches both reach only through a neighbour: elements 0 and
    3 both reach vertex 2 of the line within one step, but element 0 is Interior in every schedule.
    (The coloured partition does separate such patches, see [c37_colored].) *)
Theorem c38_two_sided_refuted : exists m h labels label p q e f s,
  mesh_ok m /\ In label labels /\ patch_of label 0 p /\ patch_of label 1 q /\ In e p /\ In f q
  /\ touches m h [e] s /\ touches m h [f] s
  /\ forall r, update_halo m (Dist h) labels r -> halo_region (Dist h) r e = Ok Interior.
Proof.
  exists (line 6), 1, [[[0; 1; 2]; [3; 4; 5]]], [[0; 1; 2]; [3; 4; 5]], [0; 1; 2], [3; 4; 5], 0, 3, 8.
  split; [apply line_ok|]. split; [now left|]. split; [reflexivity|]. split; [reflexivity|].
  split; [now left|]. split; [now left|].
  split; [exists 0, 1; split; [now left|]; split; [|vm_compute; auto 10]|].
  { econstructor; [|constructor]. vm_compute. auto. }
  split; [exists 3, 2; split; [now left|]; split; [|vm_compute; auto 10]|].
  { econstructor; [|constructor]. vm_compute. auto. }
  intros r U.
  destruct (c38_schedule_independent (line 6) (Dist 1) [[[0; 1; 2]; [3; 4; 5]]] (line_ok 6))
    as (r0 & _ & Uniq).
  destruct c38_meets as (_ & r1 & U1 & E1).
  rewrite (Uniq r U), <- (Uniq r1 U1). cbn [map seq] in E1. congruence.
Qed.
Print Assumptions c38_two_sided_refuted.
