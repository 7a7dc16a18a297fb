From Verif Require Import CommonFacts DriverModel DriverSpec.

Lemma flat_map_flat_map {A B C} (f : A -> list B) (g : B -> list C) l :
  flat_map g (flat_map f l) = flat_map (fun a => flat_map g (f a)) l.
Proof. induction l; cbn; [reflexivity|]. now rewrite flat_map_app, IHl. Qed.

Lemma filter_flat_map {A B} (p : B -> bool) (f : A -> list B) l :
  filter p (flat_map f l) = flat_map (fun a => filter p (f a)) l.
Proof. induction l; cbn; [reflexivity|]. now rewrite filter_app, IHl. Qed.

Lemma filter_filter {A} (p q : A -> bool) l : filter p (filter q l) = filter (fun a => q a && p a) l.
Proof. induction l as [|x l IH]; cbn; [reflexivity|]. destruct (q x); cbn; [destruct (p x); cbn|]; now rewrite ?IH. Qed.

Lemma Permutation_filter {A} (p : A -> bool) l l' : Permutation l l' -> Permutation (filter p l) (filter p l').
Proof.
  induction 1; cbn; auto.
  - destruct (p x); auto.
  - destruct (p x), (p y); auto using perm_swap.
  - eauto using Permutation_trans.
Qed.

(** Which slots a kind of face term visits. *)
Definition wanted (e : env) (fl : flags) (uv : bool) (k : kind) (s : cell * face) : bool :=
  match k, classify e (snd s) with
  | KSkeleton, (Skeleton | Periodic) =>
      (if uv then uv_skeleton fl else uv_skeleton fl || v_skeleton fl) && ((outside (snd s) <? cid (fst s)) || two_sided fl)
  | KBoundary, Boundary => if uv then uv_boundary fl else uv_boundary fl || v_boundary fl
  | KProcessor, Processor => if uv then uv_boundary fl else uv_boundary fl || v_boundary fl
  | _, _ => false
  end.

Lemma face_calls_visits e fl uv k c i f :
  faces_visited uv k (face_calls e fl c i f) = if wanted e fl uv k (c, f) then [(c, f)] else [].
Proof.
  unfold faces_visited, face_calls, wanted; cbn [fst snd].
  destruct (classify e f), k, uv, (uv_skeleton fl), (v_skeleton fl), (uv_boundary fl), (v_boundary fl), (two_sided fl),
    (outside f <? cid c); reflexivity.
Qed.

Lemma faces_calls_visits e fl uv k c : forall fs i,
  faces_visited uv k (faces_calls e fl c i fs) =
  filter (fun s => negb (skip_intersection e c (snd s)) && wanted e fl uv k s) (map (pair c) fs).
Proof.
  induction fs as [|f fs IH]; intros i; cbn [faces_calls map filter]; [reflexivity|].
  cbn [snd]. destruct (skip_intersection e c f); cbn [negb andb]; [apply IH|].
  unfold faces_visited in *. rewrite flat_map_app, IH.
  fold (faces_visited uv k (face_calls e fl c i f)). rewrite face_calls_visits.
  destruct (wanted e fl uv k (c, f)); reflexivity.
Qed.

Lemma cell_calls_visits e fl uv k c :
  faces_visited uv k (cell_calls e fl c) =
  filter (fun s => negb (skip_entity e c) && negb (skip_intersection e c (snd s)) && wanted e fl uv k s)
    (map (pair c) (faces c)).
Proof.
  unfold cell_calls. destruct (skip_entity e c) eqn:E; cbn [negb andb].
  { induction (map (pair c) (faces c)); cbn; auto. }
  unfold faces_visited. rewrite !flat_map_app. cbn [flat_map face_visit app].
  replace (flat_map (face_visit uv k) (if uv_post fl || v_post fl then AsmVPost c :: (if uv_post fl then [AsmUVPost c] else []) else []))
    with (@nil (cell * face)) by (destruct (uv_post fl), (v_post fl); reflexivity).
  rewrite !app_nil_r.
  destruct (uv_skeleton fl || v_skeleton fl || uv_boundary fl || v_boundary fl) eqn:F; [apply faces_calls_visits|].
  cbn [flat_map]. symmetry.
  assert (W : forall f, wanted e fl uv k (c, f) = false).
  { intros f. unfold wanted. apply orb_false_elim in F; destruct F as [F ->]; apply orb_false_elim in F; destruct F as [F ->];
      apply orb_false_elim in F; destruct F as [-> ->]. destruct k, (classify e (snd (c, f))), uv; reflexivity. }
  induction (faces c) as [|f fs IH]; cbn [map filter]; [reflexivity|]. now rewrite W, andb_false_r.
Qed.

Lemma sweep_visits e fl uv k cells :
  faces_visited uv k (sweep e fl cells) =
  filter (fun s => negb (skip_entity e (fst s)) && negb (skip_intersection e (fst s) (snd s)) && wanted e fl uv k s)
    (slots cells).
Proof.
  unfold sweep, slots, faces_visited. rewrite flat_map_flat_map, filter_flat_map.
  apply flat_map_ext. intros c. fold (faces_visited uv k (cell_calls e fl c)). rewrite cell_calls_visits.
  induction (faces c) as [|f fs IH]; cbn [map filter fst snd]; [reflexivity|]. now rewrite IH.
Qed.

Definition keep (e : env) (fl : flags) (uv : bool) (k : kind) (s : cell * face) : bool :=
  negb (skip_entity e (fst s)) && negb (skip_intersection e (fst s) (snd s)) && wanted e fl uv k s.

Lemma visits_perm e fl uv k F cells l :
  seen_as F cells l -> Permutation (visits uv k F (sweep e fl cells)) (filter (keep e fl uv k) l).
Proof.
  intros H. unfold visits. rewrite sweep_visits.
  rewrite filter_filter.
  transitivity (filter (keep e fl uv k) (filter (fun s => fid (snd s) =? F) (slots cells))).
  - rewrite filter_filter. unfold keep.
    erewrite filter_ext; [reflexivity|]. intros s. cbn beta. now rewrite andb_comm.
  - now apply Permutation_filter.
Qed.

Lemma classify_interior e f :
  neighbor f = true -> all_partitions e = true \/ outside_in f = true ->
  classify e f = Skeleton \/ classify e f = Periodic.
Proof.
  intros N [P|P]; unfold classify, base_type; rewrite N, P; destruct (boundary f); auto;
    destruct (all_partitions e); auto.
Qed.

Lemma interior_keep e fl uv c f :
  kept e (c, f) -> neighbor f = true -> all_partitions e = true \/ outside_in f = true ->
  keep e fl uv KSkeleton (c, f) =
  (if uv then uv_skeleton fl else uv_skeleton fl || v_skeleton fl) && ((outside f <? cid c) || two_sided fl).
Proof.
  intros [K1 K2] N P. unfold keep, wanted. rewrite K1, K2. cbn [fst snd negb andb].
  destruct (classify_interior e f N P) as [-> | ->]; reflexivity.
Qed.

Lemma perm_single {A} (l : list A) x : Permutation l [x] -> l = [x].
Proof. intros H. symmetry in H. now apply Permutation_length_1_inv in H. Qed.

Theorem interior_once e fl (uv : bool) cells F c1 f1 c2 f2 :
  interior_face e cells F c1 f1 c2 f2 -> kept e (c1, f1) -> kept e (c2, f2) ->
  (if uv then uv_skeleton fl = true else uv_skeleton fl || v_skeleton fl = true) ->
  (two_sided fl = false ->
     visits uv KSkeleton F (sweep e fl cells) = [if cid c2 <? cid c1 then (c1, f1) else (c2, f2)]) /\
  (two_sided fl = true -> Permutation (visits uv KSkeleton F (sweep e fl cells)) [(c1, f1); (c2, f2)]).
Proof.
  intros (S & NE & O1 & O2 & N1 & N2 & P) K1 K2 R.
  pose proof (visits_perm e fl uv KSkeleton F cells _ S) as V. cbn [filter] in V.
  rewrite !interior_keep, O1, O2 in V by tauto.
  assert (R' : (if uv then uv_skeleton fl else uv_skeleton fl || v_skeleton fl) = true) by now destruct uv.
  rewrite R' in V. cbn [andb] in V.
  split; intros T; rewrite T in V; rewrite ?orb_false_r, ?orb_true_r in V; [|exact V].
  apply perm_single.
  destruct (Nat.ltb_spec (cid c2) (cid c1)), (Nat.ltb_spec (cid c1) (cid c2)); try lia; exact V.
Qed.

Theorem boundary_once e fl (uv : bool) cells F c f :
  boundary_face cells F c f -> kept e (c, f) ->
  (if uv then uv_boundary fl = true else uv_boundary fl || v_boundary fl = true) ->
  visits uv KBoundary F (sweep e fl cells) = [(c, f)].
Proof.
  intros (S & N & B) [K1 K2] R. apply perm_single.
  pose proof (visits_perm e fl uv KBoundary F cells _ S) as V. cbn [filter] in V.
  unfold keep, wanted in V. cbn [fst snd] in *. rewrite K1, K2 in V. cbn [negb andb] in V.
  unfold classify, base_type in V. rewrite N, B in V. destruct uv; rewrite R in V; exact V.
Qed.

Theorem processor_once e fl (uv : bool) cells F c f :
  processor_face e cells F c f -> kept e (c, f) ->
  (if uv then uv_boundary fl = true else uv_boundary fl || v_boundary fl = true) ->
  visits uv KProcessor F (sweep e fl cells) = [(c, f)].
Proof.
  intros (S & H) [K1 K2] R. apply perm_single.
  pose proof (visits_perm e fl uv KProcessor F cells _ S) as V. cbn [filter] in V.
  unfold keep, wanted in V. cbn [fst snd] in *. rewrite K1, K2 in V. cbn [negb andb] in V.
  assert (C : classify e f = Processor).
  { unfold classify, base_type. destruct H as [(N & B) | (N & A & O)]; rewrite N, ?B, ?A, ?O; [reflexivity|].
    now destruct (boundary f). }
  rewrite C in V. destruct uv; rewrite R in V; exact V.
Qed.

(** Only faces of the right type are presented to each kind of term. *)
Theorem visited_type e fl uv k cells c f :
  In (c, f) (faces_visited uv k (sweep e fl cells)) ->
  In c cells /\ In f (faces c) /\ kept e (c, f) /\
  match k with
  | KSkeleton => neighbor f = true /\ (all_partitions e = true \/ outside_in f = true)
  | KBoundary => neighbor f = false /\ boundary f = true
  | KProcessor => neighbor f = false /\ boundary f = false \/
                  neighbor f = true /\ all_partitions e = false /\ outside_in f = false
  | _ => False
  end.
Proof.
  rewrite sweep_visits, filter_In. intros [I W]. unfold slots in I. apply in_flat_map in I.
  destruct I as (c' & I1 & I2). apply in_map_iff in I2. destruct I2 as (f' & E & I2).
  assert (c' = c /\ f' = f) as [-> ->] by (split; congruence). clear E.
  apply andb_prop in W; destruct W as [W1 W]. apply andb_prop in W1; destruct W1 as [W1 W2].
  cbn [fst snd] in *. apply negb_true_iff in W1, W2. split; [assumption|]. split; [assumption|].
  split; [split; assumption|].
  unfold wanted, classify, base_type in W. cbn [snd] in W.
  destruct k, (neighbor f), (boundary f), (all_partitions e), (outside_in f); try discriminate; auto.
Qed.

Lemma faces_calls_no_cells uv k e fl c : forall fs i, cells_visited uv k (faces_calls e fl c i fs) = [].
Proof.
  induction fs as [|f fs IH]; intros i; cbn [faces_calls]; [reflexivity|].
  destruct (skip_intersection e c f); [apply IH|]. unfold cells_visited in *. rewrite flat_map_app, IH, app_nil_r.
  unfold face_calls. destruct (classify e f), (uv_skeleton fl), (v_skeleton fl), (uv_boundary fl), (v_boundary fl),
    (two_sided fl), (outside f <? cid c); reflexivity.
Qed.

Theorem volumes_once e fl uv cells :
  cells_visited uv KVolume (sweep e fl cells) = filter (fun c => negb (skip_entity e c)) cells.
Proof.
  unfold sweep, cells_visited. rewrite flat_map_flat_map.
  induction cells as [|c cells IH]; cbn [flat_map filter]; [reflexivity|]. rewrite IH.
  assert (C : flat_map (cell_visit uv KVolume) (cell_calls e fl c) = if skip_entity e c then [] else [c]).
  { unfold cell_calls. destruct (skip_entity e c); [reflexivity|]. rewrite !flat_map_app.
    destruct (uv_skeleton fl || v_skeleton fl || uv_boundary fl || v_boundary fl).
    - fold (cells_visited uv KVolume (faces_calls e fl c 0 (faces c))). rewrite faces_calls_no_cells.
      destruct uv, (uv_post fl), (v_post fl); reflexivity.
    - destruct uv, (uv_post fl), (v_post fl); reflexivity. }
  rewrite C. destruct (skip_entity e c); reflexivity.
Qed.

Theorem posts_once e fl (uv : bool) cells :
  (if uv then uv_post fl = true else uv_post fl || v_post fl = true) ->
  cells_visited uv KPost (sweep e fl cells) = filter (fun c => negb (skip_entity e c)) cells.
Proof.
  intros R. unfold sweep, cells_visited. rewrite flat_map_flat_map.
  induction cells as [|c cells IH]; cbn [flat_map filter]; [reflexivity|]. rewrite IH.
  assert (C : flat_map (cell_visit uv KPost) (cell_calls e fl c) = if skip_entity e c then [] else [c]).
  { unfold cell_calls. destruct (skip_entity e c); [reflexivity|]. rewrite !flat_map_app.
    destruct (uv_skeleton fl || v_skeleton fl || uv_boundary fl || v_boundary fl).
    - fold (cells_visited uv KPost (faces_calls e fl c 0 (faces c))). rewrite faces_calls_no_cells.
      destruct uv, (uv_post fl), (v_post fl); try discriminate R; reflexivity.
    - destruct uv, (uv_post fl), (v_post fl); try discriminate R; reflexivity. }
  rewrite C. destruct (skip_entity e c); reflexivity.
Qed.

(** Face indices. *)
Lemma face_calls_arg e fl c i f x c' f' i' :
  In x (face_calls e fl c i f) -> face_arg x = Some (c', f', i') -> c' = c /\ f' = f /\ i' = i.
Proof.
  unfold face_calls. intros I A.
  destruct (classify e f), (uv_skeleton fl), (v_skeleton fl), (uv_boundary fl), (v_boundary fl),
    (two_sided fl), (outside f <? cid c); cbn in I;
  repeat (destruct I as [I|I]; [subst x; cbn in A; try discriminate A; inversion A; auto|]); try contradiction.
Qed.

Lemma faces_calls_arg e fl c c' f' i' x : forall fs i,
  (forall f, In f fs -> skip_intersection e c f = false) ->
  In x (faces_calls e fl c i fs) -> face_arg x = Some (c', f', i') ->
  c' = c /\ i <= i' /\ nth_error fs (i' - i) = Some f'.
Proof.
  induction fs as [|f fs IH]; intros i K I A; cbn [faces_calls] in I; [contradiction|].
  rewrite (K f (or_introl eq_refl)) in I. apply in_app_iff in I. destruct I as [I|I].
  - destruct (face_calls_arg _ _ _ _ _ _ _ _ _ I A) as (-> & -> & ->). split; [auto|]. split; [lia|].
    now rewrite Nat.sub_diag.
  - destruct (IH (S i)) as (-> & L & N); auto. { intros g G. apply K. now right. }
    split; [auto|]. split; [lia|]. replace (i' - i) with (S (i' - S i)) by lia. exact N.
Qed.

Theorem face_index e fl cells x c f i :
  In x (sweep e fl cells) -> face_arg x = Some (c, f, i) ->
  (forall g, In g (faces c) -> skip_intersection e c g = false) ->
  In c cells /\ nth_error (faces c) i = Some f.
Proof.
  intros I A K. unfold sweep in I. apply in_flat_map in I. destruct I as (c0 & C0 & I).
  unfold cell_calls in I. destruct (skip_entity e c0); [contradiction|].
  assert (J : In x (faces_calls e fl c0 0 (faces c0))).
  { rewrite !in_app_iff in I. destruct I as [I|[I|[I|I]]].
    - cbn in I. repeat (destruct I as [I|I]; [subst x; discriminate A|]). contradiction.
    - destruct (uv_skeleton fl || v_skeleton fl || uv_boundary fl || v_boundary fl); [exact I|contradiction].
    - destruct (uv_post fl), (v_post fl); cbn in I;
        repeat (destruct I as [I|I]; [subst x; discriminate A|]); contradiction.
    - cbn in I. repeat (destruct I as [I|I]; [subst x; discriminate A|]). contradiction. }
  assert (c0 = c).
  { clear -J A. revert J. generalize 0, (faces c0). intros n fs. revert n.
    induction fs as [|g fs IH]; intros n J; cbn [faces_calls] in J; [contradiction|].
    destruct (skip_intersection e c0 g); [eauto|]. apply in_app_iff in J. destruct J as [J|J]; [|eauto].
    now destruct (face_calls_arg _ _ _ _ _ _ _ _ _ J A) as (-> & _). }
  subst c0. split; [exact C0|].
  destruct (faces_calls_arg e fl c c f i x (faces c) 0 K J A) as (_ & _ & N). now rewrite Nat.sub_0_r in N.
Qed.

(** With skipped intersections the index is the number of unskipped intersections before it. *)
Lemma faces_calls_arg_general e fl c c' f' i' x : forall fs i,
  In x (faces_calls e fl c i fs) -> face_arg x = Some (c', f', i') ->
  i <= i' /\ nth_error (filter (fun f => negb (skip_intersection e c f)) fs) (i' - i) = Some f'.
Proof.
  induction fs as [|f fs IH]; intros i I A; cbn [faces_calls filter] in *; [contradiction|].
  destruct (skip_intersection e c f); cbn [negb]; [now apply IH|].
  apply in_app_iff in I. destruct I as [I|I].
  - destruct (face_calls_arg _ _ _ _ _ _ _ _ _ I A) as (-> & -> & ->). split; [lia|]. now rewrite Nat.sub_diag.
  - destruct (IH (S i)) as (L & N); auto. split; [lia|]. replace (i' - i) with (S (i' - S i)) by lia. exact N.
Qed.

(** Concrete grids for the examples and counterexamples. *)
Definition no_skip (two : bool) : env * flags :=
  (mkenv true (fun _ => false) (fun _ _ => false), mkflags true true true true true true two).
Definition strip : list cell :=
  [mkcell 5 [mkface 0 false true 0 false; mkface 1 true false 3 true];
   mkcell 3 [mkface 1 true false 5 true; mkface 2 true false 9 true];
   mkcell 9 [mkface 2 true false 3 true; mkface 3 false true 0 false]].
Definition ring1 : list cell := [mkcell 0 [mkface 7 true true 0 true; mkface 7 true true 0 true]].
