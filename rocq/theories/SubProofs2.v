From Verif Require Import LfsModel LfsSpec LfsProofs CommonFacts.
From Verif Require OrderingModel OrderingSpec.
From Verif Require Import SubModel SubSpec SubProofs.
Import LfsModel.

(** ** DOF indices *)
Definition deeper (pi : list nat) (d : dof) : dof := mkdof (gt d) (ei d) (ti d ++ rev pi).
Lemma push_path_spec cap pi d : length (ti d) + length pi <= cap -> push_path cap pi d = Ok (deeper pi d).
Proof.
  intros H. unfold push_path. rewrite (proj2 (Nat.leb_le _ _)) by lia. f_equal. unfold deeper. clear H. revert d.
  generalize (rev pi) as l. induction l as [|k l IH]; intros d; cbn [fold_left]; [rewrite app_nil_r; destruct d; reflexivity|].
  rewrite IH. unfold push. cbn [gt ei ti]. rewrite <- app_assoc. reflexivity.
Qed.
Lemma push_all_spec cap pi a : (forall d, In d a -> length (ti d) + length pi <= cap) -> push_all cap pi a = Ok (map (deeper pi) a).
Proof.
  induction a as [|d a IH]; intros H; [reflexivity|]. cbn [push_all map]. rewrite push_path_spec by (apply H; left; reflexivity). cbn [bind].
  rewrite IH by (intros; apply H; right; assumption). reflexivity.
Qed.
Definition inner_leaf (pi : list nat) (l : leaf) : leaf := mkleaf (pi ++ path l) (start l) (len l) (fe l).
Lemma deeper_named pi q c : deeper pi (named q c) = named (pi ++ q) c.
Proof. destruct c as ((g, i), k). unfold deeper, named. cbn [gt ei ti]. rewrite rev_app_distr. reflexivity. Qed.
Lemma names_deeper e pi l : map (deeper pi) (names e l) = names e (map (inner_leaf pi) l).
Proof.
  induction l as [|x l IH]; [reflexivity|]. unfold names in *. cbn [map flat_map inner_leaf fe path]. rewrite map_app, IH. f_equal.
  destruct (inside (fe x e)); [|reflexivity]. rewrite map_map. apply map_ext. intros c. apply deeper_named.
Qed.
Lemma names_list e l : forall l', map (fun x => (path x, fe x)) l = map (fun x => (path x, fe x)) l' -> names e l = names e l'.
Proof.
  induction l as [|x l IH]; intros [|y l'] E; try discriminate; [reflexivity|]. cbn [map] in E. injection E as E1 E2 E3.
  unfold names in *. cbn [flat_map]. rewrite E1, E2, (IH _ E3). reflexivity.
Qed.
Lemma names_in e l d : In d (names e l) -> exists x c, In x l /\ d = named (path x) c.
Proof.
  unfold names. rewrite in_flat_map. intros (x & Hx & H). destruct (inside (fe x e)); [|destruct H]. apply in_map_iff in H.
  destruct H as (c & <- & _). eauto.
Qed.

Lemma sum_list e l : forall l', map (fun x => (path x, fe x)) l = map (fun x => (path x, fe x)) l' ->
  map (fun x => if inside (fe x e) then basis (fe x e) else 0) l = map (fun x => if inside (fe x e) then basis (fe x e) else 0) l'.
Proof.
  induction l as [|x l IH]; intros [|y l'] E; try discriminate; [reflexivity|]. cbn [map] in *. injection E as _ E2 E3.
  rewrite E2, (IH _ E3). reflexivity.
Qed.
Lemma sub_bind_spec cap pi e t a : consistent e t -> fills e t a -> fits cap pi t ->
  let t' := fst (compute false e 0 t) in
  sub_bind cap pi e (t, a) = Ok (t', names e (map (inner_leaf pi) (leaves t'))) /\ size t' = length a.
Proof.
  intros C F Fit t'. unfold fills in F. rewrite leaf_sum in F. fold t' in F. split; [|exact F].
  unfold sub_bind. pose proof (bind_spec e t a C) as B. cbn zeta in B. rewrite B by (fold t'; lia). cbn [bind]. fold t'.
  rewrite F, skipn_all, app_nil_r. rewrite push_all_spec, <- names_deeper; [reflexivity|].
  intros d Hd. destruct (names_in _ _ _ Hd) as (x & ((g, i), k) & Hx & ->). cbn [named ti length]. rewrite rev_length.
  assert (I : In (path x, fe x) (map (fun x => (path x, fe x)) (leaves t))).
  { destruct (compute_spec false e t 0) as (_ & _ & _ & _ & E & _). fold t' in E. rewrite <- E. apply (in_map (fun x => (path x, fe x))), Hx. }
  apply in_map_iff in I. destruct I as (y & Ey & Iy). injection Ey as Ey _. specialize (Fit y Iy). rewrite Ey in Fit. lia.
Qed.

(** Histories *)
Lemma sub_history cap pi : forall es t a, (forall e, In e es -> consistent e t /\ fills e t a) -> fits cap pi t ->
  exists t' a', foldM (fun s e => sub_bind cap pi e s) es (t, a) = Ok (t', a') /\ length a' = length a /\
    map (fun x => (path x, fe x)) (leaves t') = map (fun x => (path x, fe x)) (leaves t) /\ same t t'.
Proof.
  induction es as [|e es IH]; intros t a H Fit.
  - exists t, a. cbn. repeat split. clear. induction t as [|o n ch IH] using lfs_ind'; [reflexivity|]. cbn. induction IH; auto.
  - destruct (H e (or_introl eq_refl)) as (C & F). destruct (sub_bind_spec cap pi e t a C F Fit) as (B & Sz). set (t1 := fst (compute false e 0 t)) in *.
    cbn [foldM]. rewrite B. cbn [bind]. destruct (compute_spec false e t 0) as (_ & P2 & _ & _ & P5 & P6). fold t1 in P2, P5, P6.
    assert (LN : length (names e (map (inner_leaf pi) (leaves t1))) = length a).
    { rewrite <- names_deeper, map_length. rewrite (names_length false e _ eq_refl P6); [lia|].
      intros x Hx Hi. assert (I : In (path x, fe x) (map (fun x => (path x, fe x)) (leaves t))).
      { rewrite <- P5. apply (in_map (fun x => (path x, fe x))), Hx. }
      apply in_map_iff in I. destruct I as (y & Ey & Iy). injection Ey as _ Ey. rewrite <- Ey in *. apply C; auto. }
    destruct (IH t1 (names e (map (inner_leaf pi) (leaves t1)))) as (t' & a' & E & L & P & S).
    + intros e' I. destruct (H e' (or_intror I)) as (C' & F'). split; [eapply consistent_list; [exact P5|exact C']|].
      unfold fills in *. rewrite LN, <- F'. f_equal. apply sum_list, P5.
    + intros x Hx. assert (I : In (path x, fe x) (map (fun x => (path x, fe x)) (leaves t))).
      { rewrite <- P5. apply (in_map (fun x => (path x, fe x))), Hx. }
      apply in_map_iff in I. destruct I as (y & Ey & Iy). injection Ey as Ey _. specialize (Fit y Iy). rewrite Ey in Fit. exact Fit.
    + exists t', a'. rewrite E, L, P, LN. repeat split; auto. eapply same_trans; [apply same_compute|exact S].
Qed.
Lemma fits_list cap pi t t' : map (fun x => (path x, fe x)) (leaves t') = map (fun x => (path x, fe x)) (leaves t) -> fits cap pi t -> fits cap pi t'.
Proof.
  intros P Fit x Hx. assert (I : In (path x, fe x) (map (fun x => (path x, fe x)) (leaves t))).
  { rewrite <- P. apply (in_map (fun x => (path x, fe x))), Hx. }
  apply in_map_iff in I. destruct I as (y & Ey & Iy). injection Ey as Ey _. specialize (Fit y Iy). rewrite Ey in Fit. exact Fit.
Qed.

(** The node of a bound tree is the bound node. *)
Lemma node_compute fast e p : forall t o s, node_at t p = Some s -> exists s', node_at (fst (compute fast e o t)) p = Some s' /\
  map (fun x => (path x, fe x)) (leaves s') = map (fun x => (path x, fe x)) (leaves s).
Proof.
  induction p as [|k p IH]; intros t o s N.
  - cbn in N. injection N as <-. eexists. split; [reflexivity|]. apply compute_spec.
  - destruct t as [|o0 n0 ch]; [discriminate|]. cbn [node_at] in N. destruct (nth_error ch k) as [c|] eqn:K; [|discriminate].
    rewrite compute_inner. destruct (compute_list fast e o ch) as (ch', o') eqn:E. cbn [fst node_at].
    assert (G : forall ch k o ch' o', nth_error ch k = Some c -> compute_list fast e o ch = (ch', o') ->
       exists o1, nth_error ch' k = Some (fst (compute fast e o1 c))).
    { clear. induction ch as [|d ch IH]; intros k o ch' o' K E; [destruct k; discriminate|]. cbn [compute_list] in E.
      destruct (compute fast e o d) as (d', o1) eqn:D. destruct (compute_list fast e o1 ch) as (r', o2) eqn:R. injection E as <- _.
      destruct k as [|k]; cbn [nth_error] in *; [injection K as ->; exists o; rewrite D; reflexivity|]. eapply IH; eauto. }
    destruct (G _ _ _ _ _ K E) as (o1 & ->). apply IH, N.
Qed.

Lemma firstn_names {A} (l l' : list A) n : length l = n -> firstn n (l ++ l') = l.
Proof. intros <-. rewrite firstn_app, Nat.sub_diag, firstn_O, app_nil_r, firstn_all. reflexivity. Qed.
Lemma skipn_names {A} (l l' : list A) n : length l = n -> skipn n (l ++ l') = l'.
Proof. intros <-. rewrite skipn_app, Nat.sub_diag, skipn_all. reflexivity. Qed.

(** What a bind that returns leaves behind *)
Lemma push_all_ok cap pi a : forall a', push_all cap pi a = Ok a' -> a' = map (deeper pi) a.
Proof.
  induction a as [|d a IH]; intros a' H; cbn [push_all] in H; [injection H as <-; reflexivity|].
  destruct (Nat.leb_spec (length (ti d) + length pi) cap) as [L|L].
  - rewrite push_path_spec in H by exact L. cbn [bind] in H. destruct (push_all cap pi a) as [a1| |]; cbn [bind] in H; try discriminate.
    injection H as <-. cbn [map]. rewrite (IH _ eq_refl). reflexivity.
  - unfold push_path in H. rewrite (proj2 (Nat.leb_gt _ _)) in H by lia. discriminate.
Qed.
Lemma leaf_bound e t (a : list dof) : sum_nat (leaf_sizes e t) <= length a -> size (fst (compute false e 0 t)) <= length a.
Proof. unfold leaf_sizes. rewrite leaf_sum. auto. Qed.
Lemma names_size e t : consistent e t -> let t' := fst (compute false e 0 t) in length (names e (leaves t')) = size t'.
Proof.
  intros C t'. destruct (compute_spec false e t 0) as (_ & T2 & _ & _ & T5 & T6). fold t' in T2, T5, T6. rewrite T2.
  apply (names_length false); auto. eapply consistent_list; eauto.
Qed.
Lemma sub_bind_ok cap pi e t a t' a' : consistent e t -> sum_nat (leaf_sizes e t) <= length a -> sub_bind cap pi e (t, a) = Ok (t', a') ->
  t' = fst (compute false e 0 t) /\ length a' = length a /\ firstn (size t') a' = names e (map (inner_leaf pi) (leaves t')).
Proof.
  intros C L H. apply leaf_bound in L. unfold sub_bind in H. pose proof (bind_spec e t a C) as B. cbn zeta in B. rewrite B in H by exact L. cbn [bind] in H.
  destruct (push_all _ _ _) as [a1| |] eqn:P; cbn [bind] in H; try discriminate. injection H as <- <-. apply push_all_ok in P. subst a1.
  pose proof (names_size e t C) as N. cbn zeta in N. split; [reflexivity|]. split.
  - rewrite map_length, app_length, skipn_length, N. lia.
  - rewrite map_app, firstn_names by (rewrite map_length; exact N). apply names_deeper.
Qed.
Lemma sum_sizes e t t' : map (fun x => (path x, fe x)) (leaves t') = map (fun x => (path x, fe x)) (leaves t) -> leaf_sizes e t' = leaf_sizes e t.
Proof. apply sum_list. Qed.
Lemma sub_history_ok cap pi : forall es t a t' a', (forall e, In e es -> consistent e t /\ sum_nat (leaf_sizes e t) <= length a) ->
  foldM (fun s e => sub_bind cap pi e s) es (t, a) = Ok (t', a') ->
  length a' = length a /\ map (fun x => (path x, fe x)) (leaves t') = map (fun x => (path x, fe x)) (leaves t).
Proof.
  induction es as [|e es IH]; intros t a t' a' H E; [cbn in E; injection E as <- <-; auto|].
  cbn [foldM] in E. destruct (sub_bind cap pi e (t, a)) as [(t1, a1)| |] eqn:B; cbn [bind] in E; try discriminate.
  destruct (H e (or_introl eq_refl)) as (C & L). destruct (sub_bind_ok _ _ _ _ _ _ _ C L B) as (T1 & L1 & _).
  assert (P : map (fun x => (path x, fe x)) (leaves t1) = map (fun x => (path x, fe x)) (leaves t)) by (rewrite T1; apply compute_spec).
  destruct (IH t1 a1 t' a') as (L2 & P2); auto.
  - intros e' I. destruct (H e' (or_intror I)) as (C' & L'). split; [eapply consistent_list; eauto|]. rewrite L1, (sum_sizes _ _ _ P). exact L'.
  - split; congruence.
Qed.

(** DOF indices of a subspace are those of the whole space. *)
Lemma dof_segment cap pi es e t a w aw s t' a' : is_subspace w pi t ->
  (forall e', In e' (e :: es) -> consistent e' t /\ sum_nat (leaf_sizes e' t) <= length a) ->
  consistent e w -> sum_nat (leaf_sizes e w) <= length aw ->
  foldM (fun s e => sub_bind cap pi e s) es (t, a) = Ok s -> sub_bind cap pi e s = Ok (t', a') ->
  exists w' aw' n, bind_to false e (w, aw) = Ok (w', aw') /\ node_at w' pi = Some n /\ size n = size t' /\
    firstn (size t') a' = firstn (size n) (skipn (offset n) aw') /\
    map (fun x => (path x, fe x)) (leaves t') = map (fun x => (path x, fe x)) (leaves t) /\
    firstn (size t') a' = names e (map (inner_leaf pi) (leaves t')).
Proof.
  intros (n0 & N0 & Ln) H Cw Lw E1 B1. destruct s as (t1, a1). destruct (sub_history_ok cap pi es t a t1 a1) as (L1 & P1); auto.
  { intros e' I. apply H. right. exact I. }
  destruct (H e (or_introl eq_refl)) as (C & F). apply leaf_bound in Lw.
  pose proof (bind_spec e w aw Cw) as Bw. cbn zeta in Bw. specialize (Bw Lw). set (w' := fst (compute false e 0 w)) in *.
  destruct (node_compute false e pi w 0 n0 N0) as (n & N & P). fold w' in N. destruct (node_spec false e pi w 0 n N) as (b & af & Lv & On & Sn). fold w' in Lv.
  assert (C1 : consistent e t1) by (eapply consistent_list; eauto).
  destruct (sub_bind_ok cap pi e t1 a1 t' a' C1) as (T & La & Na); auto.
  { rewrite L1, (sum_sizes _ _ _ P1). exact F. }
  destruct (compute_spec false e t1 0) as (_ & T2 & _ & _ & T5 & T6). rewrite <- T in T2, T5, T6.
  destruct (compute_spec false e w 0) as (_ & W2 & _ & _ & W5 & W6). fold w' in W2, W5, W6.
  assert (Cw' : forall x, In x (leaves w') -> inside (fe x e) = true -> length (locals (fe x e)) = basis (fe x e)).
  { eapply consistent_list; eauto. }
  assert (Same : names e (map (inner_leaf pi) (leaves t')) = names e (map (inner_leaf pi) (leaves n))).
  { rewrite <- !names_deeper. f_equal. apply names_list. rewrite T5, P1, Ln. symmetry. exact P. }
  assert (Lb : length (names e b) = total b).
  { apply (names_length false); auto; intros; [apply W6|apply Cw'; auto]; rewrite Lv; apply in_or_app; left; assumption. }
  assert (Lm : length (names e (map (inner_leaf pi) (leaves n))) = size n).
  { rewrite Sn. transitivity (total (map (inner_leaf pi) (leaves n))).
    - apply (names_length false); auto; intros; [apply W6|apply Cw'; auto]; rewrite Lv; apply in_or_app; right; apply in_or_app; left; assumption.
    - unfold total. rewrite map_map. reflexivity. }
  assert (Lt : length (names e (map (inner_leaf pi) (leaves t'))) = size t').
  { rewrite <- names_deeper, map_length. pose proof (names_size e t1 C1) as Q. cbn zeta in Q. rewrite <- T in Q. exact Q. }
  exists w', (names e (leaves w') ++ skipn (size w') aw), n.
  split; [exact Bw|]. split; [exact N|]. split; [congruence|]. split; [|split; [congruence|exact Na]].
  rewrite Na, On, Lv, !names_app, Same. cbn [Nat.add]. rewrite <- !app_assoc, (skipn_names (names e b)) by exact Lb. symmetry. apply firstn_names. exact Lm.
Qed.

(** ** Both *)
Definition group (e : nat) (pi : list nat) (x : leaf) : list OrderingModel.dof := map outermost_first (names e [inner_leaf pi x]).
Lemma groups_concat e pi l : concat (map (group e pi) l) = map outermost_first (names e (map (inner_leaf pi) l)).
Proof.
  induction l as [|x l IH]; [reflexivity|]. cbn [map concat]. rewrite IH. unfold group.
  change (names e (inner_leaf pi x :: map (inner_leaf pi) l)) with (names e ([inner_leaf pi x] ++ map (inner_leaf pi) l)). rewrite names_app, map_app. reflexivity.
Qed.
Lemma groups_length e pi t : consistent e t -> map (@length OrderingModel.dof) (map (group e pi) (leaves t)) = leaf_sizes e t.
Proof.
  intros C. unfold leaf_sizes. rewrite map_map. apply map_ext_in. intros x Hx. unfold group, names. rewrite map_length. cbn [flat_map inner_leaf fe path].
  rewrite app_nil_r. pose proof (C x Hx) as Cx. destruct (inside (fe x e)); [|reflexivity]. rewrite map_length. apply Cx. reflexivity.
Qed.
Lemma subspace_indices o cap pi es e t a w aw s t' a' : OrderingSpec.well_formed o -> leaves t <> [] -> map path (leaves t) = below pi (OrderingSpec.leaf_paths o) ->
  is_subspace w pi t ->
  (forall e', In e' (e :: es) -> consistent e' t /\ sum_nat (leaf_sizes e' t) <= length a) ->
  consistent e w -> sum_nat (leaf_sizes e w) <= length aw ->
  foldM (fun s e => sub_bind cap pi e s) es (t, a) = Ok s -> sub_bind cap pi e s = Ok (t', a') ->
  (forall d, In d (firstn (size t') a') -> OrderingSpec.dof_of o (fst (outermost_first d)) (snd (outermost_first d))) ->
  exists p out w' aw' n, ordering_path o pi = Some p /\
    sub_map o p (length pi) (leaf_sizes e t) (map outermost_first (firstn (size t') a')) = Ok out /\
    bind_to false e (w, aw) = Ok (w', aw') /\ node_at w' pi = Some n /\
    Forall2 (fun d ci => OrderingModel.mapIndex o (fst (outermost_first d)) (snd (outermost_first d)) = Ok ci) (firstn (size n) (skipn (offset n) aw')) out.
Proof.
  intros WF NE LP Sub H Cw Lw E B D. destruct (dof_segment _ _ _ _ _ _ _ _ _ _ _ Sub H Cw Lw E B) as (w' & aw' & n & Bw & N & Sz & Seg & P & Nm).
  rewrite Nm in *. destruct (H e (or_introl eq_refl)) as (C & _).
  assert (C' : consistent e t') by (eapply consistent_list; eauto).
  assert (LP' : map path (leaves t') = map path (leaves t)).
  { apply (f_equal (map fst)) in P. rewrite !map_map in P. exact P. }
  destruct (container_indices o pi (map (group e pi) (leaves t'))) as (p & out & Ep & Em & F).
  - rewrite <- LP. destruct (leaves t); [congruence|discriminate].
  - rewrite <- LP, <- LP'. clear - D WF. destruct (OrderingProofs2.wf_separates o WF) as (A & _).
    assert (G : forall l, (forall x, In x l -> In x (leaves t')) -> Forall2 (fun q g => forall d, In d g -> exists i ci, snd d = pi ++ q ++ [i] /\
       OrderingModel.mapIndex o (fst d) (snd d) = Ok ci) (map path l) (map (group e pi) l)).
    { induction l as [|x l IH]; intros Hl; cbn [map]; constructor; [|apply IH; intros; apply Hl; right; assumption].
      intros d Hd. unfold group in Hd. apply in_map_iff in Hd. destruct Hd as (d0 & <- & Hd).
      assert (I0 : In d0 (names e (map (inner_leaf pi) (leaves t')))).
      { unfold names in *. cbn [flat_map] in Hd. rewrite app_nil_r in Hd. apply in_flat_map. exists (inner_leaf pi x). split; [|exact Hd]. apply in_map, Hl. left. reflexivity. }
      destruct (A _ _ (D d0 I0)) as (h & r & Em & _). destruct (names_in _ _ _ Hd) as (y & ((g, i), k) & [<-|[]] & ->).
      exists k, (h :: r). split; [|exact Em]. cbn [outermost_first named snd ti rev]. rewrite rev_involutive. cbn [inner_leaf path]. rewrite <- app_assoc. reflexivity. }
    apply G. auto.
  - exists p, out, w', aw', n. rewrite groups_concat, groups_length in Em by exact C'. rewrite (sum_sizes _ _ _ P) in Em. rewrite groups_concat in F.
    rewrite <- Seg. repeat split; auto. clear - F. revert out F. generalize (names e (map (inner_leaf pi) (leaves t'))) as l. induction l as [|d l IH]; intros out F; inversion F; subst; constructor; auto.
Qed.
