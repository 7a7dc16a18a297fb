(** Proofs about the index sets: the common part of the update and the numbering. *)
From Verif Require Import Common CommonFacts EsetModel EsetSpec EsetProofs.
From Coq Require Import Permutation.

(** The geometry types of the selected codimensions, and the number of positions they get *)
Definition sel (g : grid) (mask : list bool) : list nat := flat_map (fun c => if nth c mask false then g_types g c else []) (seq 0 (S (g_dim g))).
Definition sz (g : grid) (mask : list bool) (t : nat) : nat := if in_dec Nat.eq_dec t (sel g mask) then g_size g t else 0.
Lemma sel_in g mask t : In t (sel g mask) <-> exists c, c <= g_dim g /\ nth c mask false = true /\ In t (g_types g c).
Proof.
  unfold sel. rewrite in_flat_map. split.
  - intros (c & Hc & Ht). apply in_seq in Hc. destruct (nth c mask false) eqn:E; [|destruct Ht]. exists c. repeat split; auto; lia.
  - intros (c & Hc & E & Ht). exists c. rewrite E. split; auto. apply in_seq. lia.
Qed.
Lemma off_le g : wf_grid g -> forall a b, a <= b -> g_off g a <= g_off g b.
Proof. intros W a b. induction 1; [lia|]. pose proof (wf_mono g W m). lia. Qed.
Lemma sel_lt g mask t : wf_grid g -> In t (sel g mask) -> t < g_ngt g.
Proof.
  intros W H. apply sel_in in H as (c & Hc & _ & Ht). apply (wf_types g W) in Ht; auto.
  pose proof (off_le g W (g_dim g - c + 1) (S (g_dim g)) ltac:(lia)). unfold g_ngt. lia.
Qed.

(** ** equal_range *)
Lemma gt_dim_eq g t d : wf_grid g -> d <= g_dim g -> g_off g d <= t < g_off g (d + 1) -> gt_dim g t = d.
Proof.
  intros W Hd Ht. unfold gt_dim.
  assert (forall k, length (filter (fun d' => g_off g (S d') <=? t) (seq 0 k)) = Nat.min k d) as H.
  { induction k as [|k IH]; [reflexivity|]. rewrite seq_S, filter_app, app_length, IH. cbn [length filter plus].
    destruct (g_off g (S k) <=? t) eqn:E; cbn [length].
    - apply Nat.leb_le in E. destruct (le_lt_dec d k); [|lia]. pose proof (off_le g W (d + 1) (S k) ltac:(lia)). lia.
    - apply Nat.leb_gt in E. destruct (le_lt_dec d k); [lia|]. pose proof (off_le g W (S k) d ltac:(lia)). lia. }
  rewrite H. lia.
Qed.
Lemma drop_while_all {A} (f : A -> bool) l1 l2 : (forall x, In x l1 -> f x = true) -> drop_while f (l1 ++ l2) = drop_while f l2.
Proof. induction l1 as [|a l IH]; intros H; [reflexivity|]. cbn. rewrite H by now left. apply IH. intros; apply H; now right. Qed.
Lemma drop_while_none {A} (f : A -> bool) l : (forall x, In x l -> f x = false) -> drop_while f l = l.
Proof. destruct l as [|a l]; intros H; [reflexivity|]. cbn. now rewrite H by now left. Qed.
Lemma take_while_all {A} (f : A -> bool) l1 l2 : (forall x, In x l1 -> f x = true) -> take_while f (l1 ++ l2) = l1 ++ take_while f l2.
Proof. induction l1 as [|a l IH]; intros H; [reflexivity|]. cbn. rewrite H by now left. f_equal. apply IH. intros; apply H; now right. Qed.
Lemma take_while_none {A} (f : A -> bool) l : (forall x, In x l -> f x = false) -> take_while f l = [].
Proof. destruct l as [|a l]; intros H; [reflexivity|]. cbn. now rewrite H by now left. Qed.
Lemma types_of_dim_sel g mask c : wf_grid g -> c <= g_dim g ->
  types_of_dim g (g_dim g - c) (sel g mask) = if nth c mask false then g_types g c else [].
Proof.
  intros W Hc. unfold types_of_dim, sel.
  replace (S (g_dim g)) with (c + S (g_dim g - c)) by lia. rewrite seq_app, flat_map_app. cbn [plus].
  assert (forall x k n, k + n <= S (g_dim g) -> In x (flat_map (fun c => if nth c mask false then g_types g c else []) (seq k n)) ->
            exists c', k <= c' < k + n /\ gt_dim g x = g_dim g - c') as H.
  { intros x k n L Hx. apply in_flat_map in Hx as (c' & Hc' & Hx). apply in_seq in Hc'. exists c'. split; [lia|].
    destruct (nth c' mask false); [|destruct Hx]. apply gt_dim_eq; auto; [lia|].
    apply (wf_types g W); auto; lia. }
  rewrite drop_while_all.
  2:{ intros x Hx. destruct (H x 0 c) as (c' & L & ->); [lia | exact Hx |]. apply Nat.ltb_lt. lia. }
  cbn [seq flat_map].
  rewrite drop_while_none, take_while_all, take_while_none, app_nil_r.
  - reflexivity.
  - intros x Hx. destruct (H x (S c) (g_dim g - c)) as (c' & L & ->); [lia | exact Hx |]. apply negb_false_iff, Nat.ltb_lt. lia.
  - intros x Hx. destruct (H x c 1) as (c' & L & ->); [lia | cbn; now rewrite app_nil_r|]. apply negb_true_iff, Nat.ltb_ge. lia.
  - intros x Hx. destruct (H x c (S (g_dim g - c))) as (c' & L & ->); [lia | exact Hx |]. apply Nat.ltb_ge. lia.
Qed.

(** ** The common part of the update *)
Definition arrays (g : grid) (s : istate) : Prop :=
  length (gt_off s) = S (g_ngt g) /\ length (mapped s) = S (g_ngt g) /\ length (active_gts s) = g_ngt g.

Lemma map_const_length {A B C} (x : C) (l : list A) (l' : list B) : length l = length l' -> map (fun _ => x) l = map (fun _ => x) l'.
Proof. revert l'. induction l; intros [|b l'] H; try discriminate; [reflexivity|]. cbn. f_equal. apply IHl. now injection H. Qed.

Lemma base_ok g s force : wf_grid g -> arrays g s -> needs_update s || force = true ->
  exists act off, base_update g s force =
    Ok (true, mkis false (wanted s) act (wanted s) off (map (fun _ => 0) (seq 0 (S (g_ngt g)))) (sel g (wanted s))
                   (map (fun c => if nth c (wanted s) false then g_types g c else []) (seq 0 (S (g_dim g)))) (indices s))
  /\ length act = g_ngt g /\ (forall t, nth t act false = true <-> In t (sel g (wanted s)))
  /\ length off = S (g_ngt g) /\ forall t, t <= g_ngt g -> nth_error off t = Some (pre (sz g (wanted s)) t).
Proof.
  intros W (L1 & L2 & L3) F. unfold base_update. rewrite F. cbn [negb].
  set (f := fun '(off, gts, act) t => let* off := wr off (t + 1) (g_size g t) in let* act := wr act t true in Ok (off, gts ++ [t], act)).
  assert (exists off act, foldM f (sel g (wanted s)) (map (fun _ => 0) (gt_off s), [], map (fun _ => false) (active_gts s)) = Ok (off, sel g (wanted s), act)
    /\ length act = g_ngt g /\ (forall t, nth t act false = true <-> In t (sel g (wanted s)))
    /\ length off = S (g_ngt g) /\ nth_error off 0 = Some 0 /\ forall t, t < g_ngt g -> nth_error off (t + 1) = Some (sz g (wanted s) t)) as (off & act & E & H).
  { destruct (foldM_inv f (fun p '(off, gts, act) => gts = p /\ length act = g_ngt g /\ (forall t, nth t act false = true <-> In t p)
       /\ length off = S (g_ngt g) /\ nth_error off 0 = Some 0
       /\ forall t, t < g_ngt g -> nth_error off (t + 1) = Some (if in_dec Nat.eq_dec t p then g_size g t else 0))
       (sel g (wanted s)) (map (fun _ => 0) (gt_off s), [], map (fun _ => false) (active_gts s))) as ([[off gts] act] & E & H).
    - rewrite !map_length. repeat split; auto.
      + intros E. exfalso. destruct (le_lt_dec (length (active_gts s)) t) as [K|K].
        * rewrite nth_overflow in E by now rewrite map_length. discriminate.
        * erewrite nth_error_nth in E by (apply (nth_error_zeros false); exact K). discriminate.
      + apply nth_error_zeros. lia.
      + intros t Ht. cbn. apply nth_error_zeros. lia.
    - intros p t [[off gts] act] (-> & La & Ha & Lo & H0 & Ho) Ht. apply (sel_lt g _ _ W) in Ht. unfold f.
      rewrite wr_ok by lia. cbn [bind]. rewrite wr_ok by lia. cbn [bind]. eexists. split; [reflexivity|].
      cbv beta iota. rewrite !upd_length. repeat split; auto.
      + intros E. destruct (Nat.eq_dec t0 t) as [->|N]; [apply in_or_app; right; now left|].
        rewrite upd_nth_other in E by lia. apply in_or_app; left. now apply Ha.
      + intros E. destruct (Nat.eq_dec t0 t) as [->|N]; [apply upd_nth_same; lia|].
        rewrite upd_nth_other by lia. apply Ha. apply in_app_iff in E as [E|[E|[]]]; auto; lia.
      + rewrite upd_nth_error_other by lia. exact H0.
      + intros u Hu. rewrite nth_error_upd, Ho by lia. destruct (u + 1 =? t + 1) eqn:E.
        * assert (u = t) by lia. subst. destruct in_dec as [_|N]; [reflexivity|]. destruct N. apply in_or_app. right. now left.
        * destruct (in_dec _ u p) as [I|I], (in_dec _ u (p ++ [t])) as [J|J]; auto.
          -- destruct J. apply in_or_app. now left.
          -- apply in_app_iff in J as [J|[J|[]]]; [contradiction | lia].
    - exists off, act. destruct H as (-> & H). split; [exact E | exact H]. }
  destruct H as (La & Ha & Lo & H0 & Ho).
  exists act, (partial_sum 0 off).
  erewrite foldM_ext.
  2:{ intros [[x y] z] c. instantiate (1 := fun st c => if nth c (wanted s) false then foldM f (g_types g c) st else Ok st). reflexivity. }
  rewrite foldM_flat. fold (sel g (wanted s)). rewrite E. cbn [bind].
  split; [|split; [exact La|split; [exact Ha|split; [now rewrite partial_sum_length|]]]].
  - do 3 f_equal.
    + apply map_const_length. now rewrite seq_length.
    + apply map_ext_in. intros c Hc. apply in_seq in Hc. apply types_of_dim_sel; auto; lia.
  - intros t Ht. eapply partial_sum_pre; eauto.
Qed.

(** ** The entities *)
Lemma NoDup_map_inj {A B} (f : A -> B) l x y : NoDup (map f l) -> In x l -> In y l -> f x = f y -> x = y.
Proof.
  induction l as [|a l IH]; intros N Hx Hy E; [destruct Hx|]. inversion N; subst. destruct Hx as [<-|Hx], Hy as [<-|Hy]; auto.
  - destruct H1. rewrite E. now apply in_map.
  - destruct H1. rewrite <- E. now apply in_map.
Qed.
Lemma base_inj g e e' : wf_grid g -> In e (g_entities g) -> In e' (g_entities g) -> e_gt e = e_gt e' -> e_base e = e_base e' -> e = e'.
Proof.
  intros W He He' Eg Eb. destruct (wf_entity g W e He) as [Hc Ht].
  pose proof (wf_index g W _ _ Hc Ht) as Pm. eapply NoDup_map_inj with (f := e_base).
  - eapply Permutation_NoDup; [symmetry; exact Pm | apply seq_NoDup].
  - apply filter_In. split; [exact He | apply Nat.eqb_refl].
  - apply filter_In. split; [exact He' | now apply Nat.eqb_eq].
  - exact Eb.
Qed.
Lemma base_lt g e : wf_grid g -> In e (g_entities g) -> e_base e < g_size g (e_gt e).
Proof.
  intros W He. destruct (wf_entity g W e He) as [Hc Ht].
  pose proof (wf_index g W _ _ Hc Ht) as Pm.
  assert (In (e_base e) (seq 0 (g_size g (e_gt e)))) as I.
  { eapply Permutation_in; [exact Pm|]. apply in_map, filter_In. split; [exact He | apply Nat.eqb_refl]. }
  apply in_seq in I. lia.
Qed.
Lemma entities_NoDup g : wf_grid g -> NoDup (g_entities g).
Proof.
  intros W. assert (forall l, incl l (g_entities g) -> (forall t, (exists e, In e l /\ e_gt e = t) -> NoDup (filter (fun e => e_gt e =? t) l)) -> NoDup l) as H.
  { induction l as [|a l IH]; intros Hi Hn; [constructor|].
    pose proof (Hn (e_gt a) (ex_intro _ a (conj (or_introl eq_refl) eq_refl))) as Na. cbn in Na. rewrite Nat.eqb_refl in Na.
    inversion Na; subst. constructor.
    - intros Hx. apply H1, filter_In. split; [exact Hx | apply Nat.eqb_refl].
    - apply IH; [intros x Hx; apply Hi; now right|]. intros t (e & He & <-).
      pose proof (Hn (e_gt e) (ex_intro _ e (conj (or_intror He) eq_refl))) as Ne. cbn in Ne.
      destruct (e_gt a =? e_gt e); [now inversion Ne | exact Ne]. }
  apply H; [apply incl_refl|]. intros t (e & He & <-). destruct (wf_entity g W e He) as [Hc Ht].
  apply (NoDup_map_inv e_base). eapply Permutation_NoDup; [symmetry; apply (wf_index g W _ _ Hc Ht) | apply seq_NoDup].
Qed.
Lemma members_in g P mask e : In e (members g P mask) <-> In e (g_entities g) /\ nth (e_codim e) mask false = true /\ P (e_part e) = true.
Proof. unfold members. rewrite filter_In, andb_true_iff. reflexivity. Qed.
Lemma members_NoDup g P mask : wf_grid g -> NoDup (members g P mask).
Proof. intros W. apply NoDup_filter, entities_NoDup, W. Qed.
Lemma member_sel g P mask e : wf_grid g -> In e (members g P mask) -> In (e_gt e) (sel g mask).
Proof.
  intros W H. apply members_in in H as (He & Hm & _). destruct (wf_entity g W e He) as [Hc Ht]. apply sel_in. eauto.
Qed.
Lemma member_gt g P mask e : wf_grid g -> In e (members g P mask) -> e_gt e < g_ngt g.
Proof. intros W H. eapply sel_lt; eauto using member_sel. Qed.
Lemma member_range g P mask e : wf_grid g -> In e (members g P mask) -> e_gt e < g_ngt g /\ e_base e < sz g mask (e_gt e).
Proof.
  intros W H. split; [eapply member_gt; eauto|]. unfold sz. destruct in_dec as [_|N]; [|destruct N; eapply member_sel; eauto].
  apply members_in in H as (H & _). now apply base_lt.
Qed.
Lemma member_codim g P mask e c : wf_grid g -> c <= g_dim g -> In e (members g P mask) ->
  (e_codim e =? c) = ((g_off g (g_dim g - c) <=? e_gt e) && (e_gt e <? g_off g (g_dim g - c + 1))).
Proof.
  intros W Hc H. apply members_in in H as (H & _). destruct (wf_entity g W e H) as [He Ht].
  apply (wf_types g W) in Ht; auto. destruct (Nat.eqb_spec (e_codim e) c) as [<-|N]; [lia|].
  symmetry. apply andb_false_iff.
  destruct (le_lt_dec (e_codim e) c).
  - right. apply Nat.ltb_ge. pose proof (off_le g W (g_dim g - c + 1) (g_dim g - e_codim e) ltac:(lia)). lia.
  - left. apply Nat.leb_gt. pose proof (off_le g W (g_dim g - e_codim e + 1) (g_dim g - c) ltac:(lia)). lia.
Qed.

(** ** What the update must achieve *)
Lemma numbering_intro g P mask idx uidx s : wf_grid g ->
  needs_update s = false -> active s = mask -> length (mapped s) = S (g_ngt g) ->
  geometry_types s = sel g mask ->
  per_codim s = map (fun c => if nth c mask false then g_types g c else []) (seq 0 (S (g_dim g))) ->
  (forall t, nth t (active_gts s) false = true <-> In t (sel g mask)) ->
  (forall t, t <= g_ngt g -> nth_error (mapped s) t = Some (pre (count (members g P mask)) t)) ->
  (forall e, In e (members g P mask) -> exists i, idx e = Ok i /\ i < count (members g P mask) (e_gt e)
      /\ uidx e = Ok (i + pre (count (members g P mask)) (e_gt e))) ->
  (forall e e' i, In e (members g P mask) -> In e' (members g P mask) -> e_gt e = e_gt e' -> idx e = Ok i -> idx e' = Ok i -> e = e') ->
  numbering g P mask idx uidx s.
Proof.
  intros W Hn Ha Lm Hg Hp Hact Hm Hi Hinj. set (M := members g P mask) in *.
  assert (NoDup M) as ND by (apply members_NoDup; auto).
  constructor.
  - intros t Ht. apply consecutive_intro.
    + now apply NoDup_filter.
    + intros e He. apply filter_In in He as (He & Et). apply Nat.eqb_eq in Et. subst t.
      destruct (Hi e He) as (i & E & L & _). exists i. split; [exact E | exact L].
    + intros x y i Hx Hy. apply filter_In in Hx as (Hx & Ex), Hy as (Hy & Ey). apply Nat.eqb_eq in Ex, Ey.
      apply Hinj; auto. congruence.
  - fold M. apply consecutive_intro; auto.
    + intros e He. destruct (Hi e He) as (i & E & L & U). eexists. split; [exact U|].
      rewrite <- (count_le M (g_ngt g)) by (intros; eapply member_gt; eauto).
      pose proof (pre_mono (count M) (S (e_gt e)) (g_ngt g) (member_gt _ _ _ _ W He)). rewrite pre_S in *. lia.
    + intros x y k Hx Hy Ex Ey. destruct (Hi x Hx) as (i & E & L & U), (Hi y Hy) as (j & E' & L' & U').
      rewrite U in Ex. rewrite U' in Ey. injection Ex as Ex. injection Ey as Ey.
      destruct (pre_inj (count M) (e_gt x) i (e_gt y) j) as [Eg Eij]; auto; [lia|]. subst j. eapply Hinj; eauto.
  - intros t Ht. unfold size_gt. rewrite Hn, (rd_some _ _ _ (Hm (t + 1) ltac:(lia))), (rd_some _ _ _ (Hm t ltac:(lia))). cbn [bind].
    f_equal. replace (t + 1) with (S t) by lia. rewrite pre_S. fold M. unfold count at 2. lia.
  - intros c Hc. unfold size_codim.
    assert (g_off g (g_dim g - c) <= g_off g (g_dim g - c + 1)) by (apply off_le; auto; lia).
    assert (g_off g (g_dim g - c + 1) <= g_ngt g) by (apply off_le; auto; lia).
    rewrite Hn, (rd_some _ _ _ (Hm (g_off g (g_dim g - c + 1)) ltac:(lia))), (rd_some _ _ _ (Hm (g_off g (g_dim g - c)) ltac:(lia))).
    cbn [bind]. f_equal. fold M. rewrite !pre_count.
    set (a := g_off g (g_dim g - c)) in *. set (b := g_off g (g_dim g - c + 1)) in *.
    assert (length (filter (fun e => e_gt e <? b) M) = length (filter (fun e => e_gt e <? a) M) + length (of_codim c M)) as E; [|lia].
    rewrite <- app_length. unfold of_codim. 
    rewrite (filter_ext_in (fun e => e_codim e =? c) (fun e => (a <=? e_gt e) && (e_gt e <? b)))
      by (intros e He; eapply member_codim; eauto).
    rewrite (Permutation_length (filter_split (fun e => e_gt e <? a) (fun e => (a <=? e_gt e) && (e_gt e <? b)) M ltac:(cbv beta; intros; lia))).
    f_equal. apply filter_ext. intros e. lia.
  - intros c Hc. unfold types_codim. rewrite Hn, Hp. apply rd_some. rewrite nth_error_map.
    rewrite (nth_error_nth' _ 0) by (rewrite seq_length; lia). rewrite seq_nth by lia. reflexivity.
  - intros t. unfold types_all. rewrite Hn, Hg. rewrite <- sel_in. split.
    + intros (l & E & Hl). injection E as <-. exact Hl.
    + eauto.
  - intros c. unfold contains_codim. now rewrite Ha.
  - intros t. unfold contains_gt. now rewrite Hact, sel_in.
Qed.

(** ** The sequence of entities visited by the two versions *)
Lemma by_codim_perm g P mask n :
  Permutation (flat_map (fun c => if nth c mask false then filter (fun e => P (e_part e)) (filter (fun e => e_codim e =? c) (g_entities g)) else []) (seq 0 n))
    (filter (fun e => (e_codim e <? n) && (nth (e_codim e) mask false && P (e_part e))) (g_entities g)).
Proof.
  induction n as [|n IH].
  - cbn [seq flat_map]. assert (filter (fun e => (e_codim e <? 0) && (nth (e_codim e) mask false && P (e_part e))) (g_entities g) = []) as ->; [|constructor].
    induction (g_entities g) as [|a l IH]; [reflexivity|]. cbn [filter]. rewrite IH. destruct (e_codim a <? 0) eqn:E; [lia|]. reflexivity.
  - rewrite seq_S, flat_map_app. cbn [flat_map plus]. rewrite app_nil_r.
    assert ((if nth n mask false then filter (fun e => P (e_part e)) (filter (fun e => e_codim e =? n) (g_entities g)) else [])
            = filter (fun e => (e_codim e =? n) && (nth (e_codim e) mask false && P (e_part e))) (g_entities g)) as ->.
    { rewrite filter_filter. destruct (nth n mask false) eqn:E.
      - apply filter_ext. intros e. destruct (Nat.eqb_spec (e_codim e) n) as [->|N]; cbn; [now rewrite E | reflexivity].
      - symmetry. clear IH. induction (g_entities g) as [|a l IHl]; [reflexivity|]. cbn [filter]. rewrite IHl.
        destruct (Nat.eqb_spec (e_codim a) n) as [->|N]; cbn; [now rewrite E | reflexivity]. }
    eapply perm_trans; [apply Permutation_app_tail; exact IH|].
    eapply perm_trans; [apply filter_split; cbv beta; intros; lia|].
    erewrite filter_ext; [reflexivity|]. intros e. cbv beta. destruct (nth (e_codim e) mask false && P (e_part e)); lia.
Qed.
Lemma visited_codims g P mask : wf_grid g ->
  Permutation (flat_map (fun c => if nth c mask false then filter (fun e => P (e_part e)) (filter (fun e => e_codim e =? c) (g_entities g)) else []) (seq 0 (S (g_dim g))))
    (members g P mask).
Proof.
  intros W. eapply perm_trans; [apply by_codim_perm|]. unfold members. erewrite filter_ext_in; [reflexivity|].
  intros e He. cbv beta. destruct (wf_entity g W e He) as [H _]. assert (e_codim e <? S (g_dim g) = true) as -> by lia. reflexivity.
Qed.
Lemma visited_elements g P mask : wf_grid g -> closed g P -> forall e,
  In e (flat_map (fun e => flat_map (fun c => if nth c mask false then filter (fun s => e_codim s =? c) (g_subs g e) else []) (seq 0 (S (g_dim g))))
          (filter (fun e => P (e_part e)) (filter (fun e => e_codim e =? 0) (g_entities g))))
  <-> In e (members g P mask).
Proof.
  intros W C s. rewrite in_flat_map. rewrite members_in. split.
  - intros (e & He & Hs). apply filter_In in He as (He & HP). apply filter_In in He as (He & H0). apply Nat.eqb_eq in H0.
    apply in_flat_map in Hs as (c & Hc & Hs). destruct (nth c mask false) eqn:E; [|destruct Hs].
    apply filter_In in Hs as (Hs & Ec). apply Nat.eqb_eq in Ec. subst c.
    destruct (proj2 (C s)) as [A B]; eauto 10.
  - intros (A & Hm & B). destruct (proj1 (C s) (conj A B)) as (e & He & H0 & HP & Hs).
    exists e. split; [apply filter_In; split; [apply filter_In; split; auto; now apply Nat.eqb_eq | exact HP]|].
    apply in_flat_map. exists (e_codim s). split; [apply in_seq; destruct (wf_entity g W s A); lia|].
    rewrite Hm. apply filter_In. split; [exact Hs | apply Nat.eqb_refl].
Qed.
