(** Proofs about coloured partitions. *)
From Verif Require Import Common CommonFacts PartModel PartSpec PartProofs PartProofs2 PartProofs3.

Definition numbered {A} (l : list A) : list (nat * A) := combine (seq 0 (length l)) l.

Lemma map_snd_combine {A B} : forall (l : list A) (l' : list B),
  length l = length l' -> map snd (combine l l') = l'.
Proof.
  induction l as [|a l IH]; intros [|b l'] H; cbn in *; try discriminate; auto.
  f_equal. apply IH. lia.
Qed.

Lemma numbered_snd {A} (l : list A) : map snd (numbered l) = l.
Proof. unfold numbered. apply map_snd_combine. apply seq_length. Qed.

Lemma numbered_fst {A} (l : list A) : map fst (numbered l) = seq 0 (length l).
Proof. unfold numbered. apply map_fst_combine. apply seq_length. Qed.

Definition colour (c : list (option nat)) (i : nat) : nat :=
  match nth i c None with Some x => x | None => 0 end.

(** Members of label [x]. *)
Definition members {A} (c : list (option nat)) (ps : list A) (x : nat) : list (nat * A) :=
  filter (fun ip => colour c (fst ip) =? x) (numbered ps).

Lemma assign_as_metis {A} c k : forall (l : list (nat * A)) ls,
  (forall ip, In ip l -> exists x, nth_error c (fst ip) = Some (Some x) /\ x < k) ->
  foldM (assign_label c) l ls
  = foldM (fun sp ip => match nth_error sp (snd ip) with
                        | Some y => Ok (upd (snd ip) (y ++ [fst ip]) sp)
                        | None => UB end)
      (map (fun ip => (snd ip, colour c (fst ip))) l) ls.
Proof.
  induction l as [|[i p] l IH]; intros ls H; cbn [foldM map]; auto.
  destruct (H (i, p)) as (x & E & _); [now left|]. cbn [fst snd] in *.
  unfold assign_label at 1. cbn [fst snd]. rewrite E. unfold colour at 1 2.
  rewrite (nth_error_nth _ _ _ E).
  destruct (nth_error ls x); cbn [bind]; auto. apply IH. intros ip Hip. apply H. now right.
Qed.

Lemma filter_map {A B} (f : B -> bool) (g : A -> B) : forall l,
  filter f (map g l) = map g (filter (fun x => f (g x)) l).
Proof.
  induction l as [|a l IH]; cbn; auto. destruct (f (g a)); cbn; now rewrite IH.
Qed.

Lemma labels_spec {A} c k (ps : list A) :
  (forall i, i < length ps -> exists x, nth_error c i = Some (Some x) /\ x < k) ->
  exists r, foldM (assign_label c) (combine (seq 0 (length ps)) ps) (repeat [] k) = Ok r
    /\ length r = k
    /\ (forall x, x < k -> nth x r [] = map snd (members c ps x))
    /\ Permutation (concat r) ps.
Proof.
  intro H. fold (numbered ps).
  assert (H' : forall ip, In ip (numbered ps) -> exists x, nth_error c (fst ip) = Some (Some x) /\ x < k).
  { intros [i p] Hi. apply in_numbered in Hi. cbn [fst]. apply H. apply nth_error_Some. congruence. }
  rewrite (assign_as_metis c k) by auto.
  set (l := map (fun ip => (snd ip, colour c (fst ip))) (numbered ps)).
  assert (F : Forall (fun x => snd x < k) l).
  { apply Forall_forall. intros y Hy. apply in_map_iff in Hy as (ip & <- & Hip). cbn [snd].
    destruct (H' ip Hip) as (x & E & Hx). unfold colour. now rewrite (nth_error_nth _ _ _ E). }
  destruct (metis_assign_spec k l (repeat [] k)) as (r & E1 & E2 & E3); auto.
  { apply repeat_length. }
  assert (E4 : forall x, x < k -> nth x r [] = map fst (filter (fun y => snd y =? x) l)).
  { intros x Hx. rewrite E3 by auto. now rewrite nth_repeat. }
  exists r. split; [exact E1|]. split; [auto|]. split.
  - intros x Hx. rewrite E4 by auto. unfold l. rewrite filter_map, map_map. reflexivity.
  - assert (El : map fst l = ps).
    { unfold l. rewrite map_map. cbn [fst]. apply numbered_snd. }
    rewrite <- El at 1. rewrite <- (parts_perm k l F).
    replace r with (map (fun x => map fst (filter (fun y => snd y =? x) l)) (seq 0 k)); auto.
    apply nth_ext with (d := []) (d' := []).
    + rewrite map_length, seq_length. auto.
    + rewrite map_length, seq_length. intros i Hi. rewrite E4 by auto.
      set (f := fun x => map fst (filter (fun y => snd y =? x) l)).
      rewrite (nth_indep _ [] (f 0)) by (rewrite map_length, seq_length; auto).
      rewrite map_nth, seq_nth by auto. reflexivity.
Qed.

Lemma nodup_map_filter {A B} (f : A -> B) (p : A -> bool) : forall l,
  NoDup (map f l) -> NoDup (map f (filter p l)).
Proof.
  induction l as [|a l IH]; cbn; intro N; auto. inversion N; subst.
  destruct (p a); cbn; auto. constructor; auto. intro I.
  apply H1. apply in_map_iff in I as (x & E & I). apply filter_In in I as [I _].
  apply in_map_iff. eauto.
Qed.

Lemma members_nth {A} c (ps : list A) x i p :
  nth_error (map snd (members c ps x)) i = Some p ->
  exists a, nth_error (members c ps x) i = Some (a, p) /\ nth_error ps a = Some p /\ colour c a = x.
Proof.
  intro E. rewrite nth_error_map in E.
  destruct (nth_error (members c ps x) i) as [[a q]|] eqn:F; cbn in E; [|discriminate].
  injection E as ->. exists a. split; auto. apply nth_error_In in F.
  apply filter_In in F as [F1 F2]. cbn [fst] in F2. apply Nat.eqb_eq in F2.
  apply in_numbered in F1. auto.
Qed.

Lemma members_distinct {A} c (ps : list A) x i j a b (p q : A) : i <> j ->
  nth_error (members c ps x) i = Some (a, p) -> nth_error (members c ps x) j = Some (b, q) -> a <> b.
Proof.
  intros N Ei Ej ->.
  assert (D : NoDup (map fst (members c ps x))).
  { apply nodup_map_filter. rewrite numbered_fst. apply seq_NoDup. }
  apply N. rewrite NoDup_nth_error in D. apply D.
  - rewrite map_length. apply nth_error_Some. congruence.
  - rewrite !nth_error_map, Ei, Ej. reflexivity.
Qed.

(** The rows of the graph, without the vertex itself, list the conflicting patches. *)
Lemma others_conflicting m h ps i : mesh_ok m -> 
  conflicting m h ps i (filter (fun j => negb (i =? j)) (nth i (make_graph m h ps) [])).
Proof.
  intro M. destruct (make_graph_spec m h ps M) as (G1 & G2 & G3 & G4 & G5). split.
  - apply NoDup_filter. eapply inc_nodup. apply G2.
  - intro j. rewrite filter_In, negb_true_iff, Nat.eqb_neq. split.
    + intros [H N]. split; auto. now apply G5.
    + intros [N H]. split; auto. now apply G5.
Qed.

Lemma filter_not_length i : forall l : list nat, NoDup l ->
  length l <= S (length (filter (fun j => negb (i =? j)) l)).
Proof.
  induction l as [|x l IH]; intro N; cbn [filter length]; [lia|].
  inversion N; subst. destruct (i =? x) eqn:E; cbn [negb].
  - apply Nat.eqb_eq in E. subst x.
    replace (filter (fun j => negb (i =? j)) l) with l; [lia|].
    clear -H1. induction l as [|y l IH]; cbn; auto.
    destruct (i =? y) eqn:E; cbn.
    + apply Nat.eqb_eq in E. subst. exfalso. apply H1. now left.
    + f_equal. apply IH. intro. apply H1. now right.
  - cbn [length]. specialize (IH H2). lia.
Qed.

Lemma filter_length_le {A} (f : A -> bool) l : length (filter f l) <= length l.
Proof. induction l as [|a l IH]; cbn; auto. destruct (f a); cbn; lia. Qed.

Lemma conflicting_unique m h ps i l l' : conflicting m h ps i l -> conflicting m h ps i l' ->
  length l = length l'.
Proof.
  intros [N1 H1] [N2 H2]. apply Nat.le_antisymm; apply NoDup_incl_length; auto;
    intros x Hx; [apply H2, H1|apply H1, H2]; auto.
Qed.

Lemma colored_ok m h base : mesh_ok m ->
  (forall v, v < length (concat base) ->
     length (nth v (make_graph m h (concat base)) []) < max_degree) ->
  exists labels, colored_update m (Dist h) base = Ok labels
    /\ Permutation (concat labels) (concat base)
    /\ (forall x i j p q, i <> j -> patch_of (nth x labels []) i p -> patch_of (nth x labels []) j q ->
          ~ conflict m h p q)
    /\ (concat base <> [] -> forall label, In label labels -> label <> [])
    /\ (forall D, (forall i l, conflicting m h (concat base) i l -> length l <= D) ->
          length labels <= D + 1).
Proof.
  intros M D. set (ps := concat base) in *. set (g := make_graph m h ps) in *.
  destruct (make_graph_spec m h ps M) as (G1 & G2 & G3 & G4 & G5). fold g in G1, G2, G3, G4, G5.
  destruct (make_colors_spec g) as (c & k & E1 & E2 & E3 & E4 & E5 & E6).
  { intros v w H. rewrite G1. eauto. } { exact G3. } { rewrite G1. exact D. }
  rewrite G1 in *.
  destruct (labels_spec c k ps) as (r & R1 & R2 & R3 & R4).
  { intros i Hi. destruct (E3 i Hi) as (x & ? & ? & _). eauto. }
  exists r. unfold colored_update. fold ps. fold g. rewrite E1. cbn [bind fst snd].
  split; [exact R1|]. split; [exact R4|]. split; [|split].
  - intros x i j p q N Hi Hj (s & Ta & Tb).
    assert (Lx : x < k).
    { rewrite <- R2. destruct (Nat.lt_ge_cases x (length r)); auto.
      unfold patch_of in Hi. rewrite nth_overflow in Hi by auto. destruct i; discriminate Hi. }
    unfold patch_of in Hi, Hj. rewrite R3 in Hi, Hj by auto.
    apply members_nth in Hi as (a & Ma & Pa & Ca). apply members_nth in Hj as (b & Mb & Pb & Cb).
    assert (Nab : a <> b) by (eapply members_distinct; eauto).
    assert (La : a < length ps) by (apply nth_error_Some; congruence).
    assert (Lb : b < length ps) by (apply nth_error_Some; congruence).
    destruct (E3 a La) as (xa & Ea & _). destruct (E3 b Lb) as (xb & Eb & _).
    unfold colour in Ca, Cb. rewrite (nth_error_nth _ _ _ Ea) in Ca. rewrite (nth_error_nth _ _ _ Eb) in Cb.
    subst xa xb. apply (E4 a b x); auto. apply G5; auto. exists p, q. repeat split; auto. exists s. auto.
  - intros NE label Hl. destruct (In_nth _ _ [] Hl) as (x & Lx & <-).
    rewrite R2 in Lx. rewrite R3 by auto.
    assert (W : exists v, v < length ps /\ nth_error c v = Some (Some x)).
    { assert (Top : exists v, v < length ps /\ nth_error c v = Some (Some (k - 1))).
      { destruct E5 as [->|(v & Hv & Ev)]; [|eauto].
        destruct ps as [|p0 ps0]; [congruence|]. exists 0. split; [cbn; lia|].
        destruct (E3 0) as (y & Ey & Ly & _); [cbn; lia|]. replace (1 - 1) with y by lia. auto. }
      destruct Top as (v & Hv & Ev). destruct (Nat.eq_dec x (k - 1)) as [->|N]; [eauto|].
      destruct (E3 v Hv) as (y & Ey & _ & Fy).
      assert (y = k - 1) by congruence. subst y.
      destruct (Fy x) as (u & Hu & _ & Eu); [lia|]. exists u. split; auto.
      eapply G4. eassumption. }
    destruct W as (v & Hv & Ev).
    destruct (nth_error ps v) as [p|] eqn:Ep.
    2:{ apply nth_error_None in Ep. lia. }
    assert (I : In (v, p) (members c ps x)).
    { apply filter_In. split; [now apply in_numbered|]. cbn [fst]. unfold colour.
      rewrite (nth_error_nth _ _ _ Ev). apply Nat.eqb_refl. }
    destruct (members c ps x); [destruct I|discriminate].
  - intros B HB. rewrite R2. destruct E5 as [->|(v & Hv & Ev)]; [lia|].
    destruct (E3 v Hv) as (y & Ey & _ & Fy). assert (y = k - 1) by congruence. subst y.
    specialize (HB v _ (others_conflicting m h ps v M)). fold g in HB.
    enough (k - 1 <= length (filter (fun j => negb (v =? j)) (nth v g []))) by lia.
    rewrite <- (map_length (colour c)). rewrite <- (seq_length (k - 1) 0).
    apply NoDup_incl_length; [apply seq_NoDup|].
    intros x Hx. apply in_seq in Hx. destruct (Fy x) as (u & Hu & Nu & Eu); [lia|].
    apply in_map_iff. exists u. unfold colour. rewrite (nth_error_nth _ _ _ Eu). split; auto.
    apply filter_In. split; auto. apply negb_true_iff. apply Nat.eqb_neq. auto.
Qed.

Lemma colored_throw m h base : mesh_ok m ->
  (exists v, v < length (concat base)
     /\ max_degree <= length (nth v (make_graph m h (concat base)) [])) ->
  colored_update m (Dist h) base = Throw.
Proof.
  intros M H. unfold colored_update, make_colors.
  destruct (make_graph_spec m h (concat base) M) as (G1 & _ & G3 & G4 & _).
  rewrite init_throws; rewrite ?G1; auto.
Qed.

Lemma colored_cases m h base : mesh_ok m ->
  (forall v, v < length (concat base) ->
     length (nth v (make_graph m h (concat base)) []) < max_degree)
  \/ (exists v, v < length (concat base)
        /\ max_degree <= length (nth v (make_graph m h (concat base)) [])).
Proof.
  intros _. generalize (make_graph m h (concat base)). intro g.
  induction (length (concat base)) as [|n IH]; [left; lia|].
  destruct IH as [IH|(v & Hv & H)]; [|right; exists v; split; [lia|auto]].
  destruct (Nat.lt_ge_cases (length (nth n g [])) max_degree) as [L|L].
  - left. intros v Hv. destruct (Nat.eq_dec v n) as [->|]; auto. apply IH. lia.
  - right. exists n. split; [lia|auto].
Qed.
