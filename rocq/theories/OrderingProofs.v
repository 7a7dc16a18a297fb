From Verif Require Import Common CommonFacts OrderingModel OrderingSpec.

(* ------------------------------------------------------------------ generic facts *)

Lemma at_ok {A} (l : list A) i x : nth_error l i = Some x -> at_ l i = Ok x.
Proof. unfold at_. now intros ->. Qed.

Lemma at_inv {A} (l : list A) i x : at_ l i = Ok x -> nth_error l i = Some x.
Proof. unfold at_. destruct (nth_error l i); congruence. Qed.

Lemma at_nth {A} (l : list A) i d : i < length l -> at_ l i = Ok (nth i l d).
Proof. intros H. apply at_ok. now apply nth_error_nth'. Qed.

Lemma at_map {A B} (f : A -> B) l i x : nth_error l i = Some x -> at_ (map f l) i = Ok (f x).
Proof. intros H. apply at_ok. now apply map_nth_error. Qed.

Definition pre (w : list nat) (g : nat) : nat := sum_nat (firstn g w).

Lemma sum_nat_cons x l : sum_nat (x :: l) = x + sum_nat l.
Proof. reflexivity. Qed.

Lemma psums_last a l : last (psums a l) 0 = a + sum_nat l.
Proof.
  revert a; induction l as [|x l IH]; intros a; [cbn; lia|].
  rewrite sum_nat_cons. replace (last (psums a (x :: l)) 0) with (last (psums (a + x) l) 0).
  - rewrite IH; lia.
  - cbn. destruct (psums (a + x) l) eqn:E; [|reflexivity].
    pose proof (psums_length (a + x) l) as L. rewrite E in L. discriminate.
Qed.

Lemma at_psums l k : k <= length l -> at_ (psums 0 l) k = Ok (pre l k).
Proof.
  intros H. rewrite (at_nth _ _ 0) by (rewrite psums_length; lia).
  rewrite psums_nth by lia. reflexivity.
Qed.

Lemma nth_psums l k : k <= length l -> nth k (psums 0 l) 0 = pre l k.
Proof. intros H. rewrite psums_nth by lia. reflexivity. Qed.

Lemma pre_S w g : pre w (S g) = pre w g + nth g w 0.
Proof.
  unfold pre. revert g; induction w as [|x w IH]; intros g; [destruct g; reflexivity|].
  destruct g; [cbn; lia|]. change (firstn (S (S g)) (x :: w)) with (x :: firstn (S g) w).
  change (firstn (S g) (x :: w)) with (x :: firstn g w). rewrite !sum_nat_cons, IH. cbn [nth]. lia.
Qed.

Lemma pre_mono w g g' : g <= g' -> pre w g <= pre w g'.
Proof. induction 1; [lia|]. rewrite pre_S. lia. Qed.

Lemma pre_all w g : length w <= g -> pre w g = sum_nat w.
Proof. intros H. unfold pre. now rewrite firstn_all2. Qed.

Lemma pre_le_sum w g : pre w g <= sum_nat w.
Proof.
  destruct (le_lt_dec (length w) g); [rewrite pre_all; lia|].
  rewrite <- (pre_all w (length w)) by lia. apply pre_mono; lia.
Qed.

Lemma pre_bound w g r : r < nth g w 0 -> pre w g + r < sum_nat w.
Proof. intros H. pose proof (pre_le_sum w (S g)) as L. rewrite pre_S in L. lia. Qed.

Lemma pre_inj w g r g' r' :
  r < nth g w 0 -> r' < nth g' w 0 -> pre w g + r = pre w g' + r' -> g = g' /\ r = r'.
Proof.
  intros H H' E.
  destruct (lt_eq_lt_dec g g') as [[L| ->]|L]; [|lia|].
  - pose proof (pre_mono w (S g) g' L). rewrite pre_S in *. lia.
  - pose proof (pre_mono w (S g') g L). rewrite pre_S in *. lia.
Qed.

Lemma pre_surj w k : k < sum_nat w -> exists g r, g < length w /\ r < nth g w 0 /\ k = pre w g + r.
Proof.
  revert k; induction w as [|x w IH]; intros k H; [cbn in H; lia|].
  rewrite sum_nat_cons in H. destruct (lt_dec k x) as [L|L].
  - exists 0, k. cbn. lia.
  - destruct (IH (k - x)) as (g & r & Hg & Hr & E); [lia|].
    exists (S g), r. cbn [length nth]. repeat split; try lia.
    unfold pre in *. cbn [firstn]. rewrite sum_nat_cons. lia.
Qed.

Lemma nth_nth_error {A} (l : list A) i d x : nth_error l i = Some x -> nth i l d = x.
Proof. apply nth_error_nth. Qed.

Lemma nth_map_in {A} (f : A -> nat) l i x d : nth_error l i = Some x -> nth i (map f l) d = f x.
Proof. intros H. apply nth_error_nth. now apply map_nth_error. Qed.

Lemma nth_map_seq (f : nat -> nat) n i : i < n -> nth i (map f (seq 0 n)) 0 = f i.
Proof.
  intros H. rewrite nth_indep with (d' := f 0) by (rewrite map_length, seq_length; lia).
  rewrite map_nth, seq_nth by lia. reflexivity.
Qed.

Lemma firstn_map_ {A B} (f : A -> B) n l : firstn n (map f l) = map f (firstn n l).
Proof. apply firstn_map. Qed.

Lemma nth_error_concat {A} (ls : list (list A)) g r l :
  nth_error ls g = Some l -> r < length l ->
  nth_error (concat ls) (pre (map (@length A) ls) g + r) = nth_error l r.
Proof.
  revert g; induction ls as [|h ls IH]; intros g E H; [destruct g; discriminate|].
  destruct g as [|g]; cbn in E.
  - injection E as ->. unfold pre. cbn. now rewrite nth_error_app1.
  - unfold pre. cbn [map firstn concat]. rewrite sum_nat_cons, nth_error_app2 by lia.
    replace (length h + sum_nat (firstn g (map (length (A:=A)) ls)) + r - length h)
      with (pre (map (length (A:=A)) ls) g + r) by (unfold pre; lia).
    now apply IH.
Qed.

Lemma pre_uniform {A} (ls : list (list A)) cc g :
  (forall l, In l ls -> length l = cc) -> g <= length ls -> pre (map (@length A) ls) g = g * cc.
Proof.
  revert g; induction ls as [|h ls IH]; intros g H L; cbn [length] in L.
  - destruct g; [reflexivity|lia].
  - destruct g; [reflexivity|]. unfold pre. cbn [map firstn]. rewrite sum_nat_cons.
    rewrite (H h) by now left. change (sum_nat (firstn g (map (length (A:=A)) ls))) with (pre (map (length (A:=A)) ls) g).
    rewrite IH; [lia| |lia]. intros l Hl; apply H; now right.
Qed.

Lemma nth_error_concat_uniform {A} (ls : list (list A)) cc g r l :
  (forall l, In l ls -> length l = cc) -> nth_error ls g = Some l -> r < cc ->
  nth_error (concat ls) (g * cc + r) = nth_error l r.
Proof.
  intros H E L. rewrite <- (pre_uniform ls cc g); auto.
  - apply nth_error_concat; auto. rewrite (H l); auto. eapply nth_error_In; eauto.
  - apply Nat.lt_le_incl. apply nth_error_Some. congruence.
Qed.

Lemma nth_error_map_seq {A} (f : nat -> A) n i : i < n -> nth_error (map f (seq 0 n)) i = Some (f i).
Proof.
  intros H. apply map_nth_error.
  rewrite (nth_error_nth' _ 0) by (rewrite seq_length; lia). now rewrite seq_nth by lia.
Qed.

Lemma nth_error_row w j : j < length w -> nth_error (tl (psums 0 w)) j = Some (pre w (S j)).
Proof.
  intros H.
  assert (E : forall a l, nth_error (tl (psums a l)) j = nth_error (psums a l) (S j)) by (intros a [|x l]; reflexivity).
  rewrite E, (nth_error_nth' _ 0) by (rewrite psums_length; lia).
  now rewrite nth_psums by lia.
Qed.

Lemma row_length a w : length (tl (psums a w)) = length w.
Proof. pose proof (psums_length a w). destruct (psums a w); cbn in *; lia. Qed.

(* ------------------------------------------------------------------ induction over trees *)

Lemma ltree_ind' (P : ltree -> Prop) :
  (forall s, P (LLeaf s)) -> (forall b cs, Forall P cs -> P (LNode b cs)) -> forall t, P t.
Proof.
  intros Hl Hn. fix IH 1. intros [s|b cs]; [apply Hl|]. apply Hn.
  induction cs as [|c cs IHcs]; constructor; auto.
Qed.

Lemma ord_ind' (P : ord -> Prop) :
  (forall b s, P (OLeaf b s)) -> (forall b ents t, P (OGV b ents t)) ->
  (forall b cs, Forall P cs -> P (OLex b cs)) ->
  (forall b m cs, Forall P cs -> P (OInter b m cs)) ->
  (forall bs o, P o -> P (OChunk bs o)) -> (forall perm o, P o -> P (OPerm perm o)) ->
  forall o, P o.
Proof.
  intros H1 H2 H3 H4 H5 H6. fix IH 1. intros [b s|b ents t|b cs|b m cs|bs o|perm o];
    [apply H1|apply H2| | |apply H5; apply IH|apply H6; apply IH].
  - apply H3. induction cs as [|c cs IHcs]; constructor; auto.
  - apply H4. induction cs as [|c cs IHcs]; constructor; auto.
Qed.

Lemma Forall_nth_error {A} (P : A -> Prop) l i x : Forall P l -> nth_error l i = Some x -> P x.
Proof. intros H E. rewrite Forall_forall in H. apply H. eapply nth_error_In; eauto. Qed.

(* ------------------------------------------------------------------ leaf sizes *)

Lemma dofs_on_leaf_size s gt e : 0 < dofs_on s (gt, e) -> dofs_on s (gt, e) = leaf_ent_size s gt e.
Proof.
  unfold dofs_on, leaf_ent_size; cbn. destruct s as [gts|gts].
  - destruct (nth_error gts gt) as [[n d]|] eqn:E; [|lia].
    rewrite (nth_nth_error _ _ (0, 0) _ E). cbn. destruct (e <? n); lia.
  - destruct (nth_error gts gt) as [l|] eqn:E; [|lia]. now rewrite (nth_nth_error _ _ [] _ E).
Qed.

Lemma dofs_on_grid ents s gt e : sizes_for ents s -> 0 < dofs_on s (gt, e) -> gt < length ents /\ e < nth gt ents 0.
Proof.
  destruct s as [gts|gts]; cbn; intros Hs H.
  - destruct (nth_error gts gt) as [[n d]|] eqn:E; [|lia].
    destruct (e <? n) eqn:L; [|lia]. subst ents. split.
    + rewrite map_length. apply nth_error_Some. congruence.
    + rewrite (nth_map_in fst _ _ _ 0 E). cbn. lia.
  - destruct Hs as [Hl Hs]. destruct (nth_error gts gt) as [l|] eqn:E; [|lia].
    split.
    + rewrite <- Hl. apply nth_error_Some. congruence.
    + destruct (Hs _ _ E) as [->|<-]; [destruct e; cbn in H; lia|].
      destruct (lt_dec e (length l)); auto. rewrite nth_overflow in H; lia.
Qed.

Lemma dofs_on_in_grid ents s gt e :
  sizes_for ents s -> gt < length ents -> e < nth gt ents 0 -> dofs_on s (gt, e) = leaf_ent_size s gt e.
Proof.
  destruct s as [gts|gts]; cbn; intros Hs Hg He.
  - subst ents. rewrite map_length in Hg.
    destruct (nth_error gts gt) as [[n d]|] eqn:E; [|apply nth_error_None in E; lia].
    rewrite (nth_map_in fst _ _ _ 0 E) in He. cbn in He.
    rewrite (nth_nth_error _ _ (0, 0) _ E). cbn. destruct (e <? n) eqn:L; lia.
  - destruct Hs as [Hl Hs]. destruct (nth_error gts gt) as [l|] eqn:E; [|apply nth_error_None in E; lia].
    now rewrite (nth_nth_error _ _ [] _ E).
Qed.

(* ------------------------------------------------------------------ local orderings *)

Lemma lfixed_size_indep ents t gt e e' : lfixed t = true -> lsize ents t gt e = lsize ents t gt e'.
Proof.
  destruct t as [[gts|gts]|b cs]; cbn; try discriminate; auto. intros ->. reflexivity.
Qed.

Lemma existsb_false_in {A} (f : A -> bool) l x : existsb f l = false -> In x l -> f x = false.
Proof.
  intros H Hx. destruct (f x) eqn:E; auto.
  enough (existsb f l = true) by congruence. apply existsb_exists. eauto.
Qed.

Lemma unused_size ents t gt e : lused t gt = false -> lsize ents t gt e = 0 \/ exists b cs, t = LNode b cs /\ forallb lfixed cs = true.
Proof.
  destruct t as [[gts|gts]|b cs]; cbn; intros H.
  - left. lia.
  - left. destruct (nth gt gts []); [|discriminate]. destruct e; reflexivity.
  - destruct (forallb lfixed cs) eqn:F; [eauto 6|]. left. now rewrite H.
Qed.

(** child sizes of a node for one entity *)
Definition csizes (ents : list nat) (cs : list ltree) (gt e : nat) : list nat := map (fun c => lsize ents c gt e) cs.

Lemma csizes_map ents cs gt e : map (fun f : nat -> nat -> nat => f gt e) (map (fun c => lsize ents c) cs) = csizes ents cs gt e.
Proof. unfold csizes. now rewrite map_map. Qed.

Lemma fixed_table_nth ents cs gt j :
  gt < length ents -> j < length cs ->
  nth_error (fixed_table (length ents) (map (fun c => lsize ents c) cs)) (gt * length cs + j) = Some (pre (csizes ents cs gt 0) (S j)).
Proof.
  intros Hg Hj. unfold fixed_table.
  rewrite (nth_error_concat_uniform _ (length cs) gt j (tl (psums 0 (csizes ents cs gt 0)))); auto.
  - apply nth_error_row. unfold csizes. now rewrite map_length.
  - intros l Hl. apply in_map_iff in Hl. destruct Hl as (g & <- & _).
    rewrite row_length, !map_length. reflexivity.
  - rewrite nth_error_map_seq by auto. now rewrite csizes_map.
Qed.

(** rows of the per-entity table *)
Lemma concat_map_if_lengths (ents : list nat) (used : nat -> bool) {A} (f : nat -> nat -> A) :
  map (@length A) (map (fun gt => if used gt then map (f gt) (seq 0 (nth gt ents 0)) else []) (seq 0 (length ents)))
  = map (fun gt => if used gt then nth gt ents 0 else 0) (seq 0 (length ents)).
Proof.
  rewrite map_map. apply map_ext. intros gt. destruct (used gt); auto. now rewrite map_length, seq_length.
Qed.

Lemma nth_error_entities {A} (ents : list nat) (used : nat -> bool) (f : nat -> nat -> A) gt e :
  gt < length ents -> e < nth gt ents 0 -> used gt = true ->
  nth_error (concat (map (fun gt => if used gt then map (f gt) (seq 0 (nth gt ents 0)) else []) (seq 0 (length ents))))
            (pre (map (fun gt => if used gt then nth gt ents 0 else 0) (seq 0 (length ents))) gt + e) = Some (f gt e).
Proof.
  intros Hg He Hu. rewrite <- (concat_map_if_lengths ents used f).
  rewrite (nth_error_concat _ gt e (map (f gt) (seq 0 (nth gt ents 0)))).
  - now apply nth_error_map_seq.
  - rewrite nth_error_map_seq by auto. now rewrite Hu.
  - now rewrite map_length, seq_length.
Qed.

Lemma entity_table_rows ents used sz :
  entity_table ents used sz =
  concat (concat (map (fun gt => if used gt then map (fun e => tl (psums 0 (map (fun f : nat -> nat -> nat => f gt e) sz))) (seq 0 (nth gt ents 0)) else []) (seq 0 (length ents)))).
Proof.
  unfold entity_table. induction (seq 0 (length ents)) as [|g l IH]; auto.
  cbn [map concat]. rewrite IH, concat_app. destruct (used g); reflexivity.
Qed.

Lemma at_node_entity_offsets ents used gt :
  gt <= length ents ->
  at_ (node_entity_offsets ents used) gt = Ok (pre (map (fun gt => if used gt then nth gt ents 0 else 0) (seq 0 (length ents))) gt).
Proof. intros H. unfold node_entity_offsets. apply at_psums. rewrite map_length, seq_length. lia. Qed.

Lemma entity_table_nth ents used cs gt e j :
  gt < length ents -> e < nth gt ents 0 -> used gt = true -> j < length cs ->
  nth_error (entity_table ents used (map (fun c => lsize ents c) cs))
     ((pre (map (fun gt => if used gt then nth gt ents 0 else 0) (seq 0 (length ents))) gt + e) * length cs + j)
  = Some (pre (csizes ents cs gt e) (S j)).
Proof.
  intros Hg He Hu Hj. rewrite entity_table_rows.
  rewrite (nth_error_concat_uniform _ (length cs) _ j (tl (psums 0 (csizes ents cs gt e)))); auto.
  - apply nth_error_row. unfold csizes. now rewrite map_length.
  - intros l Hl. apply in_concat in Hl. destruct Hl as (ll & Hll & Hl).
    apply in_map_iff in Hll. destruct Hll as (g & <- & _). destruct (used g); [|destruct Hl].
    apply in_map_iff in Hl. destruct Hl as (e' & <- & _). now rewrite row_length, !map_length.
  - rewrite (nth_error_entities ents used (fun gt e => tl (psums 0 (map (fun f : nat -> nat -> nat => f gt e) (map (fun c => lsize ents c) cs)))));
      auto. now rewrite csizes_map.
Qed.

Lemma csizes_fixed ents cs gt e : forallb lfixed cs = true -> csizes ents cs gt e = csizes ents cs gt 0.
Proof.
  intros F. unfold csizes. apply map_ext_in. intros c Hc.
  apply lfixed_size_indep. rewrite forallb_forall in F. auto.
Qed.

Lemma csizes_length ents cs gt e : length (csizes ents cs gt e) = length cs.
Proof. apply map_length. Qed.

(** used geometry types and sizes *)
Lemma unused_size0 ents t : local_ok ents t -> forall gt e, gt < length ents -> e < nth gt ents 0 ->
  lused t gt = false -> lsize ents t gt e = 0.
Proof.
  induction t as [s|b cs IH] using ltree_ind'; intros Hok gt e Hg He H.
  - destruct (unused_size ents _ gt e H) as [E|(b & cs & E & _)]; auto; discriminate.
  - destruct (unused_size ents _ gt e H) as [E|(b' & cs' & E & F)]; auto.
    injection E as <- <-. inversion Hok as [|cs' Hne Hcs]; subst.
    assert (Hl : 0 < length cs) by (destruct cs; [congruence|cbn; lia]).
    cbn [lsize]. rewrite F.
    replace (gt * length cs + length cs - 1) with (gt * length cs + (length cs - 1)) by lia.
    erewrite nth_nth_error by (apply fixed_table_nth; auto; lia).
    replace (S (length cs - 1)) with (length cs) by lia.
    rewrite pre_all by (rewrite csizes_length; lia).
    rewrite <- csizes_fixed with (e := e) by auto.
    assert (G : forall x, In x (csizes ents cs gt e) -> x = 0).
    { intros x Hx. unfold csizes in Hx. apply in_map_iff in Hx. destruct Hx as (c & <- & Hc).
      rewrite Forall_forall in IH, Hcs. apply IH; auto. cbn in H. eapply existsb_false_in in H; eauto. }
    clear -G. induction (csizes ents cs gt e) as [|x l IHl]; auto.
    rewrite sum_nat_cons, (G x) by now left. apply IHl. intros y Hy; apply G; now right.
Qed.

Lemma sum_csizes_pre ents cs gt e c t : nth_error cs c = Some t ->
  pre (csizes ents cs gt e) (S c) = pre (csizes ents cs gt e) c + lsize ents t gt e.
Proof. intros E. rewrite pre_S. f_equal. unfold csizes. now apply (nth_map_in (fun c => lsize ents c gt e)). Qed.

Lemma lsize_node ents b cs gt e : cs <> [] -> Forall (local_ok ents) cs -> gt < length ents -> e < nth gt ents 0 ->
  lsize ents (LNode b cs) gt e = sum_nat (csizes ents cs gt e).
Proof.
  intros Hne Hcs Hg He.
  assert (Hl : 0 < length cs) by (destruct cs; [congruence|cbn; lia]).
  cbn [lsize]. destruct (forallb lfixed cs) eqn:F.
  - replace (gt * length cs + length cs - 1) with (gt * length cs + (length cs - 1)) by lia.
    erewrite nth_nth_error by (apply fixed_table_nth; auto; lia).
    replace (S (length cs - 1)) with (length cs) by lia.
    rewrite pre_all by (rewrite csizes_length; lia). now rewrite <- csizes_fixed with (e := e) by auto.
  - destruct (existsb (fun c => lused c gt) cs) eqn:U.
    + set (used := fun g => existsb (fun c => lused c g) cs).
      pose proof (at_node_entity_offsets ents used gt ltac:(lia)) as Hat. apply at_inv in Hat.
      rewrite (nth_nth_error _ _ 0 _ Hat).
      match goal with |- nth (?x * _ + _ - 1) _ _ = _ => replace (x * length cs + length cs - 1) with (x * length cs + (length cs - 1)) by lia end.
      erewrite nth_nth_error by (apply entity_table_nth; auto; lia).
      replace (S (length cs - 1)) with (length cs) by lia.
      now rewrite pre_all by (rewrite csizes_length; lia).
    + symmetry. rewrite Forall_forall in Hcs.
      assert (G : forall x, In x (csizes ents cs gt e) -> x = 0).
      { intros x Hx. unfold csizes in Hx. apply in_map_iff in Hx. destruct Hx as (c & <- & Hc).
        apply unused_size0; auto. eapply existsb_false_in in U; eauto. }
      clear -G. induction (csizes ents cs gt e) as [|x l IHl]; auto.
      rewrite sum_nat_cons, (G x) by now left. apply IHl. intros y Hy; apply G; now right.
Qed.

Lemma local_offset_ok ents cs gt e c t k :
  Forall (local_ok ents) cs -> gt < length ents -> e < nth gt ents 0 ->
  nth_error cs c = Some t -> k < lsize ents t gt e ->
  local_offset ents cs gt e c = Ok (pre (csizes ents cs gt e) c).
Proof.
  intros Hcs Hg He E Hk. unfold local_offset.
  assert (Hc : c < length cs) by (apply nth_error_Some; congruence).
  destruct (0 <? c) eqn:Lc.
  - destruct (forallb lfixed cs) eqn:F.
    + apply at_ok. replace (gt * length cs + c - 1) with (gt * length cs + (c - 1)) by lia.
      rewrite fixed_table_nth by (auto; lia). rewrite csizes_fixed with (e := e) by auto.
      now replace (S (c - 1)) with c by lia.
    + assert (U : existsb (fun c => lused c gt) cs = true).
      { destruct (existsb _ cs) eqn:U; auto. exfalso.
        pose proof (nth_error_In _ _ E) as Hin. pose proof (existsb_false_in _ _ t U Hin) as Hu.
        rewrite Forall_forall in Hcs. rewrite (unused_size0 ents t) in Hk; auto. lia. }
      rewrite U. rewrite at_node_entity_offsets by lia. cbn [bind].
      match goal with |- at_ _ (?x * _ + _ - 1) = _ => replace (x * length cs + c - 1) with (x * length cs + (c - 1)) by lia end.
      apply at_ok. rewrite (entity_table_nth ents (fun g => existsb (fun c => lused c g) cs)) by (auto; lia).
      now replace (S (c - 1)) with c by lia.
  - assert (c = 0) by lia. subst c. reflexivity.
Qed.

Lemma ldof_grid ents t en p : local_ok ents t -> ldof t en p -> fst en < length ents /\ snd en < nth (fst en) ents 0.
Proof.
  intros Hok H. revert Hok. induction H as [s en i Hi|b cs c t en p E H IH]; intros Hok.
  - inversion Hok; subst. destruct en as [gt e]. cbn. eapply dofs_on_grid; eauto. lia.
  - inversion Hok; subst. apply IH. eapply Forall_nth_error; eauto.
Qed.

(** The local orderings number the DOFs of an entity consecutively. *)
Lemma local_spec ents t : local_ok ents t -> forall gt e, gt < length ents -> e < nth gt ents 0 ->
  (forall p, ldof t (gt, e) p -> exists k, map_local ents t (gt, e) p = Ok [k] /\ k < lsize ents t gt e) /\
  (forall p p', ldof t (gt, e) p -> ldof t (gt, e) p' ->
     map_local ents t (gt, e) p = map_local ents t (gt, e) p' -> p = p') /\
  (forall k, k < lsize ents t gt e -> exists p, ldof t (gt, e) p /\ map_local ents t (gt, e) p = Ok [k]).
Proof.
  induction t as [s|b cs IH] using ltree_ind'; intros Hok gt e Hg He; inversion Hok as [s' Hs|cs' Hne Hcs]; subst.
  - split; [|split].
    + intros p H. inversion H; subst. exists i. split; auto. cbn.
      now rewrite <- (dofs_on_in_grid ents) by auto.
    + intros p p' H H' E. inversion H; inversion H'; subst. cbn in E. congruence.
    + intros k Hk. exists [k]. split; auto. constructor. cbn in Hk. now rewrite (dofs_on_in_grid ents).
  - assert (Hmap : forall c t p, nth_error cs c = Some t -> ldof t (gt, e) p ->
        exists k, map_local ents t (gt, e) p = Ok [k] /\ k < lsize ents t gt e /\
                  map_local ents (LNode false cs) (gt, e) (c :: p) = Ok [pre (csizes ents cs gt e) c + k]).
    { intros c t p E H.
      pose proof (Forall_nth_error _ _ _ _ IH E) as IHt. cbn in IHt.
      pose proof (Forall_nth_error _ _ _ _ Hcs E) as Hokt.
      destruct (IHt Hokt gt e Hg He) as (A & _ & _). destruct (A p H) as (k & Ek & Hk).
      exists k. repeat split; auto.
      cbn [map_local]. erewrite at_map by eassumption. cbn [bind]. rewrite Ek. cbn [bind fst snd].
      erewrite local_offset_ok by eassumption. cbn. f_equal. f_equal. lia. }
    split; [|split].
    + intros p H. inversion H as [|b' cs' c t en p' E H']; subst.
      destruct (Hmap c t p' E H') as (k & Ek & Hk & Em). exists (pre (csizes ents cs gt e) c + k). split; auto.
      rewrite lsize_node by auto. apply pre_bound. unfold csizes.
      now rewrite (nth_map_in (fun c => lsize ents c gt e) _ _ _ 0 E).
    + intros p p' H H' Eq. inversion H as [|b1 cs1 c t en q E Hq]; subst.
      inversion H' as [|b2 cs2 c' t' en' q' E' Hq']; subst.
      destruct (Hmap c t q E Hq) as (k & Ek & Hk & Em).
      destruct (Hmap c' t' q' E' Hq') as (k' & Ek' & Hk' & Em').
      rewrite Em, Em' in Eq. injection Eq as Eq.
      apply pre_inj in Eq; unfold csizes;
        try (erewrite (nth_map_in (fun c => lsize ents c gt e)) by eassumption; assumption).
      destruct Eq as [<- <-]. rewrite E in E'. injection E' as <-. f_equal.
      pose proof (Forall_nth_error _ _ _ _ IH E) as IHt. cbn in IHt.
      destruct (IHt (Forall_nth_error _ _ _ _ Hcs E) gt e Hg He) as (_ & B & _). apply B; auto; congruence.
    + intros k Hk. rewrite lsize_node in Hk by auto.
      destruct (pre_surj _ _ Hk) as (c & r & Hc & Hr & ->). rewrite csizes_length in Hc.
      destruct (nth_error cs c) as [t|] eqn:E; [|apply nth_error_None in E; lia].
      unfold csizes in Hr. rewrite (nth_map_in (fun c => lsize ents c gt e) _ _ _ 0 E) in Hr.
      pose proof (Forall_nth_error _ _ _ _ IH E) as IHt. cbn in IHt.
      destruct (IHt (Forall_nth_error _ _ _ _ Hcs E) gt e Hg He) as (_ & _ & C).
      destruct (C r Hr) as (p & Hp & Ep). exists (c :: p). split; [econstructor; eauto|].
      destruct (Hmap c t p E Hp) as (k & Ek & Hk' & Em). rewrite Em. congruence.
Qed.
