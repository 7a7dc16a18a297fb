(** More proofs about views: contributions, and the links of vector and matrix views. *)
From Verif Require Import ViewModel ViewSpec CommonFacts ViewProofs.
From Coq Require Import Lra.
Local Open Scope nat_scope.

Definition weight_of (s : wviews) (k : nat) : R := match nth_error (views s) k with Some (w, _) => w | None => 0%R end.
Lemma call_step s c s' : wstep s (call c) = Ok s' ->
  length (vec s') = length (vec s) /\ (forall k, weight_of s' k = weight_of s k) /\
  (forall i, i < length (vec s) -> nth i (vec s') 0%R = (nth i (vec s) 0 + share (weight_of s) i c)%R).
Proof.
  destruct c as [k lfs n v raw]. unfold call, share, weight_of. cbn [c_view c_lfs c_dof c_value c_raw]. intros E.
  assert (G : exists u b i, nth_error (views s) k = Some (u, b) /\ nth_error lfs n = Some i /\
     i < length (vec s) /\ s' = mkw (upd i (nth i (vec s) 0 + if raw then v else u * v)%R (vec s)) (upd k (u, true) (views s))).
  { destruct raw; cbn in E; unfold view_at, local_index in E; destruct (nth_error (views s) k) as [(u, b)|]; cbn in E; try discriminate;
      destruct (nth_error lfs n) as [i|]; cbn in E; try discriminate;
      destruct (add_to _ _ _) as [l| |] eqn:A; cbn in E; try discriminate; injection E as <-; apply add_to_ok in A as (A & ->);
      exists u, b, i; repeat split; auto. }
  destruct G as (u & b & i & V & F & L & ->). cbn. rewrite upd_length. split; [reflexivity|]. split.
  - intros j. destruct (Nat.eq_dec k j) as [<-|N]; [|now rewrite upd_nth_error_other by auto].
    rewrite upd_nth_error_same by (apply nth_error_Some; congruence). now rewrite V.
  - intros j J. rewrite F, V. destruct (Nat.eqb_spec i j) as [->|N].
    + rewrite upd_nth_same by exact L. reflexivity.
    + rewrite upd_nth_other by exact N. lra.
Qed.
Lemma share_ext w w' i c : (forall k, w k = w' k) -> share w i c = share w' i c.
Proof. intros H. unfold share. now rewrite H. Qed.
Lemma calls cs : forall s s', foldM wstep (map call cs) s = Ok s' ->
  length (vec s') = length (vec s) /\ (forall k, weight_of s' k = weight_of s k) /\
  (forall i, i < length (vec s) -> nth i (vec s') 0%R = (nth i (vec s) 0 + total (map (share (weight_of s) i) cs))%R).
Proof.
  induction cs as [|c cs IH]; cbn [map foldM]; intros s s' E.
  - injection E as <-. repeat split; auto. intros i _. cbn. lra.
  - destruct (wstep s (call c)) as [s1| |] eqn:S; cbn in E; try discriminate. destruct (call_step s c s1 S) as (L & W & A).
    destruct (IH s1 s' E) as (L' & W' & A'). split; [congruence|]. split; [intros k; now rewrite W'|].
    intros i I. rewrite A' by lia. rewrite A by exact I.
    cbn [map].
    rewrite (map_ext (share (weight_of s1) i) (share (weight_of s) i)); [cbn [total fold_right]; fold (total (map (share (weight_of s) i) cs)); ring|]. intros c'. now apply share_ext.
Qed.

(** Links of the vector view *)
Lemma gather_ok {X Y : Type} (f : X -> res Y) (h : X -> Y) l : (forall x, In x l -> f x = Ok (h x)) -> gather_res f l = Ok (map h l).
Proof. induction l as [|x l IH]; cbn; intros H; [reflexivity|]. rewrite (H x) by now left. cbn. rewrite IH by auto. reflexivity. Qed.
Lemma local_index_ok l i : i < length l -> local_index l i = Ok (nth i l 0).
Proof. intros H. unfold local_index. now rewrite (nth_error_nth' l 0 H). Qed.
Lemma map_nth_seq {Y : Type} (F : nat -> Y) l : map (fun i => F (nth i l 0)) (seq 0 (length l)) = map F l.
Proof.
  induction l as [|a l IH]; cbn; [reflexivity|]. f_equal. rewrite <- seq_shift, map_map. exact IH.
Qed.
Lemma combine_map {X Y : Type} (F : X -> Y) l : combine l (map F l) = map (fun x => (x, F x)) l.
Proof. induction l; cbn; congruence. Qed.
Lemma combine_seq (l : list nat) : map (fun i => (i, nth i l 0)) (seq 0 (length l)) = combine (seq 0 (length l)) l.
Proof.
  transitivity (combine (seq 0 (length l)) (map (fun i => nth i l 0) (seq 0 (length l)))).
  - now rewrite combine_map.
  - f_equal. rewrite (map_nth_seq (fun x => x) l). apply map_id.
Qed.
Definition links (idx : list nat) (p : part) : list (nat * nat) := combine (local_places idx p) (global_indices idx p).
Lemma vlinks_ok idx p : fits idx p -> vlinks idx p = Ok (links idx p).
Proof.
  unfold links. destruct p as [|ch|ch]; cbn; intros F.
  - rewrite (gather_ok _ (fun i => (i, nth i idx 0))); [now rewrite combine_seq|].
    intros i I. apply in_seq in I. rewrite local_index_ok by lia. reflexivity.
  - rewrite Forall_forall in F. rewrite (gather_ok _ (fun i => (nth i ch 0, nth (nth i ch 0) idx 0))).
    + rewrite (map_nth_seq (fun l => (l, nth l idx 0))). now rewrite combine_map.
    + intros i I. apply in_seq in I. rewrite local_index_ok by lia. cbn.
      rewrite local_index_ok; [reflexivity|]. apply F. apply nth_In. lia.
  - rewrite Forall_forall in F. rewrite (gather_ok _ (fun i => (i, nth (nth i ch 0) idx 0))).
    + f_equal. rewrite <- (map_length (fun l => nth l idx 0) ch) at 2. rewrite <- combine_seq. rewrite map_length.
      apply map_ext_in. intros i I. apply in_seq in I. f_equal.
      rewrite (nth_indep (map _ ch) 0 (nth 0 idx 0)) by (rewrite map_length; lia). symmetry. apply (map_nth (fun l => nth l idx 0) ch 0 i).
    + intros i I. apply in_seq in I. rewrite local_index_ok by lia. cbn.
      rewrite local_index_ok; [reflexivity|]. apply F. apply nth_In. lia.
Qed.
Lemma vlinks_same idx p L : vlinks idx p = Ok L -> fits idx p.
Proof.
  assert (G : forall (X Y : Type) (f : X -> res Y) l r, gather_res f l = Ok r -> forall x, In x l -> exists y, f x = Ok y).
  { induction l as [|x l IH]; cbn; intros r E y [].
    - subst y. destruct (f x); cbn in E; try discriminate. eauto.
    - destruct (f x); cbn in E; try discriminate. destruct (gather_res f l); cbn in E; try discriminate. eauto. }
  destruct p as [|ch|ch]; cbn; intros E; [exact Logic.I| |]; apply Forall_forall; intros l I; apply In_nth_error in I as (i & I);
    (destruct (G _ _ _ _ _ E i) as (y & Q); [apply in_seq; split; [lia|]; apply nth_error_Some; congruence|]);
    cbn in Q; unfold local_index in Q; rewrite I in Q; cbn in Q; apply nth_error_Some; destruct (nth_error idx l); cbn in Q; congruence.
Qed.
Lemma links_length idx p : length (local_places idx p) = length (global_indices idx p).
Proof. destruct p; cbn; rewrite ?seq_length, ?map_length; reflexivity. Qed.
Lemma in_combine_nth (l m : list nat) q k : length l = length m ->
  In (q, k) (combine l m) <-> exists j, nth_error l j = Some q /\ nth_error m j = Some k.
Proof.
  revert m. induction l as [|a l IH]; intros [|b m] L; cbn in *; try discriminate.
  - split; [intros []|]. intros ([|j] & A & _); discriminate.
  - rewrite IH by lia. split.
    + intros [E|(j & A & B)]; [injection E as -> ->; now exists 0|now exists (S j)].
    + intros ([|j] & A & B); cbn in *; [left; congruence|right; eauto].
Qed.
Lemma in_links idx p q k : In (q, k) (links idx p) <-> linked idx p q k.
Proof. apply in_combine_nth. apply links_length. Qed.
Lemma fst_links idx p : map fst (links idx p) = local_places idx p.
Proof.
  unfold links. pose proof (links_length idx p) as L. revert L. generalize (local_places idx p) (global_indices idx p).
  induction l as [|a l IH]; intros [|b m] L; cbn in *; try discriminate; auto. f_equal. apply IH. lia.
Qed.
Lemma snd_links idx p : map snd (links idx p) = global_indices idx p.
Proof.
  unfold links. pose proof (links_length idx p) as L. revert L. generalize (local_places idx p) (global_indices idx p).
  induction l as [|a l IH]; intros [|b m] L; cbn in *; try discriminate; auto. f_equal. apply IH. lia.
Qed.
Lemma nth_error_inj {X : Type} (l : list X) i j x : NoDup l -> nth_error l i = Some x -> nth_error l j = Some x -> i = j.
Proof. intros N A B. apply (proj1 (NoDup_nth_error l) N); [apply nth_error_Some; congruence|congruence]. Qed.
Lemma links_functional idx p q k k' : In (q, k) (links idx p) -> In (q, k') (links idx p) -> k = k'.
Proof.
  rewrite !in_links. intros (j & A & B) (j' & A' & B'). destruct p as [|ch|ch]; cbn in *.
  - assert (j = j') by (eapply nth_error_inj; [apply seq_NoDup|exact A|exact A']). subst. congruence.
  - rewrite nth_error_map in B, B'. rewrite A in B. rewrite A' in B'. cbn in *. congruence.
  - assert (j = j') by (eapply nth_error_inj; [apply seq_NoDup|exact A|exact A']). subst. congruence.
Qed.
Lemma ready_links s c idx p : ready s c idx p ->
  forall q k, In (q, k) (links idx p) -> q < length (local s) /\ vectors s c k <> None.
Proof.
  intros (_ & _ & _ & A & B) q k I. rewrite Forall_forall in A, B. split.
  - apply A. rewrite <- (fst_links idx p). now apply (in_map fst) in I.
  - apply B. rewrite <- (snd_links idx p). now apply (in_map snd) in I.
Qed.
Lemma eqb_spec_nat k k' : Nat.eqb k k' = true <-> k = k'.
Proof. apply Nat.eqb_eq. Qed.
Lemma vread_ok s c idx p : ready s c idx p -> exists s', vstep s (Read p) = Ok s' /\ vectors s' = vectors s /\ vv s' = vv s /\
  length (local s') = length (local s) /\ (forall q k, linked idx p q k -> nth_error (local s') q = vectors s c k) /\
  (forall q, ~ In q (local_places idx p) -> nth_error (local s') q = nth_error (local s) q).
Proof.
  intros H. pose proof (ready_links _ _ _ _ H) as RL. destruct H as (A & B & F & _). cbn. rewrite A, B. cbn. rewrite (vlinks_ok idx p F). cbn.
  destruct (read_ok nat Nat.eqb eqb_spec_nat (vectors s c) (links idx p) (local s) RL (links_functional idx p)) as (l & E & Le & V & O).
  rewrite E. cbn. eexists. split; [reflexivity|]. cbn. repeat split; auto.
  - intros q k Q. apply V. now apply in_links.
  - intros q Q. apply O. now rewrite fst_links.
Qed.
Lemma vwrite_ok s c idx p : ready s c idx p -> exists s', vstep s (Write p) = Ok s' /\ local s' = local s /\ vv s' = vv s /\
  (forall k, ~ In k (global_indices idx p) -> vectors s' c k = vectors s c k) /\
  (forall c', c' <> c -> vectors s' c' = vectors s c') /\
  (forall k, In k (global_indices idx p) -> exists q, linked idx p q k /\ vectors s' c k = nth_error (local s) q).
Proof.
  intros H. pose proof (ready_links _ _ _ _ H) as RL. destruct H as (A & B & F & _). cbn. rewrite A, B. cbn. rewrite (vlinks_ok idx p F). cbn.
  destruct (write_ok nat Nat.eqb eqb_spec_nat (local s) (links idx p) (vectors s c) RL) as (g & E & O & V).
  rewrite E. cbn. eexists. split; [reflexivity|]. cbn. rewrite Nat.eqb_refl. rewrite snd_links in O, V. repeat split; auto.
  - intros c' N. apply not_eq_sym in N. apply Nat.eqb_neq in N. now rewrite N.
  - intros k I. destruct (V k I) as (q & Q & E'). exists q. split; [now apply in_links|exact E'].
Qed.
Lemma vadd_ok s c idx p : ready s c idx p -> exists s', vstep s (Add p) = Ok s' /\ local s' = local s /\ vv s' = vv s /\
  (forall c', c' <> c -> vectors s' c' = vectors s c') /\
  (forall k, vectors s' c k = match vectors s c k with
     | Some v => Some (v + total (map (fun q => nth (fst q) (local s) 0) (filter (fun q => Nat.eqb (snd q) k) (combine (local_places idx p) (global_indices idx p)))))%R
     | None => None end).
Proof.
  intros H. pose proof (ready_links _ _ _ _ H) as RL. destruct H as (A & B & F & _). cbn. rewrite A, B. cbn. rewrite (vlinks_ok idx p F). cbn.
  destruct (add_ok nat Nat.eqb eqb_spec_nat (local s) (links idx p) (vectors s c) RL) as (g & E & V).
  rewrite E. cbn. eexists. split; [reflexivity|]. cbn. rewrite Nat.eqb_refl. repeat split; auto.
  - intros c' N. apply not_eq_sym in N. apply Nat.eqb_neq in N. now rewrite N.
Qed.
Lemma ready_local s c idx p l v : ready s c idx p -> length l = length (local s) -> (forall k, v c k = None <-> vectors s c k = None) ->
  ready (mkvworld v (vv s) l) c idx p.
Proof.
  intros (A & B & F & P & G) L V. unfold ready. cbn. rewrite L. repeat split; auto.
  eapply Forall_impl; [|exact G]. cbn. intros k N E. apply N. now apply V.
Qed.
Lemma vstep_frame s o s' c : vstep s o = Ok s' -> container (vv s) <> Some c -> o <> Attach c ->
  vectors s' c = vectors s c /\ container (vv s') <> Some c.
Proof.
  intros E N A. destruct o; cbn in E.
  - injection E as <-. cbn. split; [reflexivity|]. congruence.
  - injection E as <-. cbn. split; [reflexivity|discriminate].
  - injection E as <-. cbn. auto.
  - injection E as <-. auto.
  - injection E as <-. auto.
  - destruct (container (vv s)) as [c0|] eqn:C; cbn in E; try discriminate. destruct (bound (vv s)); cbn in E; try discriminate.
    destruct (vlinks l p); cbn in E; try discriminate. destruct (read_links _ _ _); cbn in E; try discriminate. injection E as <-. cbn. rewrite C. auto.
  - destruct (container (vv s)) as [c0|] eqn:C; cbn in E; try discriminate. destruct (bound (vv s)); cbn in E; try discriminate.
    destruct (vlinks l p); cbn in E; try discriminate. destruct (write_links _ _ _ _); cbn in E; try discriminate. injection E as <-. cbn.
    rewrite C. destruct (Nat.eqb_spec c0 c) as [->|Q]; [congruence|auto].
  - destruct (container (vv s)) as [c0|] eqn:C; cbn in E; try discriminate. destruct (bound (vv s)); cbn in E; try discriminate.
    destruct (vlinks l p); cbn in E; try discriminate. destruct (add_links _ _ _ _); cbn in E; try discriminate. injection E as <-. cbn.
    rewrite C. destruct (Nat.eqb_spec c0 c) as [->|Q]; [congruence|auto].
  - destruct (container (vv s)) as [c0|] eqn:C; cbn in E; try discriminate. destruct (bound (vv s)); cbn in E; try discriminate.
    destruct (local_index l i); cbn in E; try discriminate. destruct (gset _ _ _ _); cbn in E; try discriminate. injection E as <-. cbn.
    rewrite C. destruct (Nat.eqb_spec c0 c) as [->|Q]; [congruence|auto].
  - injection E as <-. cbn. auto.
Qed.
Lemma vstep_domain s o s' : vstep s o = Ok s' -> forall c k, vectors s' c k = None <-> vectors s c k = None.
Proof.
  intros E c k. destruct o; cbn in E; try (injection E as <-; reflexivity).
  - destruct (container (vv s)); cbn in E; try discriminate. destruct (bound (vv s)); cbn in E; try discriminate.
    destruct (vlinks l p); cbn in E; try discriminate. destruct (read_links _ _ _); cbn in E; try discriminate. injection E as <-. reflexivity.
  - destruct (container (vv s)) as [c0|] eqn:C; cbn in E; try discriminate. destruct (bound (vv s)); cbn in E; try discriminate.
    destruct (vlinks l p); cbn in E; try discriminate. destruct (write_links _ _ _ _) eqn:W; cbn in E; try discriminate. injection E as <-. cbn.
    destruct (Nat.eqb_spec c0 c) as [->|Q]; [|reflexivity]. exact (write_domain nat Nat.eqb eqb_spec_nat _ _ _ _ W k).
  - destruct (container (vv s)) as [c0|] eqn:C; cbn in E; try discriminate. destruct (bound (vv s)); cbn in E; try discriminate.
    destruct (vlinks l p); cbn in E; try discriminate. destruct (add_links _ _ _ _) eqn:W; cbn in E; try discriminate. injection E as <-. cbn.
    destruct (Nat.eqb_spec c0 c) as [->|Q]; [|reflexivity]. exact (add_domain nat Nat.eqb eqb_spec_nat _ _ _ _ W k).
  - destruct (container (vv s)) as [c0|] eqn:C; cbn in E; try discriminate. destruct (bound (vv s)); cbn in E; try discriminate.
    destruct (local_index l i); cbn in E; try discriminate. destruct (gset _ _ _ _) eqn:W; cbn in E; try discriminate. injection E as <-. cbn.
    destruct (Nat.eqb_spec c0 c) as [->|Q]; [|reflexivity]. exact (gset_domain nat Nat.eqb eqb_spec_nat _ _ _ _ k W).
Qed.

(** Links of the matrix view *)
Lemma eqkk_spec p q : eqkk p q = true <-> p = q.
Proof.
  destruct p as [a b], q as [c d]. unfold eqkk. cbn. rewrite andb_true_iff, !Nat.eqb_eq. split; [intros (-> & ->); reflexivity|intros E; injection E; auto].
Qed.
Definition links2 (ri ci : list nat) (m : lmat) : list (nat * (nat * nat)) :=
  map (fun q => (place_of m (fst q) (snd q), (nth (fst q) ri 0, nth (snd q) ci 0%nat))) (row_by_row (length ri) (length ci)).
Lemma in_row_by_row r c i j : In (i, j) (row_by_row r c) <-> i < r /\ j < c.
Proof.
  unfold row_by_row. rewrite in_flat_map. split.
  - intros (i' & A & B). apply in_map_iff in B as (j' & E & B). injection E as -> ->. apply in_seq in A, B. lia.
  - intros (A & B). exists i. rewrite in_seq. split; [lia|]. apply in_map_iff. exists j. split; [reflexivity|]. apply in_seq. lia.
Qed.
Lemma mlinks_ok ri ci m : mlinks ri ci m = Ok (links2 ri ci m).
Proof.
  apply gather_ok. intros (i, j) I. apply in_row_by_row in I as (A & B). cbn. rewrite !local_index_ok by lia. reflexivity.
Qed.
Lemma in_links2 ri ci m q k : In (q, k) (links2 ri ci m) <->
  exists i j, i < length ri /\ j < length ci /\ q = place_of m i j /\ k = (nth i ri 0, nth j ci 0).
Proof.
  unfold links2. rewrite in_map_iff. split.
  - intros ((i, j) & E & I). apply in_row_by_row in I as (A & B). injection E as <- <-. cbn. exists i, j. auto.
  - intros (i & j & A & B & -> & ->). exists (i, j). split; [reflexivity|]. now apply in_row_by_row.
Qed.
Section MatrixView.
  Variables (g : glob (nat * nat)) (ri ci : list nat) (m : lmat).
  Hypotheses (SH : shaped m) (RI : rows m = length ri) (CI : cols m = length ci).
  Hypothesis PRESENT : forall r c, In r ri -> In c ci -> g (r, c) <> None.
  Lemma links2_in q k : In (q, k) (links2 ri ci m) -> q < length (store m) /\ g k <> None.
  Proof.
    intros I. apply in_links2 in I as (i & j & A & B & -> & ->). split.
    - apply place_lt; auto. split; lia.
    - apply PRESENT; now apply nth_In.
  Qed.
  Lemma links2_functional q k k' : In (q, k) (links2 ri ci m) -> In (q, k') (links2 ri ci m) -> k = k'.
  Proof.
    rewrite !in_links2. intros (i & j & A & B & -> & ->) (i' & j' & A' & B' & E & ->).
    destruct (place_inj m i j i' j') as (<- & <-); auto; split; lia.
  Qed.
  Lemma mread_ok : exists m', mread g ri ci m = Ok m' /\ rows m' = rows m /\ cols m' = cols m /\ shaped m' /\
    forall i j, i < length ri -> j < length ci -> exists v, g (nth i ri 0, nth j ci 0) = Some v /\ entry m' i j = Ok v.
  Proof.
    unfold mread. rewrite mlinks_ok. cbn. destruct (read_ok _ eqkk eqkk_spec g (links2 ri ci m) (store m) links2_in links2_functional) as (l & E & L & V & _).
    rewrite E. cbn. eexists. split; [reflexivity|]. cbn. unfold shaped. cbn. rewrite L. repeat split; auto.
    intros i j I J. assert (X : In (place_of m i j, (nth i ri 0, nth j ci 0)) (links2 ri ci m)) by (apply in_links2; eauto 10).
    specialize (V _ _ X). destruct (links2_in _ _ X) as (_ & N). destruct (g (nth i ri 0, nth j ci 0)) as [v|]; [|congruence].
    exists v. split; [reflexivity|]. unfold entry. apply look_ok. exact V.
  Qed.
  Lemma mwrite_ok : NoDup ri -> NoDup ci -> exists g', mwrite m ri ci g = Ok g' /\
    (forall i j, i < length ri -> j < length ci -> exists v, entry m i j = Ok v /\ g' (nth i ri 0, nth j ci 0) = Some v) /\
    (forall r c, ~ (In r ri /\ In c ci) -> g' (r, c) = g (r, c)).
  Proof.
    intros NR NC. unfold mwrite. rewrite mlinks_ok. cbn.
    destruct (write_ok _ eqkk eqkk_spec (store m) (links2 ri ci m) g links2_in) as (g' & E & O & V). exists g'. split; [exact E|]. split.
    - intros i j I J. assert (X : In (place_of m i j, (nth i ri 0, nth j ci 0)) (links2 ri ci m)) by (apply in_links2; eauto 10).
      destruct (V (nth i ri 0, nth j ci 0)) as (q & Q & W); [now apply (in_map snd) in X|].
      apply in_links2 in Q as (i' & j' & I' & J' & -> & Q). injection Q as Q1 Q2.
      apply (proj1 (NoDup_nth ri 0) NR) in Q1; auto. apply (proj1 (NoDup_nth ci 0) NC) in Q2; auto. subst i' j'.
      exists (aval m i j). split; [apply entry_val; auto; split; lia|]. rewrite W. unfold aval. apply nth_error_nth'.
      apply place_lt; auto. split; lia.
    - intros r c N. apply O. intros Q. apply in_map_iff in Q as ((q & k) & E' & Q). cbn in E'. subst k. apply in_links2 in Q as (i & j & I & J & -> & Q).
      injection Q as -> ->. apply N. split; now apply nth_In.
  Qed.
  Lemma madd_ok : exists g', madd m ri ci g = Ok g' /\
    forall r c, g' (r, c) = match g (r, c) with
      | Some v => Some (v + total (map (fun q => aval m (fst q) (snd q))
          (filter (fun q => Nat.eqb (nth (fst q) ri 0%nat) r && Nat.eqb (nth (snd q) ci 0%nat) c) (row_by_row (length ri) (length ci)))))%R
      | None => None end.
  Proof.
    unfold madd. rewrite mlinks_ok. cbn.
    destruct (add_ok _ eqkk eqkk_spec (store m) (links2 ri ci m) g links2_in) as (g' & E & V). exists g'. split; [exact E|].
    intros r c. rewrite V. destruct (g (r, c)); [|reflexivity]. do 2 f_equal. unfold added, links2.
    induction (row_by_row (length ri) (length ci)) as [|(i, j) l IH]; [reflexivity|]. cbn [map filter fst snd]. unfold eqkk at 1. cbn [fst snd].
    destruct (Nat.eqb (nth i ri 0) r && Nat.eqb (nth j ci 0) c); cbn [map total fold_right fst snd]; [|exact IH].
    f_equal. exact IH.
  Qed.
End MatrixView.
Lemma nodup_app {A} (l l' : list A) : NoDup l -> NoDup l' -> (forall x, In x l -> In x l' -> False) -> NoDup (l ++ l').
Proof.
  intros H H' D. induction H as [|x l X N IH]; [exact H'|]. cbn. constructor.
  - intros I. apply in_app_or in I. destruct I as [I|I]; [auto|]. apply (D x); [left; reflexivity|exact I].
  - apply IH. intros y I. apply D. right. exact I.
Qed.
