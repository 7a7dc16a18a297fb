(** Proofs about local containers and views. *)
From Verif Require Import ViewModel ViewSpec CommonFacts.
From Coq Require Import Lra.
Local Open Scope nat_scope.

(** ** LocalMatrix *)
Definition shaped (m : lmat) : Prop := length (store m) = rows m * cols m.
Lemma shaped_step m o m' : shaped m -> lstep m o = Ok m' -> shaped m'.
Proof.
  unfold shaped. intros H. destruct o; cbn; intros E.
  - injection E as <-. unfold resize. cbn. rewrite app_length, firstn_length, repeat_length. lia.
  - injection E as <-. unfold make. cbn. now rewrite repeat_length.
  - injection E as <-. unfold fill. cbn. now rewrite map_length.
  - injection E as <-. unfold scale. cbn. now rewrite map_length.
  - unfold set_entry, put in E. destruct (Nat.ltb _ _); cbn in E; [|discriminate]. injection E as <-. cbn. now rewrite upd_length.
Qed.
Lemma reachable_shaped m : reachable m -> shaped m.
Proof.
  intros (r & c & t & ops & E).
  assert (H : shaped (make r c t)) by (unfold shaped, make; cbn; apply repeat_length).
  revert E H. generalize (make r c t). induction ops as [|o ops IH]; cbn; intros m0 E H.
  - injection E as <-. exact H.
  - destruct (lstep m0 o) as [m1| |] eqn:S; cbn in E; try discriminate. apply (IH m1 E). exact (shaped_step _ _ _ H S).
Qed.
Lemma reachable_step m o m' : reachable m -> lstep m o = Ok m' -> reachable m'.
Proof.
  intros (r & c & t & ops & E) S. exists r, c, t, (ops ++ [o]). rewrite foldM_app, E. cbn. now rewrite S.
Qed.
Lemma place_lt m i j : shaped m -> inside m i j -> place_of m i j < length (store m).
Proof. unfold shaped, inside, place_of. intros -> (A & B). nia. Qed.
Lemma place_inj m i j i' j' : inside m i j -> inside m i' j' -> place_of m i j = place_of m i' j' -> i = i' /\ j = j'.
Proof.
  unfold inside, place_of. intros (A & _) (C & _) E.
  assert (j = j'). { destruct (Nat.lt_trichotomy j j') as [L|[L|L]]; [exfalso; nia|exact L|exfalso; nia]. }
  subst j'. lia.
Qed.
Lemma entry_exists m i j : shaped m -> inside m i j -> exists v, entry m i j = Ok v.
Proof.
  intros S I. unfold entry, look. destruct (nth_error (store m) (place_of m i j)) eqn:E; [eauto|].
  apply nth_error_None in E. pose proof (place_lt m i j S I). lia.
Qed.
Lemma set_exists m i j v : shaped m -> inside m i j ->
  set_entry m i j v = Ok (mklmat (rows m) (cols m) (upd (place_of m i j) v (store m))).
Proof.
  intros S I. unfold set_entry, put. pose proof (place_lt m i j S I) as L. apply Nat.ltb_lt in L. now rewrite L.
Qed.
Lemma look_repeat t n i : i < n -> look (repeat t n) i = Ok t.
Proof. intros H. unfold look. now rewrite nth_error_repeat. Qed.
Lemma look_map (f : R -> R) l i : look (map f l) i = let* v := look l i in Ok (f v).
Proof. unfold look. rewrite nth_error_map. destruct (nth_error l i); reflexivity. Qed.
(** The loop of the iterator. *)
Lemma loop_rest m i j n fuel : 0 < cols m -> i < rows m -> j < cols m -> n = (rows m - i) * cols m - j -> n <= fuel ->
  loop m fuel (i, j) = Some (map (fun j => (i, j)) (seq j (cols m - j)) ++
    flat_map (fun i => map (fun j => (i, j)) (seq 0 (cols m))) (seq (S i) (rows m - S i))).
Proof.
  intros C. revert i j n. induction fuel as [|fuel IH]; intros i j n I J N F.
  - exfalso. assert (1 <= rows m - i) by lia. nia.
  - cbn [loop]. assert (E : same_place (i, j) (end_ m) = false).
    { unfold end_, same_place. apply Nat.ltb_lt in C. rewrite C. cbn. apply andb_false_iff. left. apply Nat.eqb_neq. lia. }
    rewrite E. unfold increment. cbn [fst snd]. destruct (Nat.ltb j (cols m - 1)) eqn:L.
    + apply Nat.ltb_lt in L. rewrite (IH i (S j) (n - 1)) by nia.
      replace (cols m - j) with (S (cols m - S j)) by lia. cbn [seq map app]. reflexivity.
    + apply Nat.ltb_ge in L. assert (j = cols m - 1) by lia. subst j. replace (cols m - (cols m - 1)) with 1 by lia. cbn [seq map app].
      destruct (Nat.eq_dec (S i) (rows m)) as [Q|Q].
      * rewrite Q, Nat.sub_diag. cbn [seq flat_map].
        destruct fuel; cbn [loop]; unfold end_, same_place; apply Nat.ltb_lt in C; rewrite C; cbn [fst snd]; now rewrite Nat.eqb_refl.
      * rewrite (IH (S i) 0 (n - 1)) by nia. rewrite Nat.sub_0_r.
        replace (rows m - S i) with (S (rows m - S (S i))) by lia. cbn [seq flat_map]. reflexivity.
Qed.
Lemma loop_all m : loop m (rows m * cols m) (begin_ m) = Some (row_by_row (rows m) (cols m)).
Proof.
  unfold begin_, row_by_row. destruct (Nat.eq_dec (cols m) 0) as [C|C].
  - rewrite C, Nat.mul_0_r. cbn. unfold end_. rewrite C. cbn.
    f_equal. induction (seq 0 (rows m)); cbn; auto.
  - destruct (Nat.eq_dec (rows m) 0) as [Q|Q].
    + rewrite Q. cbn. unfold end_. replace (Nat.ltb 0 (cols m)) with true by (symmetry; apply Nat.ltb_lt; lia). now rewrite Q.
    + rewrite (loop_rest m 0 0 (rows m * cols m)); try lia; try nia. rewrite Nat.sub_0_r.
      replace (rows m) with (S (rows m - 1)) at 2 by lia. cbn [seq flat_map]. replace (rows m - 1) with (rows m - 1) by lia. reflexivity.
Qed.

(** Products. *)
Lemma look_ok l i v : look l i = Ok v <-> nth_error l i = Some v.
Proof. unfold look. destruct (nth_error l i); split; congruence. Qed.
Lemma put_ok l i v : i < length l -> put l i v = Ok (upd i v l).
Proof. intros H. unfold put. apply Nat.ltb_lt in H. now rewrite H. Qed.
Lemma look_in l i : i < length l -> look l i = Ok (nth i l 0%R).
Proof. intros H. apply look_ok. now apply nth_error_nth'. Qed.
Definition aval (m : lmat) (i j : nat) : R := nth (place_of m i j) (store m) 0%R.
Lemma entry_val m i j : shaped m -> inside m i j -> entry m i j = Ok (aval m i j).
Proof. intros S I. unfold entry. apply look_in. now apply place_lt. Qed.
Lemma total_app l m : total (l ++ m) = (total l + total m)%R.
Proof. induction l as [|a l IH]; cbn; [fold (total m); ring|]. change (fold_right Rplus 0%R (l ++ m)) with (total (l ++ m)). rewrite IH. change (fold_right Rplus 0%R l) with (total l). ring. Qed.
Lemma upd_twice (i : nat) (u v : R) y : upd i u (upd i v y) = upd i u y.
Proof. revert i. induction y as [|a y IH]; intros [|i]; cbn; f_equal. apply IH. Qed.
Section Product.
  Variables (m : lmat) (x : list R) (f : R -> R -> R).
  Hypotheses (SH : shaped m) (LX : cols m <= length x).
  Definition inner (i : nat) (l : list nat) (y : list R) : res (list R) :=
    foldM (fun y j => let* v := look y i in let* a := entry m i j in let* u := look x j in put y i (v + f a u)%R) l y.
  Lemma inner_ok i l y : i < rows m -> i < length y -> Forall (fun j => j < cols m) l ->
    inner i l y = Ok (upd i (nth i y 0 + total (map (fun j => f (aval m i j) (nth j x 0%R)) l))%R y).
  Proof.
    intros I Y F. revert y Y. induction F as [|j l J F IH]; intros y Y.
    - cbn. rewrite Rplus_0_r. f_equal. clear -Y. revert i Y. induction y as [|a y IH]; intros [|i] Y; cbn in *; try lia; f_equal.
      apply IH. lia.
    - unfold inner in *. cbn [foldM]. rewrite (look_in y i Y), (entry_val m i j SH) by (split; assumption). cbn [bind].
      rewrite (look_in x j) by lia. cbn [bind]. rewrite (put_ok y i _ Y). cbn [bind].
      rewrite IH by (rewrite upd_length; exact Y). rewrite upd_nth_same by exact Y. f_equal. cbn [map total fold_right].
      match goal with |- upd _ ?u _ = upd _ ?v _ => replace v with u by (fold (total (map (fun j => f (aval m i j) (nth j x 0%R)) l)); ring) end.
      apply upd_twice.
  Qed.
  Lemma outer_ok n y : n <= rows m -> rows m <= length y -> exists y',
    foldM (fun y i => inner i (seq 0 (cols m)) y) (seq 0 n) y = Ok y' /\ length y' = length y /\
    (forall i, i < n -> nth i y' 0%R = (nth i y 0 + total (map (fun j => f (aval m i j) (nth j x 0)) (seq 0 (cols m))))%R) /\
    (forall i, n <= i -> nth i y' 0%R = nth i y 0%R).
  Proof.
    induction n as [|n IH]; intros N Y.
    - exists y. repeat split. intros i H. lia.
    - destruct IH as (y1 & E & L & A & B); try lia. rewrite seq_S, foldM_app, E. cbn [bind foldM plus].
      rewrite inner_ok; try lia; [|apply Forall_forall; intros j J; apply in_seq in J; lia].
      cbn [bind]. eexists. split; [reflexivity|]. rewrite upd_length. split; [exact L|]. split.
      + intros i I. destruct (Nat.eq_dec i n) as [->|Q].
        * rewrite upd_nth_same by lia. now rewrite (B n) by lia.
        * rewrite upd_nth_other by lia. apply A. lia.
      + intros i I. rewrite upd_nth_other by lia. apply B. lia.
  Qed.
End Product.

(** ** Weighted views *)
Lemma view_at_ok s k p : view_at s k = Ok p <-> nth_error (views s) k = Some p.
Proof. unfold view_at. destruct (nth_error (views s) k); split; congruence. Qed.
Lemma add_to_ok l i v l' : add_to l i v = Ok l' -> i < length l /\ l' = upd i (nth i l 0 + v)%R l.
Proof.
  unfold add_to, look. destruct (nth_error l i) eqn:E; cbn; [|discriminate]. unfold put.
  assert (H : i < length l) by (apply nth_error_Some; congruence). apply Nat.ltb_lt in H as H'. rewrite H'. intros Q. injection Q as <-.
  split; [exact H|]. now rewrite (nth_error_nth _ _ _ E).
Qed.
Definition flag_of (s : wviews) (k : nat) : bool := match nth_error (views s) k with Some (_, b) => b | None => false end.
Lemma flag_step s o s' k : wstep s o = Ok s' -> by_data o = false -> k < length (views s) ->
  flag_of s' k = (if touches k o then true else if resets k o then false else flag_of s k) /\ length (views s) <= length (views s').
Proof.
  unfold flag_of. intros E D L. destruct o; cbn in *; try discriminate.
  - injection E as <-. cbn. rewrite nth_error_app1, app_length by exact L. split; [reflexivity|lia].
  - destruct (view_at s k0) as [(u, b)| |] eqn:V; cbn in E; try discriminate. injection E as <-. cbn.
    rewrite app_length. unfold flag. rewrite upd_length. split; [|lia]. rewrite nth_error_app1 by (rewrite upd_length; exact L).
    destruct (Nat.eqb_spec k k0) as [->|N]; [rewrite upd_nth_error_same by exact L; reflexivity|].
    rewrite upd_nth_error_other by auto. reflexivity.
  - destruct (view_at s k0) as [(u, b)| |] eqn:V; cbn in E; try discriminate. injection E as <-. cbn. rewrite upd_length. split; [|lia].
    destruct (Nat.eq_dec k k0) as [->|N]; [|now rewrite upd_nth_error_other by auto].
    rewrite upd_nth_error_same by exact L. apply view_at_ok in V. now rewrite V.
  - destruct (view_at s k0) as [(u, b)| |] eqn:V; cbn in E; try discriminate.
    destruct (local_index lfs n); cbn in E; try discriminate. destruct (add_to _ _ _); cbn in E; try discriminate. injection E as <-.
    cbn. unfold flag. rewrite upd_length. split; [|lia].
    destruct (Nat.eqb_spec k k0) as [->|N]; [rewrite upd_nth_error_same by exact L; reflexivity|now rewrite upd_nth_error_other by auto].
  - destruct (view_at s k0) as [(u, b)| |] eqn:V; cbn in E; try discriminate.
    destruct (local_index lfs n); cbn in E; try discriminate. destruct (add_to _ _ _); cbn in E; try discriminate. injection E as <-.
    cbn. unfold flag. rewrite upd_length. split; [|lia].
    destruct (Nat.eqb_spec k k0) as [->|N]; [rewrite upd_nth_error_same by exact L; reflexivity|now rewrite upd_nth_error_other by auto].
  - destruct (view_at s k0) as [(u, b)| |] eqn:V; cbn in E; try discriminate. injection E as <-. cbn. rewrite upd_length. split; [|lia].
    destruct (Nat.eqb_spec k k0) as [->|N]; [rewrite upd_nth_error_same by exact L; reflexivity|now rewrite upd_nth_error_other by auto].
  - destruct (view_at s k0) as [(u, b)| |] eqn:V; cbn in E; try discriminate. destruct (put _ _ _); cbn in E; try discriminate. injection E as <-.
    cbn. unfold flag. rewrite upd_length. split; [|lia].
    destruct (Nat.eqb_spec k k0) as [->|N]; [rewrite upd_nth_error_same by exact L; reflexivity|now rewrite upd_nth_error_other by auto].
Qed.
Lemma flag_history ops s s' k b : foldM wstep ops s = Ok s' -> existsb by_data ops = false -> k < length (views s) -> flag_of s k = b ->
  flag_of s' k = fold_left (fun b o => if touches k o then true else if resets k o then false else b) ops b.
Proof.
  revert s b. induction ops as [|o ops IH]; cbn; intros s b E D L F.
  - injection E as <-. exact F.
  - destruct (wstep s o) as [s1| |] eqn:W; cbn in E; try discriminate. apply orb_false_iff in D as (D1 & D2).
    destruct (flag_step s o s1 k W D1 L) as (F1 & L1). apply (IH s1); auto; [lia|]. rewrite F1, F. reflexivity.
Qed.
Lemma nest_from ws : forall s n w b, length (views s) = S n -> nth_error (views s) n = Some (w, b) ->
  exists s', foldM wstep (map (fun p => Nested (fst p) (snd p)) (combine (seq n (length ws)) ws)) s = Ok s' /\
  vec s' = vec s /\ length (views s') = S (n + length ws) /\
  exists b', nth_error (views s') (n + length ws) = Some ((w * product ws)%R, b') /\ (ws <> [] -> b' = false) /\ (ws = [] -> b' = b).
Proof.
  induction ws as [|u ws IH]; intros s n w b L V.
  - exists s. cbn. rewrite Nat.add_0_r. repeat split; auto. exists b. rewrite Rmult_1_r. repeat split; auto. congruence.
  - cbn. unfold view_at. rewrite V. cbn.
    destruct (IH (mkw (vec s) (flag n w (views s) ++ [((u * w)%R, false)])) (S n) (u * w)%R false) as (s' & E & Ve & Le & b' & N & B1 & B2).
    + cbn. unfold flag. rewrite app_length, upd_length. cbn. lia.
    + cbn [views]. unfold flag. rewrite nth_error_app2 by (rewrite upd_length; lia). rewrite upd_length, L, Nat.sub_diag. reflexivity.
    + exists s'. split; [exact E|]. split; [exact Ve|]. rewrite <- plus_n_Sm. split; [exact Le|].
      exists b'. change (S n + length ws) with (S (n + length ws)) in N. rewrite N.
      split; [do 2 f_equal; cbn; fold (product ws); ring|]. split; [intros _; destruct ws; auto; apply B1; discriminate|discriminate].
Qed.

(** ** Links *)
Section LinkProofs.
  Variable K : Type.
  Variable eqk : K -> K -> bool.
  Hypothesis EQK : forall k k', eqk k k' = true <-> k = k'.
  Notation glob := (glob K).
  Lemma key_dec (k k' : K) : {k = k'} + {k <> k'}.
  Proof. destruct (eqk k k') eqn:E; [left; now apply EQK|right]. intros Q. apply EQK in Q. congruence. Qed.
  Lemma gset_ok (g : glob) k v : g k <> None -> exists g', gset eqk g k v = Ok g' /\ g' k = Some v /\ (forall k', k' <> k -> g' k' = g k').
  Proof.
    intros H. unfold gset. destruct (g k); [|congruence]. eexists. split; [reflexivity|]. split.
    - now rewrite (proj2 (EQK k k) eq_refl).
    - intros k' N. destruct (eqk k k') eqn:E; [apply EQK in E; congruence|reflexivity].
  Qed.
  Lemma read_ok (g : glob) L : forall loc, (forall p k, In (p, k) L -> p < length loc /\ g k <> None) ->
    (forall p k k', In (p, k) L -> In (p, k') L -> k = k') -> exists loc',
    read_links g L loc = Ok loc' /\ length loc' = length loc /\
    (forall p k, In (p, k) L -> nth_error loc' p = g k) /\ (forall p, ~ In p (map fst L) -> nth_error loc' p = nth_error loc p).
  Proof.
    induction L as [|(p, k) L IH] using rev_ind; intros loc H F.
    - exists loc. repeat split; auto. intros p k [].
    - destruct (IH loc) as (l1 & E & Le & A & B).
      + intros q j I. apply H. apply in_or_app. auto.
      + intros q j j' I I'. apply (F q); apply in_or_app; auto.
      + unfold read_links in *. rewrite foldM_app, E. cbn. destruct (H p k) as (P & G); [apply in_or_app; right; now left|].
        unfold gget. destruct (g k) as [v|] eqn:GK; [|congruence]. cbn. rewrite put_ok by lia. cbn.
        eexists. split; [reflexivity|]. rewrite upd_length. split; [exact Le|]. split.
        * intros q j I. destruct (Nat.eq_dec q p) as [->|N].
          -- assert (j = k) by (apply (F p); [exact I|apply in_or_app; right; now left]). subst j.
             rewrite upd_nth_error_same by lia. congruence.
          -- rewrite upd_nth_error_other by auto. apply A. apply in_app_or in I as [I|[I|[]]]; [exact I|congruence].
        * intros q N. rewrite map_app, in_app_iff in N. cbn in N. rewrite upd_nth_error_other by (intros ->; tauto). apply B. tauto.
  Qed.
  Lemma write_ok (loc : list R) L : forall g : glob, (forall p k, In (p, k) L -> p < length loc /\ g k <> None) ->
    exists g', write_links eqk loc L g = Ok g' /\ (forall k, ~ In k (map snd L) -> g' k = g k) /\
    (forall k, In k (map snd L) -> exists p, In (p, k) L /\ g' k = nth_error loc p).
  Proof.
    induction L as [|(p, k) L IH] using rev_ind; intros g H.
    - exists g. repeat split; auto. intros k [].
    - destruct (IH g) as (g1 & E & B & A).
      + intros q j I. apply H. apply in_or_app. auto.
      + unfold write_links in *. rewrite foldM_app, E. cbn. destruct (H p k) as (P & G); [apply in_or_app; right; now left|].
        rewrite look_in by exact P. cbn. assert (G1 : g1 k <> None).
        { destruct (in_dec key_dec k (map snd L)) as [I|N].
          - destruct (A k I) as (q & I' & ->). apply nth_error_Some. apply (H q k). apply in_or_app. auto.
          - now rewrite (B k N). }
        destruct (gset_ok g1 k (nth p loc 0%R) G1) as (g2 & S2 & V2 & O2). rewrite S2. cbn. exists g2. split; [reflexivity|]. split.
        * intros j N. rewrite map_app, in_app_iff in N. cbn in N. rewrite O2 by (intros ->; tauto). apply B. tauto.
        * intros j I. destruct (eqk k j) eqn:Q.
          -- apply EQK in Q. subst j. exists p. split; [apply in_or_app; right; now left|]. rewrite V2. symmetry. now apply nth_error_nth'.
          -- assert (N : j <> k) by (intros ->; rewrite (proj2 (EQK k k) eq_refl) in Q; discriminate).
             rewrite map_app, in_app_iff in I. cbn in I. destruct I as [I|[I|[]]]; [|congruence].
             destruct (A j I) as (q & I' & V). exists q. split; [apply in_or_app; auto|]. now rewrite O2.
  Qed.
  Definition added (loc : list R) (L : list (nat * K)) (k : K) : R :=
    total (map (fun q => nth (fst q) loc 0%R) (filter (fun q => eqk (snd q) k) L)).
  Lemma add_ok (loc : list R) L : forall g : glob, (forall p k, In (p, k) L -> p < length loc /\ g k <> None) ->
    exists g', add_links eqk loc L g = Ok g' /\ (forall k, g' k = match g k with Some v => Some (v + added loc L k)%R | None => None end).
  Proof.
    induction L as [|(p, k) L IH] using rev_ind; intros g H.
    - exists g. split; [reflexivity|]. intros k. destruct (g k); [|reflexivity]. unfold added. cbn. now rewrite Rplus_0_r.
    - destruct (IH g) as (g1 & E & A).
      + intros q j I. apply H. apply in_or_app. auto.
      + unfold add_links in *. rewrite foldM_app, E. cbn. destruct (H p k) as (P & G); [apply in_or_app; right; now left|].
        rewrite look_in by exact P. cbn. unfold gget. rewrite (A k). destruct (g k) as [v|] eqn:GK; [|congruence]. cbn.
        destruct (gset_ok g1 k (v + added loc L k + nth p loc 0)%R) as (g2 & S2 & V2 & O2); [rewrite (A k), GK; discriminate|].
        rewrite S2. cbn. exists g2. split; [reflexivity|]. intros j. unfold added. rewrite filter_app, map_app, total_app.
        destruct (eqk k j) eqn:Q.
        * apply EQK in Q as Q'. subst j. rewrite V2, GK. cbn. rewrite Q. cbn. unfold added. f_equal. ring.
        * assert (N : j <> k) by (intros ->; rewrite (proj2 (EQK k k) eq_refl) in Q; discriminate).
          rewrite O2, (A j) by exact N. cbn. rewrite Q. cbn. unfold added. destruct (g j); [|reflexivity]. f_equal. ring.
  Qed.
  (** Whatever happens, no entry appears or disappears. *)
  Lemma gset_domain (g g' : glob) k v j : gset eqk g k v = Ok g' -> (g' j = None <-> g j = None).
  Proof.
    unfold gset. destruct (g k) eqn:G; [|discriminate]. intros E. injection E as <-. destruct (eqk k j) eqn:Q; [|tauto].
    apply EQK in Q. subst j. rewrite G. split; discriminate.
  Qed.
  Lemma write_domain loc L : forall g g' : glob, write_links eqk loc L g = Ok g' -> forall j, g' j = None <-> g j = None.
  Proof.
    unfold write_links. induction L as [|(p, k) L IH]; cbn; intros g g' E j; [injection E as <-; tauto|].
    destruct (look loc p); cbn in E; try discriminate. destruct (gset eqk g k a) eqn:S; cbn in E; try discriminate.
    rewrite (IH _ _ E j). exact (gset_domain _ _ _ _ j S).
  Qed.
  Lemma add_domain loc L : forall g g' : glob, add_links eqk loc L g = Ok g' -> forall j, g' j = None <-> g j = None.
  Proof.
    unfold add_links. induction L as [|(p, k) L IH]; cbn; intros g g' E j; [injection E as <-; tauto|].
    destruct (look loc p); cbn in E; try discriminate. destruct (gget g k); cbn in E; try discriminate.
    destruct (gset eqk g k _) eqn:S; cbn in E; try discriminate.
    rewrite (IH _ _ E j). exact (gset_domain _ _ _ _ j S).
  Qed.
End LinkProofs.
