(** Proofs about replay and the reconstruction of functions. *)
From Verif Require Import TransferModel TransferSpec CommonFacts TransferProofs TransferProofs2.
From Coq Require Import Lra.
Local Open Scope R_scope.

Lemma nearest_source m e : forall a v, nearest m e = Some (a, v) <-> source m e a v.
Proof.
  intros a v. split.
  - induction e as [|x f IH]; cbn [nearest]; intros E.
    + destruct (m []) eqn:M; [|discriminate]. injection E as <- <-. constructor. exact M.
    + destruct (m (x :: f)) eqn:M; [injection E as <- <-; constructor; exact M|]. destruct f as [|y f]; [discriminate|]. apply (src_up m _ (y :: f)); [exact M|reflexivity|]. apply IH, E.
  - induction 1 as [c v M|c f a v M E S IH].
    + destruct c as [|x c]; cbn [nearest]; rewrite M; reflexivity.
    + apply father_inv in E. destruct E as (x & -> & N). cbn [nearest]. rewrite M. destruct f; [congruence|exact IH].
Qed.
Lemma source_saved m e a v : source m e a v -> m a = Some v.
Proof. induction 1; assumption. Qed.
Lemma source_ancestor m e a v : source m e a v -> a = e \/ ancestor a e.
Proof.
  induction 1 as [c v M|c f a v M E S IH]; [left; reflexivity|]. right. destruct IH as [->|IH]; [apply anc_father, E|exact (anc_step _ _ _ E IH)].
Qed.
Lemma ancestor_len a c : ancestor a c -> (length a < length c)%nat.
Proof. induction 1 as [c h E'|c h a E' H IHA]; apply father_inv in E'; destruct E' as (z & -> & _); cbn in *; lia. Qed.
Lemma nearest_some m e : (exists a, m a <> None /\ (a = e \/ ancestor a e)) -> nearest m e <> None.
Proof.
  intros (a & M & A). induction e as [|x f IH].
  - destruct A as [->|A]; [cbn; destruct (m []); congruence|apply ancestor_nonempty in A; tauto].
  - cbn [nearest]. destruct (m (x :: f)) eqn:E; [discriminate|]. destruct A as [->|A]; [congruence|].
    inversion A as [c g G|c g b G H]; subst; apply father_inv in G; destruct G as (z & G & N); injection G as <- <-; (destruct f; [congruence|]); apply IH; auto.
Qed.

Lemma rsum_shift (f : nat -> R) n : forall b, rsum f (seq (S b) n) = rsum (fun i => f (S i)) (seq b n).
Proof. induction n as [|n IH]; intros b; cbn [seq]; [reflexivity|]. rewrite !rsum_cons, IH. reflexivity. Qed.
Lemma add_local_spec idx : forall l u d, add_local idx l u d = u d + rsum (fun i => if (nth i idx 0 =? d)%nat then nth i l 0 else 0) (seq 0 (length idx)).
Proof.
  induction idx as [|x idx IH]; intros l u d; cbn [add_local length seq].
  - rewrite rsum_nil. ring.
  - rewrite rsum_cons, rsum_shift. cbn [nth]. destruct l as [|y l].
    + rewrite rsum_zero; [|intros i _; destruct (nth i idx 0 =? d)%nat; [destruct i|]; reflexivity]. cbn [nth]. destruct (x =? d)%nat; ring.
    + rewrite IH. cbn [nth]. rewrite (Nat.eqb_sym d x). destruct (x =? d)%nat; ring.
Qed.

Section Replay.
Context (F : fem) (HU : uniform F).

(** The values of the interpolation, leaf after leaf *)
Lemma replay_leaves ch e a v n : known F ch e -> known F ch a -> n = Common.sum_nat (sizes F e) ->
  (forall k l, (k < leaves F)%nat -> length (interp F e a k l) = size F e k) ->
  exists uf, foldM (replay_leaf F ch e a v) (seq 0 (leaves F)) (repeat 0 n) = Ok uf /\ length uf = n /\
    forall k j, (k < leaves F)%nat -> (j < size F e k)%nat -> nth (first F e k + j) uf 0 = nth j (interp F e a k (slice (first F a k) (size F a k) v)) 0.
Proof.
  intros KE KA EN HI.
  assert (H : forall K, (K <= leaves F)%nat -> exists uf, foldM (replay_leaf F ch e a v) (seq 0 K) (repeat 0 n) = Ok uf /\ length uf = n /\
    forall k j, (k < K)%nat -> (j < size F e k)%nat -> nth (first F e k + j) uf 0 = nth j (interp F e a k (slice (first F a k) (size F a k) v)) 0).
  { induction K as [|K IH]; intros L.
    - exists (repeat 0 n). split; [reflexivity|]. split; [apply repeat_length|]. intros k j H. lia.
    - destruct IH as (uf & E & LU & V); [lia|]. rewrite seq_S, foldM_app, E. cbn [bind foldM Nat.add]. unfold replay_leaf.
      rewrite (known_offset F HU ch e K KE), (known_offset F HU ch a K KA) by lia. fold (size F a K).
      set (l := interp F e a K (slice (first F a K) (size F a K) v)). assert (LL : length l = size F e K) by (apply HI; lia).
      pose proof (first_bound F HU e K ltac:(lia)) as FB. unfold write_at. rewrite LL, LU, EN, (proj2 (Nat.leb_le _ _) FB). cbn [bind].
      eexists. split; [reflexivity|]. split.
      + rewrite !app_length, firstn_length, skipn_length. lia.
      + intros k j H J. destruct (Nat.eq_dec k K) as [->|N].
        * rewrite app_nth2; rewrite firstn_length; [|lia]. replace (first F e K + j - Nat.min (first F e K) (length uf))%nat with j by lia. rewrite app_nth1 by lia. reflexivity.
        * pose proof (first_disjoint F HU e k K ltac:(lia) ltac:(lia) ltac:(lia)). rewrite app_nth1 by (rewrite firstn_length; lia). rewrite <- (V k j) by (try lia; exact J).
          rewrite <- (firstn_skipn (first F e K) uf) at 2. symmetry. apply app_nth1. rewrite firstn_length. lia. }
  exact (H (leaves F) (le_n _)).
Qed.

Definition pair_cache (e a : cell) : cache := fun g => if (g =? gtype F e)%nat then psums 0 (sizes F e) else if (g =? gtype F a)%nat then psums 0 (sizes F a) else [].
Lemma pair_known e a : known F (pair_cache e a) e /\ known F (pair_cache e a) a.
Proof.
  unfold known, pair_cache. rewrite !Nat.eqb_refl. split; [reflexivity|]. destruct (Nat.eqb_spec (gtype F a) (gtype F e)) as [E|E]; [|reflexivity]. f_equal. apply HU. congruence.
Qed.
Lemma foldM_ext {A S} (f g : S -> A -> res S) l : (forall s x, In x l -> f s x = g s x) -> forall s, foldM f l s = foldM g l s.
Proof. induction l as [|x l IH]; intros H s; [reflexivity|]. cbn [foldM]. rewrite H by now left. destruct (g s x); cbn [bind]; auto. apply IH. intros s' y Y. apply H. now right. Qed.
Lemma local_values_cache ch n e a v : known F ch e -> known F ch a -> local_values F ch n e a v = local_values F (pair_cache e a) n e a v.
Proof.
  intros KE KA. destruct (pair_known e a) as (PE & PA). unfold local_values. destruct (cell_eq e a); [reflexivity|]. apply foldM_ext. intros s k K. apply in_seq in K. unfold replay_leaf.
  rewrite (known_offset F HU ch e k KE), (known_offset F HU ch a k KA), (known_offset F HU _ e k PE), (known_offset F HU _ a k PA) by lia. reflexivity.
Qed.
(** The local values of a cell as a function of the saved data *)
Definition local (dofs : cell -> list nat) (m : tmap) (e : cell) : list R :=
  match nearest m e with
  | Some (a, v) => match local_values F (pair_cache e a) (length (dofs e)) e a v with Ok l => l | _ => [] end
  | None => []
  end.

Context (new : list cell) (dofs : cell -> list nat) (m : tmap).
Hypothesis LD : forall e, In e new -> length (dofs e) = Common.sum_nat (sizes F e).
Hypothesis LI : forall e a k l, In e new -> ancestor a e -> (k < leaves F)%nat -> length (interp F e a k l) = size F e k.

Lemma local_spec e : In e new -> nearest m e <> None -> exists a v, source m e a v /\ local_values F (pair_cache e a) (length (dofs e)) e a v = Ok (local dofs m e) /\
  forall i, (i < length (dofs e))%nat -> gets F e a v i (nth i (local dofs m e) 0).
Proof.
  intros IN NN. unfold local. destruct (nearest m e) as [(a, v)|] eqn:N; [|congruence]. apply nearest_source in N. exists a, v. split; [exact N|].
  unfold local_values, gets. destruct (cell_eqP e a) as [E|E].
  - split; [reflexivity|]. intros i _. left. split; [exact E|reflexivity].
  - destruct (pair_known e a) as (PE & PA). assert (A : ancestor a e) by (apply source_ancestor in N; destruct N; [congruence|assumption]).
    destruct (replay_leaves (pair_cache e a) e a v (length (dofs e)) PE PA (LD e IN) (fun k l => LI e a k l IN A)) as (uf & EU & LU & V). rewrite EU. split; [reflexivity|].
    intros i I. right. split; [exact E|]. rewrite (LD e IN) in I. destruct (locate _ _ I) as (k & j & K & J & ->). exists k, j. rewrite (proj2 HU) in K.
    split; [exact K|]. split; [exact J|]. split; [reflexivity|]. apply V; assumption.
Qed.

Lemma replay_fold l : (forall e, In e l -> In e new /\ nearest m e <> None) -> forall st, cache_ok F (rcache st) -> (forall a, m a <> None -> known F (rcache st) a) ->
  exists st', foldM (replay_cell F dofs m) l st = Ok st' /\ (forall d, sumv st' d = sumv st d + at_dof dofs d (fun e i => nth i (local dofs m e) 0) l) /\
    forall d, countv st' d = countv st d + at_dof dofs d (fun _ _ => 1) l.
Proof.
  induction l as [|e l IH]; intros HL st CO KN.
  - exists st. split; [reflexivity|]. split; intros d; unfold at_dof; rewrite rsum_nil; ring.
  - destruct (HL e (or_introl eq_refl)) as (IN & NN). destruct (local_spec e IN NN) as (a & v & S & LV & _). cbn [foldM]. unfold replay_cell at 1.
    rewrite (proj2 (nearest_source m e a v) S). cbn zeta. rewrite local_values_cache; [|apply update_known, CO|apply update_keeps; [exact HU|apply KN; rewrite (source_saved _ _ _ _ S); discriminate]].
    rewrite LV. cbn [bind]. destruct (IH (fun e' I => HL e' (or_intror I)) (mkr (cache_update F (rcache st) e) (add_local (dofs e) (local dofs m e) (sumv st)) (add_local (dofs e) (repeat 1 (length (dofs e))) (countv st)))) as (st' & E & V1 & V2).
    + cbn. apply update_ok; assumption.
    + cbn. intros b B. apply update_keeps; auto.
    + exists st'. split; [exact E|]. cbn [sumv countv] in V1, V2. split; intros d; [rewrite V1|rewrite V2]; rewrite add_local_spec; unfold at_dof; rewrite rsum_cons; rewrite Rplus_assoc; f_equal; f_equal.
      apply rsum_ext. intros i I. apply in_seq in I. destruct (nth i (dofs e) 0 =? d)%nat; [|reflexivity].
      assert (H : forall q k, (k < q)%nat -> nth k (repeat 1 q) 0 = 1) by (induction q as [|q IHq]; intros k K; [lia|]; destruct k as [|k]; [reflexivity|cbn; apply IHq; lia]). apply H. lia.
Qed.

Lemma at_dof_nonneg d l : 0 <= at_dof dofs d (fun _ _ => 1) l.
Proof.
  assert (Z : forall (A : Type) (f : A -> R) l, (forall x, 0 <= f x) -> 0 <= rsum f l).
  { intros A f l0 H. induction l0 as [|x l0 IH]; [cbn; lra|]. rewrite rsum_cons. specialize (H x). lra. }
  apply Z. intros e. apply Z. intros i. destruct (_ =? _)%nat; lra.
Qed.
Lemma at_dof_cases d l : 0 < at_dof dofs d (fun _ _ => 1) l \/ forall f, at_dof dofs d f l = 0.
Proof.
  induction l as [|e l IH]; [right; reflexivity|]. unfold at_dof in *. pose proof (at_dof_nonneg d l) as N. unfold at_dof in N.
  assert (C : 0 < rsum (fun i => if (nth i (dofs e) 0 =? d)%nat then 1 else 0) (seq 0 (length (dofs e))) \/ forall i, In i (seq 0 (length (dofs e))) -> (nth i (dofs e) 0 =? d)%nat = false).
  { induction (seq 0 (length (dofs e))) as [|i s IHs]; [right; intros i []|]. rewrite rsum_cons.
    assert (0 <= rsum (fun i0 => if (nth i0 (dofs e) 0 =? d)%nat then 1 else 0) s). { clear. induction s as [|x s IH]; [cbn; lra|]. rewrite rsum_cons. destruct (_ =? _)%nat; lra. }
    destruct (nth i (dofs e) 0 =? d)%nat eqn:E; [left; lra|]. destruct IHs as [H1|H1]; [left; lra|]. right. intros j [<-|J]; auto. }
  destruct C as [C|C]; [left; rewrite rsum_cons; lra|]. destruct IH as [H|H]; [left; rewrite rsum_cons; rewrite rsum_zero; [lra|intros i I; rewrite (C i I); reflexivity]|].
  right. intros f. rewrite rsum_cons, (H f), rsum_zero; [ring|]. intros i I. rewrite (C i I). reflexivity.
Qed.

Lemma replay_facts ch : cache_ok F ch -> (forall a, m a <> None -> known F ch a) -> (forall e, In e new -> nearest m e <> None) ->
  exists u', replay F new dofs m ch = Ok u' /\ forall d, u' d = average (at_dof dofs d (fun e i => nth i (local dofs m e) 0) new) (at_dof dofs d (fun _ _ => 1) new).
Proof.
  intros CO KN NN. destruct (replay_fold new (fun e I => conj I (NN e I)) (mkr ch (fun _ => 0) (fun _ => 0)) CO KN) as (st & E & V1 & V2). cbn [sumv countv] in V1, V2.
  unfold replay. rewrite E. cbn [bind]. eexists. split; [reflexivity|]. intros d. cbv beta. rewrite V1, V2, !Rplus_0_l. unfold average.
  destruct (Rlt_dec 0 _) as [P|P]; [reflexivity|]. destruct (at_dof_cases d new) as [C|C]; [contradiction|]. rewrite C. field.
Qed.
(** Replay throws exactly if a new cell has no data on its way up. *)
Lemma replay_ok_nearest ch u' : replay F new dofs m ch = Ok u' -> forall e, In e new -> nearest m e <> None.
Proof.
  unfold replay. intros E. apply bind_ok in E. destruct E as (st & E & _). revert E. generalize (mkr ch (fun _ : nat => 0) (fun _ : nat => 0)). generalize new as l.
  induction l as [|x l IH]; intros s E e I; [destruct I|]. cbn [foldM] in E. apply bind_ok in E. destruct E as (s1 & E1 & E2). destruct I as [->|I]; [|exact (IH _ E2 e I)].
  unfold replay_cell in E1. destruct (nearest m e); congruence.
Qed.
End Replay.

Section Exact.
Context (F : fem) (HU : uniform F) (old new : list cell) (odofs : cell -> list nat) (vanish : cell -> bool) (u : nat -> R) (coef : cell -> list R).
Hypothesis LS : leaf_set old.
Hypothesis NE : forall c, In c old -> c <> [].
Hypothesis REP : represents F old new odofs vanish u coef.

Lemma project_exact ch a : cache_ok F ch -> saved old vanish a -> ~ In a old -> exists ch', project F old odofs u ch a = Ok (ch', coef a).
Proof.
  intros CO SA NA.
  assert (AN : a <> []). { destruct SA as (c & C & H). apply climbs_ancestor in H. destruct H as [->|H]; [apply NE, C|apply ancestor_nonempty in H; tauto]. }
  assert (BE : forall c, In c (filter (below a) old) -> In c old /\ ancestor a c). { intros c C. apply filter_In in C. destruct C as (C & B). apply below_ancestor in B; auto. }
  assert (DL : forall c, In c old -> length (odofs c) = Common.sum_nat (sizes F c)). { intros c C. rewrite <- (rep_length _ _ _ _ _ _ _ REP), <- (rep_old _ _ _ _ _ _ _ REP c C), map_length. reflexivity. }
  destruct (project_spec F HU old odofs u ch a CO) as (ch' & uc & E & _ & L & V).
  - intros c C. destruct (BE c C) as (C1 & C2). split; [apply DL, C1|]. intros k q K Q.
    destruct (rep_agree _ _ _ _ _ _ _ REP a c k q SA NA C1 C2 K Q) as (Q1 & Q2 & _). destruct (rep_inverse _ _ _ _ _ _ _ REP a k SA NA K) as (Q3 & _). auto.
  - exists ch'. rewrite E. do 2 f_equal. apply (nth_ext _ _ 0 0); [rewrite L; symmetry; apply (rep_length _ _ _ _ _ _ _ REP)|]. intros p P. rewrite L in P. rewrite (V p P).
    destruct (locate _ _ P) as (k & i & K & I & ->). rewrite (proj2 HU) in K. fold (first F a k). fold (size F a k) in I.
    change (nth (first F a k + i) (coef a) 0) with (coefficient F (coef a) a k i). rewrite <- (projection_value F HU old a k i (coef a) coef K I).
    + apply rsum_ext. intros c C. apply rsum_ext. intros k' K'. apply rsum_ext. intros q Q. f_equal. apply (rep_old _ _ _ _ _ _ _ REP). apply BE, C.
    + intros c k' q C K' Q. destruct (BE c C) as (C1 & C2). exact (rep_agree _ _ _ _ _ _ _ REP a c k' q SA NA C1 C2 K' Q).
    + exact (proj1 (rep_inverse _ _ _ _ _ _ _ REP a k SA NA K)).
    + intros j J. exact (proj2 (rep_inverse _ _ _ _ _ _ _ REP a k SA NA K) i j I J).
Qed.

Definition exact (m : tmap) : Prop := forall a v, m a = Some v -> v = coef a.
Lemma climb_exact a : saved old vanish a -> forall st, good F st -> exact (snd st) -> exists st', climb F old odofs vanish u a st = Ok st' /\ exact (snd st').
Proof.
  induction a as [|x f IH]; intros SA st G X; cbn [climb].
  - exists st. destruct (vanish []); auto.
  - destruct (vanish (x :: f)) eqn:V; [|eauto]. destruct f as [|y f]; [eauto|]. set (g := y :: f) in *.
    assert (SG : saved old vanish g). { destruct SA as (c & C & H). exists c. split; [exact C|]. apply (climbs_up _ _ (x :: g)); [exact H|exact V|reflexivity]. }
    assert (NG : ~ In g old).
    { intros I. destruct SA as (c & C & H). apply climbs_ancestor in H. assert (A : ancestor g c).
      { destruct H as [<-|H]; [apply anc_father; reflexivity|exact (ancestor_trans _ _ _ (anc_father (x :: g) g eq_refl) H)]. } exact (LS g c I C A). }
    assert (NEW : exists st', (let* r := project F old odofs u (fst st) g in climb F old odofs vanish u g (fst r, put (snd st) g (snd r))) = Ok st' /\ exact (snd st')).
    { destruct (project_exact (fst st) g (proj1 G) SG NG) as (ch' & E). rewrite E. cbn [bind fst snd]. apply IH; [exact SG| |].
      - destruct (project_cache F HU old odofs u _ _ _ _ (proj1 G) E) as (P1 & P2 & P3). split; [exact P1|]. cbn [fst snd]. intros d D. apply put_none in D. destruct D as [->|D]; [exact P2|apply P3, G, D].
      - cbn [snd]. intros d v M. unfold put in M. destruct (cell_eqP d g) as [->|]; [congruence|apply X, M]. }
    destruct (snd st g) as [[|w0 w]|] eqn:M; [exact NEW| |exact NEW]. apply IH; assumption.
Qed.
Lemma backup_exact ch : cache_ok F ch -> exists st, backup F old odofs vanish u ch = Ok st /\ exact (snd st).
Proof.
  intros CO. unfold backup. assert (H : forall l st, (forall c, In c l -> In c old) -> good F st -> exact (snd st) -> exists st', foldM (backup_cell F old odofs vanish u) l st = Ok st' /\ exact (snd st')).
  { induction l as [|e l IH]; intros st HL G X; [exists st; auto|]. cbn [foldM]. unfold backup_cell at 1.
    assert (G1 : good F (cache_update F (fst st) e, put (snd st) e (read u (odofs e)))).
    { destruct G as (G1 & G2). split; cbn [fst snd]; [apply update_ok; auto|]. intros d H. apply put_none in H. destruct H as [->|H]; [apply update_known, G1|apply update_keeps; auto]. }
    destruct (climb_exact e) with (st := (cache_update F (fst st) e, put (snd st) e (read u (odofs e)))) as (st1 & E1 & X1).
    - exists e. split; [apply HL; left; reflexivity|constructor].
    - exact G1.
    - cbn [snd]. intros d v M. unfold put in M. destruct (cell_eqP d e) as [->|]; [|apply X, M]. injection M as <-. apply (rep_old _ _ _ _ _ _ _ REP). apply HL. left. reflexivity.
    - rewrite E1. cbn [bind]. apply IH; [intros c C; apply HL; right; exact C| |exact X1]. apply (climb_facts F HU old odofs vanish u e _ _ E1 G1). }
  apply H; [auto| |intros a v M; discriminate]. split; [exact CO|]. intros a N. cbn in N. congruence.
Qed.

Lemma slice_nth (l : list R) b n j : (j < n)%nat -> nth j (slice b n l) 0 = nth (b + j) l 0.
Proof.
  intros J. unfold slice. assert (H : forall k (l : list R), nth j (firstn k l) 0 = if (j <? k)%nat then nth j l 0 else 0).
  { clear. induction j as [|j IH]; intros [|k] [|x l]; try reflexivity; cbn [firstn nth]; rewrite ?IH; [destruct (S j <? S k)%nat; reflexivity|].
    destruct (Nat.ltb_spec j k), (Nat.ltb_spec (S j) (S k)); try lia; reflexivity. }
  rewrite H, (proj2 (Nat.ltb_lt _ _) J). clear. revert l. induction b as [|b IH]; intros l; [reflexivity|]. destruct l; [destruct j; reflexivity|]. cbn [skipn Nat.add nth]. apply IH.
Qed.

Lemma transfer_exact ndofs g : adapted old new vanish ->
  (forall e, In e new -> length (ndofs e) = Common.sum_nat (sizes F e)) ->
  (forall e a k l, In e new -> ancestor a e -> (k < leaves F)%nat -> length (interp F e a k l) = size F e k) ->
  (forall e i, In e new -> (i < length (ndofs e))%nat -> nth i (coef e) 0 = g (nth i (ndofs e) 0%nat)) ->
  exists u', transfer F old new odofs ndofs vanish u = Ok u' /\
    forall d, ((exists e, In e new /\ In d (ndofs e)) -> u' d = g d) /\ ((forall e, In e new -> ~ In d (ndofs e)) -> u' d = 0).
Proof.
  intros AD LD LI HG. unfold transfer. destruct (backup_exact no_cache (no_cache_ok F)) as ((ch, m) & E & X). rewrite E. cbn [bind fst snd].
  destruct (backup_facts F HU old odofs vanish u _ _ (no_cache_ok F) LS E) as ((G1 & G2) & D & _). cbn [fst snd] in *.
  assert (NN : forall e, In e new -> nearest m e <> None).
  { intros e I. apply nearest_some. destruct (AD e I) as [H|[(c & C & A)|H]].
    - exists e. split; [apply D; exists e; split; [exact H|constructor]|auto].
    - exists c. split; [apply D; exists c; split; [exact C|constructor]|auto].
    - exists e. split; [apply D, H|auto]. }
  destruct (replay_facts F HU new ndofs m LD LI ch G1 G2 NN) as (u' & EU & V). exists u'. split; [exact EU|]. intros d. rewrite V.
  assert (VAL : at_dof ndofs d (fun e i => nth i (local F ndofs m e) 0) new = g d * at_dof ndofs d (fun _ _ => 1) new).
  { unfold at_dof. rewrite <- rsum_scal. apply rsum_ext. intros e IE. rewrite <- rsum_scal. apply rsum_ext. intros i I. apply in_seq in I.
    destruct (Nat.eqb_spec (nth i (ndofs e) 0%nat) d) as [Ed|]; [|ring]. rewrite Rmult_1_r.
    destruct (local_spec F HU new ndofs m LD LI e IE (NN e IE)) as (a & v & S & _ & W). destruct (W i ltac:(lia)) as [(EA & W1)|(N & k & j & K & J & Ei & W1)]; rewrite W1.
    - rewrite (X a v (source_saved _ _ _ _ S)), <- EA. rewrite <- Ed, <- HG by (auto; lia). reflexivity.
    - assert (A : ancestor a e) by (destruct (source_ancestor _ _ _ _ S); [congruence|assumption]). rewrite (X a v (source_saved _ _ _ _ S)).
      assert (SA : saved old vanish a) by (apply D; rewrite (source_saved _ _ _ _ S); discriminate). rewrite (rep_interp _ _ _ _ _ _ _ REP a e k SA IE A K), slice_nth by exact J.
      rewrite <- Ed, <- HG by (auto; lia). rewrite Ei. reflexivity. }
  rewrite VAL. unfold average. destruct (at_dof_cases ndofs d new) as [C|C].
  - destruct (Rlt_dec 0 _) as [_|P]; [|contradiction]. split; [intros _; field; lra|]. intros N. exfalso.
    assert (Z : at_dof ndofs d (fun _ _ => 1) new = 0); [|lra]. unfold at_dof. apply rsum_zero. intros e IE. apply rsum_zero. intros i I. apply in_seq in I.
    destruct (Nat.eqb_spec (nth i (ndofs e) 0%nat) d) as [Ed|]; [|reflexivity]. exfalso. apply (N e IE). rewrite <- Ed. apply nth_In. lia.
  - rewrite C. destruct (Rlt_dec 0 0) as [P|_]; [lra|]. split; [|reflexivity]. intros (e & IE & ID). exfalso.
    assert (P : 0 < at_dof ndofs d (fun _ _ => 1) new).
    { destruct (at_dof_cases ndofs d [e]) as [P1|P1].
      - apply in_split in IE. destruct IE as (l1 & l2 & ->). unfold at_dof in *. rewrite rsum_app, rsum_cons. rewrite rsum_cons, rsum_nil in P1.
        pose proof (at_dof_nonneg ndofs d l1). pose proof (at_dof_nonneg ndofs d l2). unfold at_dof in *. lra.
      - exfalso. specialize (P1 (fun _ _ => 1)). destruct (In_nth _ _ 0%nat ID) as (i & I & Ei). unfold at_dof in P1. rewrite rsum_cons, rsum_nil, Rplus_0_r in P1.
        assert (SP : seq 0 (length (ndofs e)) = seq 0 i ++ i :: seq (S i) (length (ndofs e) - S i)).
        { replace (length (ndofs e)) with (i + S (length (ndofs e) - S i))%nat at 1 by lia. rewrite seq_app. reflexivity. }
        rewrite SP, rsum_app, rsum_cons, Ei, Nat.eqb_refl in P1.
        assert (Z : forall l, 0 <= rsum (fun i => if (nth i (ndofs e) 0 =? d)%nat then 1 else 0) l). { clear. induction l as [|x s IH]; [cbn; lra|]. rewrite rsum_cons. destruct (_ =? _)%nat; lra. }
        pose proof (Z (seq 0 i)). pose proof (Z (seq (S i) (length (ndofs e) - S i))). lra. }
    rewrite C in P. lra.
Qed.
End Exact.
