(** Proofs about the index sets: folds, prefix sums, positions and the sequence of assignments. *)
From Verif Require Import Common CommonFacts EsetModel EsetSpec.
From Coq Require Import Permutation.

(** ** Folds *)
Lemma foldM_flat {A B S} (f : S -> A -> res S) (b : B -> bool) (h : B -> list A) cs s :
  foldM (fun s c => if b c then foldM f (h c) s else Ok s) cs s = foldM f (flat_map (fun c => if b c then h c else []) cs) s.
Proof.
  revert s. induction cs as [|c cs IH]; intros s; [reflexivity|].
  cbn [foldM flat_map]. rewrite foldM_app. destruct (b c); cbn [bind foldM].
  - destruct (foldM f (h c) s); cbn [bind]; auto.
  - apply IH.
Qed.
Lemma foldM_filter {A S} (f : S -> A -> res S) (p : A -> bool) l s :
  foldM (fun s e => if p e then f s e else Ok s) l s = foldM f (filter p l) s.
Proof.
  revert s. induction l as [|a l IH]; intros s; [reflexivity|]. cbn [foldM filter].
  destruct (p a); cbn [foldM bind]; [destruct (f s a); cbn [bind]; auto | apply IH].
Qed.
Lemma foldM_ext {A S} (f f' : S -> A -> res S) l s : (forall s a, f s a = f' s a) -> foldM f l s = foldM f' l s.
Proof. intros H. revert s. induction l as [|a l IH]; intros s; [reflexivity|]. cbn [foldM]. rewrite H. destruct (f' s a); cbn [bind]; auto. Qed.

(** ** Prefix sums *)
Definition pre (f : nat -> nat) (t : nat) : nat := sum_nat (map f (seq 0 t)).
Lemma pre_S f t : pre f (S t) = pre f t + f t.
Proof. unfold pre. rewrite seq_S, map_app, sum_nat_app. unfold sum_nat; cbn; lia. Qed.
Lemma pre_mono f a b : a <= b -> pre f a <= pre f b.
Proof. induction 1; [lia|]. rewrite pre_S. lia. Qed.
Lemma pre_inj f t i t' i' : i < f t -> i' < f t' -> pre f t + i = pre f t' + i' -> t = t' /\ i = i'.
Proof.
  intros H H' E. destruct (lt_eq_lt_dec t t') as [[L|L]|L].
  - pose proof (pre_mono f (S t) t' L). rewrite pre_S in *. lia.
  - subst. lia.
  - pose proof (pre_mono f (S t') t L). rewrite pre_S in *. lia.
Qed.
Lemma pre_ext f f' t : (forall u, u < t -> f u = f' u) -> pre f t = pre f' t.
Proof. intros H. unfold pre. f_equal. apply map_ext_in. intros u Hu. apply in_seq in Hu. apply H. lia. Qed.

Lemma partial_sum_length s l : length (partial_sum s l) = length l.
Proof. revert s; induction l; cbn; auto. Qed.
Lemma partial_sum_nth s l t : t < length l -> nth_error (partial_sum s l) t = Some (s + sum_nat (firstn (S t) l)).
Proof.
  revert s t. induction l as [|a l IH]; intros s t H; cbn in H; [lia|]. destruct t as [|t].
  - unfold sum_nat; cbn. f_equal; lia.
  - cbn [partial_sum nth_error]. rewrite IH by lia. f_equal. unfold sum_nat; cbn. lia.
Qed.
Lemma firstn_snoc {A} (l : list A) t x : nth_error l t = Some x -> firstn (S t) l = firstn t l ++ [x].
Proof. revert t; induction l as [|a l IH]; intros [|t] H; try discriminate; [injection H as ->; reflexivity|]. cbn. f_equal. now apply IH. Qed.
(** An array with 0 in front and f t behind position t has the prefix sums of f. *)
Lemma partial_sum_pre (l : list nat) f n : length l = S n -> nth_error l 0 = Some 0 -> (forall t, t < n -> nth_error l (t + 1) = Some (f t)) ->
  forall t, t <= n -> nth_error (partial_sum 0 l) t = Some (pre f t).
Proof.
  intros L Z H t Ht. rewrite partial_sum_nth by lia. f_equal. rewrite Nat.add_0_l. induction t as [|t IH].
  - destruct l as [|a l]; [discriminate|]. injection Z as ->. reflexivity.
  - rewrite (firstn_snoc l (S t) (f t)), sum_nat_app, IH, pre_S by (try lia; rewrite <- H by lia; f_equal; lia).
    unfold sum_nat; cbn; lia.
Qed.
Lemma last_nth {A} (l : list A) d n : length l = S n -> nth_error l n = Some (last l d).
Proof.
  revert n. induction l as [|a l IH]; intros n H; [discriminate|]. destruct l as [|b l].
  - injection H as <-. reflexivity.
  - destruct n as [|n]; [discriminate|]. change (last (a :: b :: l) d) with (last (b :: l) d). cbn [nth_error]. apply IH. cbn in *; lia.
Qed.

(** ** Array access *)
Lemma rd_some {A} (l : list A) k x : nth_error l k = Some x -> rd l k = Ok x.
Proof. unfold rd. now intros ->. Qed.
Lemma wr_ok {A} (l : list A) k x : k < length l -> wr l k x = Ok (upd k x l).
Proof. unfold wr. intros H. destruct (k <? length l) eqn:E; [reflexivity|]. apply Nat.ltb_ge in E. lia. Qed.
Lemma nth_error_lt {A} (l : list A) k x : nth_error l k = Some x -> k < length l.
Proof. intros H. apply nth_error_Some. now rewrite H. Qed.
Lemma nth_error_zeros {A B} (x : B) (l : list A) k : k < length l -> nth_error (map (fun _ => x) l) k = Some x.
Proof. intros H. rewrite nth_error_map. destruct (nth_error l k) eqn:E; [reflexivity|]. apply nth_error_None in E. lia. Qed.
Lemma nth_error_repeat' {A} (x : A) n k : k < n -> nth_error (repeat x n) k = Some x.
Proof. revert k. induction n; intros [|k] H; cbn; try lia; auto. apply IHn. lia. Qed.
Lemma nth_error_upd {A} n m (x : A) l : n < length l -> nth_error (upd n x l) m = if m =? n then Some x else nth_error l m.
Proof.
  intros H. destruct (m =? n) eqn:E.
  - apply Nat.eqb_eq in E as ->. now apply upd_nth_error_same.
  - apply Nat.eqb_neq in E. apply upd_nth_error_other. lia.
Qed.

(** ** Counting *)
Lemma Permutation_filter {A} (p : A -> bool) l l' : Permutation l l' -> Permutation (filter p l) (filter p l').
Proof.
  induction 1; cbn; auto.
  - destruct (p x); auto.
  - destruct (p x), (p y); auto. constructor.
  - eapply perm_trans; eauto.
Qed.
Lemma filter_split {A} (p q : A -> bool) l : (forall x, In x l -> p x = true -> q x = true -> False) ->
  Permutation (filter p l ++ filter q l) (filter (fun x => p x || q x) l).
Proof.
  induction l as [|a l IH]; intros H; [constructor|]. cbn.
  specialize (IH (fun x Hx => H x (or_intror Hx))). specialize (H a (or_introl eq_refl)).
  destruct (p a) eqn:Ep, (q a) eqn:Eq; cbn.
  - destruct (H eq_refl eq_refl).
  - now constructor.
  - etransitivity; [symmetry; apply Permutation_middle|]. now constructor.
  - exact IH.
Qed.
Lemma filter_filter {A} (p q : A -> bool) l : filter p (filter q l) = filter (fun x => q x && p x) l.
Proof. induction l as [|a l IH]; [reflexivity|]. cbn. destruct (q a); cbn; [destruct (p a)|]; now rewrite IH. Qed.
Definition count (D : list gent) (t : nat) : nat := length (of_type t D).
Lemma pre_count D t : pre (count D) t = length (filter (fun e => e_gt e <? t) D).
Proof.
  induction t as [|t IH].
  - change (0 = length (filter (fun e => e_gt e <? 0) D)). induction D as [|a D IHD]; [reflexivity|]. cbn [filter]. destruct (e_gt a <? 0) eqn:E; [lia|]. exact IHD.
  - rewrite pre_S, IH. unfold count, of_type. rewrite <- app_length.
    rewrite (Permutation_length (filter_split (fun e => e_gt e <? t) (fun e => e_gt e =? t) D ltac:(cbv beta; intros; lia))).
    f_equal. apply filter_ext. intros e. lia.
Qed.
Lemma count_le D n : (forall e, In e D -> e_gt e < n) -> pre (count D) n = length D.
Proof.
  intros H. rewrite pre_count. f_equal. induction D as [|a D IH]; [reflexivity|]. cbn.
  assert (e_gt a < n) by (apply H; now left). destruct (e_gt a <? n) eqn:E; [|lia]. f_equal. apply IH. intros; apply H; now right.
Qed.
Lemma count_perm D D' t : Permutation D D' -> count D t = count D' t.
Proof. intros H. unfold count, of_type. apply Permutation_length, Permutation_filter, H. Qed.

(** ** Consecutive numbers *)
Lemma NoDup_map_res {A} (f : A -> res nat) (l : list A) : NoDup l ->
  (forall x, In x l -> exists i, f x = Ok i) ->
  (forall x y i, In x l -> In y l -> f x = Ok i -> f y = Ok i -> x = y) -> NoDup (map f l).
Proof.
  induction l as [|a l IH]; intros N H I; [constructor|]. inversion N; subst. cbn. constructor.
  - intros E. apply in_map_iff in E as (y & E & Hy). destruct (H a) as (i & Ha); [now left|].
    assert (a = y) by (eapply I; eauto; [now left | now right | congruence]). subst. auto.
  - apply IH; auto; intros; [apply H; now right | eapply I; eauto; now right].
Qed.
Lemma consecutive_intro {A} (f : A -> res nat) (l : list A) : NoDup l ->
  (forall x, In x l -> exists i, f x = Ok i /\ i < length l) ->
  (forall x y i, In x l -> In y l -> f x = Ok i -> f y = Ok i -> x = y) -> consecutive f l.
Proof.
  intros N H I. unfold consecutive. apply NoDup_Permutation_bis.
  - apply NoDup_map_res; auto. intros x Hx. destruct (H x Hx) as (i & E & _). eauto.
  - rewrite !map_length, seq_length. lia.
  - intros y Hy. apply in_map_iff in Hy as (x & <- & Hx). destruct (H x Hx) as (i & -> & Hi).
    apply in_map, in_seq. lia.
Qed.
Lemma consecutive_perm {A} (f : A -> res nat) (l l' : list A) : Permutation l l' -> consecutive f l -> consecutive f l'.
Proof.
  unfold consecutive. intros P H. rewrite <- (Permutation_length P). eapply perm_trans; [|exact H]. apply Permutation_map. now symmetry.
Qed.
Lemma consecutive_ext {A} (f f' : A -> res nat) (l : list A) : (forall x, In x l -> f x = f' x) -> consecutive f l -> consecutive f' l.
Proof. unfold consecutive. intros E H. erewrite <- map_ext_in; eauto. Qed.

(** ** The sequence of assignments.  [sz]: number of positions of a type; [D]: the entities that have got an index *)
Section assignments.
  Variables (ngt : nat) (sz : nat -> nat) (off : list nat) (U : gent -> Prop).
  Hypothesis off_pre : forall t, t <= ngt -> nth_error off t = Some (pre sz t).
  Hypothesis U_range : forall e, U e -> e_gt e < ngt /\ e_base e < sz (e_gt e).
  Hypothesis U_inj : forall e e', U e -> U e' -> e_gt e = e_gt e' -> e_base e = e_base e' -> e = e'.

  Definition pos (e : gent) : nat := pre sz (e_gt e) + e_base e.
  Lemma pos_inj e e' : U e -> U e' -> pos e = pos e' -> e = e'.
  Proof. intros H H' E. destruct (pre_inj sz _ _ _ _ (proj2 (U_range _ H)) (proj2 (U_range _ H')) E). now apply U_inj. Qed.
  Lemma pos_lt e : U e -> pos e < pre sz ngt.
  Proof. intros H. destruct (U_range e H) as [A B]. pose proof (pre_mono sz (S (e_gt e)) ngt A). rewrite pre_S in *. unfold pos. lia. Qed.

  Record assigned (D : list gent) (mp : list nat) (ix : list (option nat)) : Prop := mkasg {
    a_U : forall e, In e D -> U e;
    a_nodup : NoDup D;
    a_mp_len : length mp = S ngt;
    a_mp0 : nth_error mp 0 = Some 0;
    a_mp : forall t, t < ngt -> nth_error mp (t + 1) = Some (count D t);
    a_ix_len : length ix = pre sz ngt;
    a_some : forall e, In e D -> exists i, nth_error ix (pos e) = Some (Some i) /\ i < count D (e_gt e);
    a_inj : forall e e' i, In e D -> In e' D -> e_gt e = e_gt e' ->
              nth_error ix (pos e) = Some (Some i) -> nth_error ix (pos e') = Some (Some i) -> e = e';
    a_none : forall e, U e -> ~ In e D -> nth_error ix (pos e) = Some None }.

  Lemma count_cons D e t : count (e :: D) t = count D t + (if e_gt e =? t then 1 else 0).
  Proof. unfold count, of_type. cbn. destruct (e_gt e =? t); cbn; lia. Qed.

  Lemma assign_new D mp ix keep e : assigned D mp ix -> U e -> ~ In e D ->
    exists mp' ix', assign keep (off, mp, ix) e = Ok (off, mp', ix') /\ assigned (e :: D) mp' ix'.
  Proof.
    intros [HU HN Lm H0 Hm Lx Hs Hi Hn] Ue Ne. destruct (U_range e Ue) as [Rt Rb].
    pose proof (pos_lt e Ue) as Lp.
    unfold assign. rewrite (rd_some _ _ _ (off_pre (e_gt e) (Nat.lt_le_incl _ _ Rt))). cbn [bind]. fold (pos e).
    rewrite (rd_some _ _ _ (Hn e Ue Ne)), (rd_some _ _ _ (Hm _ Rt)). cbn [bind].
    rewrite (wr_ok ix) by lia. cbn [bind]. rewrite (wr_ok mp) by lia. cbn [bind].
    exists (upd (e_gt e + 1) (count D (e_gt e) + 1) mp), (upd (pos e) (Some (count D (e_gt e))) ix).
    split; [destruct keep; reflexivity|].
    assert (forall x, U x -> x <> e -> pos x <> pos e) as Np.
    { intros x Hx N E. apply N. now apply pos_inj. }
    assert (forall x, U x -> nth_error (upd (pos e) (Some (count D (e_gt e))) ix) (pos x) =
              if pos x =? pos e then Some (Some (count D (e_gt e))) else nth_error ix (pos x)) as Rd.
    { intros x Hx. apply nth_error_upd. lia. }
    assert (forall x, In x D -> x <> e) as Nx by (intros x Hx ->; auto).
    constructor.
    - intros x [<-|Hx]; auto.
    - now constructor.
    - now rewrite upd_length.
    - rewrite upd_nth_error_other by lia. exact H0.
    - intros t Ht. rewrite nth_error_upd, count_cons by lia. destruct (t + 1 =? e_gt e + 1) eqn:E.
      + assert (t = e_gt e) by lia. subst. now rewrite Nat.eqb_refl.
      + rewrite Hm by lia. destruct (e_gt e =? t) eqn:E'; [lia|]. f_equal; lia.
    - now rewrite upd_length.
    - intros x [<-|Hx].
      + rewrite Rd, Nat.eqb_refl by auto. exists (count D (e_gt e)). split; [reflexivity|]. rewrite count_cons, Nat.eqb_refl. lia.
      + rewrite Rd by auto. destruct (pos x =? pos e) eqn:E; [apply Nat.eqb_eq in E; destruct (Np x); auto|].
        destruct (Hs x Hx) as (i & Ei & Li). exists i. split; [exact Ei|]. rewrite count_cons. lia.
    - assert (forall x i, In x D -> e_gt x = e_gt e -> nth_error ix (pos x) = Some (Some i) -> i < count D (e_gt e)) as Lt.
      { intros x i Hx Eg Ei. destruct (Hs x Hx) as (j & Ej & Lj). rewrite Ei in Ej. injection Ej as <-. congruence. }
      intros x y i Hx Hy Eg Ex Ey. rewrite Rd in Ex, Ey by (destruct Hx, Hy; subst; auto).
      destruct Hx as [<-|Hx], Hy as [<-|Hy]; auto.
      + rewrite Nat.eqb_refl in Ex. injection Ex as <-.
        destruct (pos y =? pos e) eqn:E; [apply Nat.eqb_eq in E; destruct (Np y); auto|].
        specialize (Lt y _ Hy (eq_sym Eg) Ey). lia.
      + rewrite Nat.eqb_refl in Ey. injection Ey as <-.
        destruct (pos x =? pos e) eqn:E; [apply Nat.eqb_eq in E; destruct (Np x); auto|].
        specialize (Lt x _ Hx Eg Ex). lia.
      + destruct (pos x =? pos e) eqn:E; [apply Nat.eqb_eq in E; destruct (Np x); auto|].
        destruct (pos y =? pos e) eqn:E'; [apply Nat.eqb_eq in E'; destruct (Np y); auto|].
        eapply Hi; eauto.
    - intros x Ux Nin. assert (x <> e) by (intros ->; apply Nin; now left).
      rewrite Rd by auto. destruct (pos x =? pos e) eqn:E; [apply Nat.eqb_eq in E; destruct (Np x); auto|].
      apply Hn; auto. intros Hx. apply Nin. now right.
  Qed.

  Lemma assign_old D mp ix e : assigned D mp ix -> In e D -> assign true (off, mp, ix) e = Ok (off, mp, ix).
  Proof.
    intros [HU HN Lm H0 Hm Lx Hs Hi Hn] He. destruct (U_range e (HU e He)) as [Rt Rb].
    unfold assign. rewrite (rd_some _ _ _ (off_pre (e_gt e) (Nat.lt_le_incl _ _ Rt))). cbn [bind]. fold (pos e).
    destruct (Hs e He) as (i & Ei & _). now rewrite (rd_some _ _ _ Ei).
  Qed.

  Lemma gent_dec (a b : gent) : {a = b} + {a <> b}.
  Proof. decide equality; apply Nat.eq_dec. Qed.

  Lemma assign_all keep E : forall D mp ix, assigned D mp ix -> (forall e, In e E -> U e) ->
    (keep = false -> NoDup E /\ forall e, In e E -> ~ In e D) ->
    exists mp' ix' D', foldM (assign keep) E (off, mp, ix) = Ok (off, mp', ix') /\ assigned D' mp' ix' /\
      (forall e, In e D' <-> In e D \/ In e E).
  Proof.
    induction E as [|e E IH]; intros D mp ix HA HU HK.
    - exists mp, ix, D. split; [reflexivity|]. split; [exact HA|]. intros x. cbn. tauto.
    - destruct (in_dec gent_dec e D) as [I|I].
      + destruct keep.
        * cbn [foldM]. rewrite (assign_old _ _ _ _ HA I). cbn [bind].
          destruct (IH D mp ix HA) as (mp' & ix' & D' & E' & HA' & HI); [intros; apply HU; now right | discriminate|].
          exists mp', ix', D'. split; [exact E'|]. split; [exact HA'|]. intros x. rewrite HI. cbn. split; intuition (subst; auto).
        * destruct (HK eq_refl) as [_ N]. destruct (N e (or_introl eq_refl) I).
      + destruct (assign_new D mp ix keep e HA (HU e (or_introl eq_refl)) I) as (mp1 & ix1 & E1 & HA1).
        cbn [foldM]. rewrite E1. cbn [bind].
        destruct (IH (e :: D) mp1 ix1 HA1) as (mp' & ix' & D' & E' & HA' & HI).
        * intros; apply HU; now right.
        * intros K. destruct (HK K) as [N1 N2]. inversion N1; subst. split; [assumption|].
          intros x Hx [<-|Hd]; [auto|]. eapply N2; eauto. now right.
        * exists mp', ix', D'. split; [exact E'|]. split; [exact HA'|]. intros x. rewrite HI. cbn. tauto.
  Qed.

  Lemma assigned_start : assigned [] (upd 0 0 (map (fun _ => 0) (seq 0 (S ngt)))) (repeat None (pre sz ngt)).
  Proof.
    constructor; try (intros; contradiction).
    - constructor.
    - now rewrite upd_length, map_length, seq_length.
    - reflexivity.
    - intros t Ht. rewrite upd_nth_error_other by lia. apply nth_error_zeros. rewrite seq_length. lia.
    - apply repeat_length.
    - intros e He _. apply nth_error_repeat', pos_lt, He.
  Qed.
End assignments.
