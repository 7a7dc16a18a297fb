From Verif Require Import Common CommonFacts DfModel DfSpec.

(** ** Counting *)
Definition here (l : ldof) (t e : nat) : bool := (ld_type l =? t) && (ld_ent l =? e).
Definition maxkey (D : list ldof) (t e a : nat) : nat := fold_left (fun n l => if here l t e then Nat.max n (ld_key l + 1) else n) D a.

Lemma count_spec D : forall d, (forall l, In l D -> ld_ent l < length (d (ld_type l))) ->
  exists d', foldM count_visit D d = Ok d' /\ (forall t, length (d' t) = length (d t)) /\
    forall t e, e < length (d t) -> nth e (d' t) 0 = maxkey D t e (nth e (d t) 0).
Proof.
  induction D as [|l D IH]; intros d H.
  - exists d. repeat split; reflexivity.
  - cbn [foldM]. unfold count_visit at 1. pose proof (H l (or_introl eq_refl)) as Hl.
    rewrite (nth_error_nth' _ 0) by exact Hl. cbn [bind].
    set (d1 := put d (ld_type l) (upd (ld_ent l) (Nat.max (nth (ld_ent l) (d (ld_type l)) 0) (ld_key l + 1)) (d (ld_type l)))).
    assert (L : forall t, length (d1 t) = length (d t)).
    { intros t. unfold d1, put. destruct (Nat.eqb_spec t (ld_type l)) as [->|]; [apply upd_length|reflexivity]. }
    destruct (IH d1) as (d' & E & L' & V).
    { intros l' Hl'. rewrite L. apply H. right. exact Hl'. }
    exists d'. split; [exact E|]. split; [intros t; rewrite L', L; reflexivity|].
    intros t e He. rewrite V by (rewrite L; exact He). unfold maxkey. cbn [fold_left]. f_equal. unfold d1, put, here.
    destruct (Nat.eqb_spec t (ld_type l)) as [->|Hn].
    + rewrite Nat.eqb_refl. cbn [andb]. destruct (Nat.eqb_spec (ld_ent l) e) as [->|Hn']; [apply upd_nth_same, He|apply upd_nth_other, Hn'].
    + destruct (Nat.eqb_spec (ld_type l) t); [congruence|]. reflexivity.
Qed.
Lemma here_true l t e : here l t e = true <-> ld_type l = t /\ ld_ent l = e.
Proof. unfold here. rewrite andb_true_iff, !Nat.eqb_eq. reflexivity. Qed.
Lemma maxkey_lt D t e : forall a k, k < maxkey D t e a <-> k < a \/ exists l, In l D /\ ld_type l = t /\ ld_ent l = e /\ k <= ld_key l.
Proof.
  unfold maxkey. induction D as [|l D IH]; intros a k; cbn [fold_left].
  - split; [left; assumption|]. intros [H|(l & [] & _)]. exact H.
  - rewrite IH. destruct (here l t e) eqn:E.
    + apply here_true in E. destruct E as [E1 E2]. split.
      * intros [H|(l' & Hl & H)]; [|right; exists l'; split; [right; exact Hl|exact H]].
        destruct (Nat.lt_ge_cases k a); [left; assumption|right]. exists l. split; [left; reflexivity|]. lia.
      * intros [H|(l' & [<-|Hl] & H)]; [left; lia|left; lia|right; exists l'; split; assumption].
    + split.
      * intros [H|(l' & Hl & H)]; [left; exact H|right; exists l'; split; [right; exact Hl|exact H]].
      * intros [H|(l' & [<-|Hl] & H1 & H2 & H3)]; [left; exact H| |right; exists l'; auto].
        assert (here l t e = true) by (apply here_true; auto). congruence.
Qed.

(** ** Indices *)
Definition exactly (l : ldof) (t e k : nat) : bool := (ld_type l =? t) && (ld_ent l =? e) && (ld_key l =? k).
Definition lasti (D : list ldof) (t e k : nat) (a : option nat) : option nat :=
  fold_left (fun r l => if exactly l t e k then Some (ld_glob l) else r) D a.
Lemma exactly_true l t e k : exactly l t e k = true <-> names l t e k.
Proof. unfold exactly, names. rewrite !andb_true_iff, !Nat.eqb_eq. tauto. Qed.

Lemma index_spec D : forall c, (forall l, In l D -> ld_ent l < length (c (ld_type l)) /\ ld_key l < length (nth (ld_ent l) (c (ld_type l)) [])) ->
  exists c', foldM index_visit D c = Ok c' /\ (forall t, length (c' t) = length (c t)) /\
    (forall t e, length (nth e (c' t) []) = length (nth e (c t) [])) /\
    forall t e k, k < length (nth e (c t) []) -> nth k (nth e (c' t) []) None = lasti D t e k (nth k (nth e (c t) []) None).
Proof.
  induction D as [|l D IH]; intros c H.
  - exists c. repeat split; reflexivity.
  - cbn [foldM]. unfold index_visit at 1. destruct (H l (or_introl eq_refl)) as [H1 H2].
    rewrite (nth_error_nth' _ []) by exact H1. destruct (Nat.ltb_spec (ld_key l) (length (nth (ld_ent l) (c (ld_type l)) []))); [|lia]. cbn [bind].
    set (c1 := put c (ld_type l) (upd (ld_ent l) (upd (ld_key l) (Some (ld_glob l)) (nth (ld_ent l) (c (ld_type l)) [])) (c (ld_type l)))).
    assert (L : forall t, length (c1 t) = length (c t)).
    { intros t. unfold c1, put. destruct (Nat.eqb_spec t (ld_type l)) as [->|]; [apply upd_length|reflexivity]. }
    assert (V : forall t e, nth e (c1 t) [] = if here l t e then upd (ld_key l) (Some (ld_glob l)) (nth e (c t) []) else nth e (c t) []).
    { intros t e. unfold c1, put, here. destruct (Nat.eqb_spec t (ld_type l)) as [->|Hn].
      - rewrite Nat.eqb_refl. cbn [andb]. destruct (Nat.eqb_spec (ld_ent l) e) as [<-|Hn']; [apply upd_nth_same, H1|apply upd_nth_other, Hn'].
      - destruct (Nat.eqb_spec (ld_type l) t); [congruence|]. reflexivity. }
    assert (L2 : forall t e, length (nth e (c1 t) []) = length (nth e (c t) [])).
    { intros t e. rewrite V. destruct (here l t e); [apply upd_length|reflexivity]. }
    destruct (IH c1) as (c' & E & A & B & C).
    { intros l' Hl'. rewrite L, L2. apply H. right. exact Hl'. }
    exists c'. split; [exact E|]. split; [intros t; rewrite A, L; reflexivity|]. split; [intros t e; rewrite B, L2; reflexivity|].
    intros t e k Hk. rewrite C by (rewrite L2; exact Hk). unfold lasti. cbn [fold_left]. f_equal. rewrite V.
    unfold exactly. fold (here l t e). destruct (here l t e) eqn:E0; cbn [andb]; [|reflexivity].
    destruct (Nat.eqb_spec (ld_key l) k) as [<-|Hn]; [apply upd_nth_same, Hk|apply upd_nth_other, Hn].
Qed.
Lemma lasti_some D t e k : forall a, (exists l, In l D /\ names l t e k) -> exists l, In l D /\ names l t e k /\ lasti D t e k a = Some (ld_glob l).
Proof.
  unfold lasti. induction D as [|l D IH]; intros a (l0 & Hl & Hn); [destruct Hl|]. cbn [fold_left].
  destruct (existsb (fun l => exactly l t e k) D) eqn:E.
  - apply existsb_exists in E. destruct E as (l1 & I1 & N1). apply exactly_true in N1.
    destruct (IH (if exactly l t e k then Some (ld_glob l) else a) (ex_intro _ l1 (conj I1 N1))) as (l2 & I2 & N2 & E2).
    exists l2. split; [right; exact I2|]. split; [exact N2|exact E2].
  - assert (N : forall l, In l D -> exactly l t e k = false).
    { intros l' Hl'. destruct (exactly l' t e k) eqn:X; [|reflexivity]. assert (existsb (fun l => exactly l t e k) D = true); [|congruence]. apply existsb_exists. exists l'. auto. }
    destruct Hl as [->|Hl]; [|apply exactly_true in Hn; rewrite (N l0 Hl) in Hn; discriminate].
    exists l0. split; [left; reflexivity|]. split; [exact Hn|]. apply exactly_true in Hn. rewrite Hn. clear - N. revert N.
    generalize (Some (ld_glob l0)). induction D as [|l D IH]; intros a N; [reflexivity|]. cbn [fold_left]. rewrite (N l (or_introl eq_refl)). apply IH. intros l' H. apply N. right. exact H.
Qed.

(** ** Flags *)
Lemma flag_loop_spec d : forall prev st, flag_loop prev d st = (fst st || existsb (Nat.ltb 0) d, snd st && forallb (Nat.eqb prev) d).
Proof.
  induction d as [|x d IH]; intros prev st; cbn [flag_loop existsb forallb].
  - rewrite orb_false_r, andb_true_r. destruct st; reflexivity.
  - rewrite IH. cbn [fst snd]. f_equal.
    + destruct (0 <? x), (fst st); reflexivity.
    + destruct (Nat.eqb_spec prev x) as [->|]; cbn [negb andb]; [reflexivity|]. rewrite andb_false_r. reflexivity.
Qed.
Definition equal_counts (d : list nat) : bool := match d with [] => true | x :: r => forallb (Nat.eqb x) r end.
Lemma flags_fold (d : nat -> list nat) (ts : list nat) : (forall t, In t ts -> d t <> []) -> forall st,
  foldM (fun st t => flag_type (d t) st) ts st =
  Ok (fst st || existsb (fun t => existsb (Nat.ltb 0) (d t)) ts, snd st && forallb (fun t => equal_counts (d t)) ts).
Proof.
  induction ts as [|t ts IH]; intros H st; cbn [foldM existsb forallb].
  - rewrite orb_false_r, andb_true_r. destruct st; reflexivity.
  - unfold flag_type at 1. pose proof (H t (or_introl eq_refl)) as Ht. destruct (d t) as [|x r]; [congruence|]. cbn [bind].
    rewrite IH by (intros s Hs; apply H; right; exact Hs). rewrite flag_loop_spec. cbn [fst snd existsb equal_counts]. f_equal. f_equal.
    + rewrite !orb_assoc. f_equal. f_equal. destruct (0 <? x), (fst st); reflexivity.
    + rewrite andb_assoc. reflexivity.
Qed.
Lemma all_flags_spec m d cs : (forall c t, In c cs -> In t (me_types m c) -> d t <> []) ->
  exists f, all_flags m d cs = Ok f /\ forall c, In c cs ->
    f c = (existsb (fun t => existsb (Nat.ltb 0) (d t)) (me_types m c), forallb (fun t => equal_counts (d t)) (me_types m c)).
Proof.
  induction cs as [|c cs IH]; intros H; cbn [all_flags].
  - eexists. split; [reflexivity|]. intros c [].
  - unfold flags at 1. rewrite flags_fold by (intros t Ht; apply (H c); [left; reflexivity|exact Ht]). cbn [bind fst snd orb andb].
    destruct IH as (f & -> & F); [intros c' t Hc Ht; apply (H c'); [right; exact Hc|exact Ht]|]. cbn [bind]. eexists. split; [reflexivity|].
    intros c' Hc. unfold put. destruct (Nat.eqb_spec c' c) as [->|Hn]; [reflexivity|]. apply F. destruct Hc; [congruence|assumption].
Qed.

(** ** The ordering *)
Lemma in_types m t : existsb (Nat.eqb t) (all_types m) = true <-> In t (all_types m).
Proof. rewrite existsb_exists. split; [intros (x & H & E); apply Nat.eqb_eq in E; subst; exact H|intros H; exists t; split; [exact H|apply Nat.eqb_refl]]. Qed.

Lemma update_spec m : valid m -> inhabited_types m ->
  exists o, update m = Ok o /\
    (forall t, In t (all_types m) -> length (o_index o t) = me_size m t) /\
    (forall t e, In t (all_types m) -> e < me_size m t -> length (nth e (o_index o t) []) = maxkey (all_dofs m) t e 0) /\
    (forall t e k, In t (all_types m) -> e < me_size m t -> k < maxkey (all_dofs m) t e 0 -> nth k (nth e (o_index o t) []) None = last_index (all_dofs m) t e k) /\
    (forall c, c <= me_dim m ->
       (o_contains o c = true <-> exists t e, In t (me_types m c) /\ e < me_size m t /\ 0 < maxkey (all_dofs m) t e 0) /\
       (o_fixed o c = true <-> forall t e e', In t (me_types m c) -> e < me_size m t -> e' < me_size m t -> maxkey (all_dofs m) t e 0 = maxkey (all_dofs m) t e' 0)).
Proof.
  intros V Y. unfold update, count_dofs. assert (N : forall t, In t (all_types m) -> length (count_new m t) = me_size m t).
  { intros t Ht. unfold count_new. rewrite repeat_length. apply in_types in Ht. rewrite Ht. reflexivity. }
  destruct (count_spec (all_dofs m) (count_new m)) as (d & E & L & C).
  { intros l Hl. destruct (V l Hl) as [H1 H2]. rewrite N by exact H1. exact H2. }
  rewrite E. cbn [bind]. unfold index_dofs.
  assert (C' : forall t e, In t (all_types m) -> e < me_size m t -> nth e (d t) 0 = maxkey (all_dofs m) t e 0).
  { intros t e Ht He. rewrite C by (rewrite N by exact Ht; exact He). f_equal. unfold count_new. apply nth_repeat. }
  assert (Ld : forall t, In t (all_types m) -> length (d t) = me_size m t) by (intros t Ht; rewrite L; apply N, Ht).
  assert (R : forall t e, e < length (d t) -> nth e (index_new d t) [] = repeat None (nth e (d t) 0)).
  { intros t e He. unfold index_new. rewrite (nth_indep _ [] (repeat None 0)) by (rewrite map_length; exact He). exact (map_nth (fun n => repeat None n) (d t) 0 e). }
  destruct (index_spec (all_dofs m) (index_new d)) as (c & E2 & A & B & D).
  { intros l Hl. destruct (V l Hl) as [H1 H2]. rewrite <- Ld in H2 by exact H1. split; [unfold index_new; rewrite map_length; exact H2|].
    rewrite R by exact H2. rewrite repeat_length, C' by (try exact H1; rewrite <- Ld by exact H1; exact H2). apply maxkey_lt. right. exists l. repeat split; auto. }
  rewrite E2. cbn [bind].
  assert (T : forall c t, In c (seq 0 (S (me_dim m))) -> In t (me_types m c) -> In t (all_types m)) by (intros c0 t Hc Ht; apply in_flat_map; exists c0; auto).
  destruct (all_flags_spec m d (seq 0 (S (me_dim m)))) as (f & -> & F).
  { intros c0 t Hc Ht Z. specialize (T c0 t Hc Ht). specialize (Y t T). rewrite <- (Ld t T), Z in Y. cbn in Y. lia. }
  cbn [bind]. eexists. split; [reflexivity|]. cbn [o_index o_contains o_fixed].
  split; [intros t Ht; rewrite A; unfold index_new; rewrite map_length; apply Ld, Ht|].
  split. { intros t e Ht He. rewrite B, R by (rewrite Ld by exact Ht; exact He). rewrite repeat_length. apply C'; assumption. }
  split. { intros t e k Ht He Hk. rewrite D; rewrite R by (rewrite Ld by exact Ht; exact He); [|rewrite repeat_length, C' by assumption; exact Hk]. rewrite nth_repeat. reflexivity. }
  intros c0 Hc. assert (I : In c0 (seq 0 (S (me_dim m)))) by (apply in_seq; lia). rewrite F by exact I. cbn [fst snd]. split.
  - rewrite existsb_exists. split.
    + intros (t & Ht & H). apply existsb_exists in H. destruct H as (x & Hx & P). apply (In_nth _ _ 0) in Hx. destruct Hx as (e & He & <-).
      pose proof (T c0 t I Ht) as Tt. exists t, e. rewrite <- C' by (try exact Tt; rewrite <- Ld by exact Tt; exact He). rewrite Ld in He by exact Tt. repeat split; try assumption. apply Nat.ltb_lt, P.
    + intros (t & e & Ht & He & P). pose proof (T c0 t I Ht) as Tt. exists t. split; [exact Ht|]. apply existsb_exists. exists (nth e (d t) 0). rewrite <- Ld in He by exact Tt.
      split; [apply nth_In, He|]. apply Nat.ltb_lt. rewrite C' by (try exact Tt; rewrite <- Ld by exact Tt; exact He). exact P.
  - rewrite forallb_forall. split.
    + intros H t e e' Ht He He'. pose proof (T c0 t I Ht) as Tt. rewrite <- !C' by assumption. specialize (H t Ht). unfold equal_counts in H.
      rewrite <- Ld in He, He' by exact Tt. destruct (d t) as [|x r]; [cbn in He; lia|]. rewrite forallb_forall in H.
      assert (Q : forall e, e < length (x :: r) -> nth e (x :: r) 0 = x).
      { intros [|e0] H0; [reflexivity|]. cbn [nth]. cbn [length] in H0. symmetry. apply Nat.eqb_eq, H, nth_In. lia. }
      rewrite !Q by assumption. reflexivity.
    + intros H t Ht. pose proof (T c0 t I Ht) as Tt. unfold equal_counts. destruct (d t) as [|x r] eqn:Ed; [reflexivity|]. apply forallb_forall. intros y Hy.
      apply (In_nth _ _ 0) in Hy. destruct Hy as (e & He & <-). apply Nat.eqb_eq.
      assert (L1 : S e < me_size m t) by (rewrite <- Ld, Ed by exact Tt; cbn; lia).
      specialize (H t 0 (S e) Ht). rewrite <- !C' in H by (try exact Tt; lia). rewrite Ed in H. cbn [nth] in H. apply H; lia.
Qed.
