(** Proofs about backup and replay. *)
From Verif Require Import TransferModel TransferSpec CommonFacts TransferProofs.
From Coq Require Import Lra.
Local Open Scope R_scope.

Lemma cell_eqP a b : reflect (a = b) (cell_eq a b).
Proof. unfold cell_eq. destruct (list_eq_dec Nat.eq_dec a b); constructor; assumption. Qed.
Lemma father_cons x f : f <> [] -> father (x :: f) = Some f.
Proof. destruct f; [congruence|reflexivity]. Qed.
Lemma father_inv c f : father c = Some f -> exists x, c = x :: f /\ f <> [].
Proof. destruct c as [|x [|y c]]; cbn; intros E; inversion E. exists x. split; [reflexivity|discriminate]. Qed.
Lemma below_ancestor a c : a <> [] -> below a c = true <-> ancestor a c.
Proof.
  intros A. split.
  - induction c as [|x c IH]; cbn [below]; [discriminate|]. intros H. apply orb_true_iff in H. destruct H as [H|H].
    + destruct (cell_eqP c a) as [->|]; [|discriminate]. apply anc_father, father_cons, A.
    + specialize (IH H). destruct c as [|y c]; [discriminate|]. apply (anc_step _ (y :: c)); [reflexivity|exact IH].
  - induction 1 as [c f E|c f a E H IH]; apply father_inv in E; destruct E as (x & -> & N); cbn [below].
    + destruct (cell_eqP f f); [reflexivity|congruence].
    + rewrite (IH A). apply orb_true_r.
Qed.
Lemma ancestor_nonempty a c : ancestor a c -> a <> [] /\ c <> [].
Proof. induction 1 as [c f E|c f a E H IH]; apply father_inv in E; destruct E as (x & -> & N); split; try discriminate; tauto. Qed.
Lemma ancestor_trans a b c : ancestor a b -> ancestor b c -> ancestor a c.
Proof. intros A B. induction B as [c f E|c f b E H IH]; [exact (anc_step _ _ _ E A)|exact (anc_step _ _ _ E (IH A))]. Qed.
Lemma climbs_ancestor vanish c a : climbs vanish c a -> a = c \/ ancestor a c.
Proof.
  induction 1 as [|a f H IH V E]; [left; reflexivity|]. right. destruct IH as [->|IH]; [apply anc_father, E|]. exact (ancestor_trans _ _ _ (anc_father _ _ E) IH).
Qed.


Lemma put_same m c v : put m c v c = Some v. Proof. unfold put. destruct (cell_eqP c c); congruence. Qed.
Lemma put_other m c v d : d <> c -> put m c v d = m d. Proof. unfold put. destruct (cell_eqP d c); congruence. Qed.
Lemma put_none m c v d : put m c v d <> None <-> d = c \/ m d <> None.
Proof. unfold put. destruct (cell_eqP d c) as [->|]; split; intros H; try tauto; try discriminate. Qed.


Section Backup.
Context (F : fem) (HU : uniform F) (old : list cell) (dofs : cell -> list nat) (vanish : cell -> bool) (u : nat -> R).

(** Facts about every backup that ends normally *)
Definition covered (done : list cell) (m : tmap) : Prop := forall a, m a <> None <-> exists c, In c done /\ climbs vanish c a.
Definition good (st : cache * tmap) : Prop := cache_ok F (fst st) /\ forall a, snd st a <> None -> known F (fst st) a.

Lemma project_cache ch a ch' uc : cache_ok F ch -> project F old dofs u ch a = Ok (ch', uc) -> cache_ok F ch' /\ known F ch' a /\ forall d, known F ch d -> known F ch' d.
Proof.
  intros CO. unfold project. pose proof (update_ok F HU ch a CO) as CO1. pose proof (update_known F ch a CO) as K1.
  assert (KK : forall d, known F ch d -> known F (cache_update F ch a) d) by (intros d; apply update_keeps, HU).
  set (ch1 := cache_update F ch a) in *. generalize (filter (below a) old). intros l.
  generalize (repeat 0 (back ch1 (gtype F a))). clearbody ch1. revert ch1 CO1 K1 KK. induction l as [|c l IH]; intros ch1 CO1 K1 KK v E.
  - injection E as <- _. auto.
  - cbn [foldM] in E. apply bind_ok in E. destruct E as ((ch2, v2) & E1 & E2). apply bind_ok in E1. destruct E1 as (v3 & _ & E1). injection E1 as <- <-. cbn [fst snd] in E2.
    apply (IH (cache_update F ch1 c)) in E2; auto; [apply update_ok; auto|apply update_keeps; auto|intros d D; apply update_keeps; auto].
Qed.
(** Climbing adds exactly the cells reached from [a] and changes no saved data. *)
Lemma climb_facts a : forall st st', climb F old dofs vanish u a st = Ok st' -> good st ->
  good st' /\ (forall d, snd st' d <> None <-> snd st d <> None \/ (d <> a /\ climbs vanish a d)) /\ (forall d v, (In d old \/ ~ ancestor d a) -> snd st d = Some v -> leaf_set old -> In a old \/ (exists c, In c old /\ ancestor a c) -> snd st' d = Some v).
Proof.
  assert (ST : forall st : cache * tmap, good st -> (forall d, climbs vanish a d -> d = a) ->
     good st /\ (forall d, snd st d <> None <-> snd st d <> None \/ (d <> a /\ climbs vanish a d)) /\ (forall d v, (In d old \/ ~ ancestor d a) -> snd st d = Some v -> leaf_set old -> In a old \/ (exists c, In c old /\ ancestor a c) -> snd st d = Some v)).
  { intros st G N. split; [exact G|]. split; [|auto]. intros d. split; [auto|]. intros [H|(H & C)]; [exact H|]. elim H. apply N, C. }
  induction a as [|x f IH]; intros st st'; cbn [climb].
  - intros E G. assert (st' = st) by (destruct (vanish []); congruence). subst. apply ST; [exact G|]. intros d C. induction C as [|a f C IHC V E']; [reflexivity|]. subst. discriminate.
  - destruct (vanish (x :: f)) eqn:V.
    2:{ intros E G. injection E as <-. apply ST; [exact G|]. intros d C. induction C as [|a g C IHC V' E']; [reflexivity|]. subst. congruence. }
    destruct f as [|y f].
    { intros E G. injection E as <-. apply ST; [exact G|]. intros d C. induction C as [|a g C IHC V' E']; [reflexivity|]. subst. discriminate. }
    set (g := y :: f) in *. clear ST.
    assert (UP : forall d, climbs vanish (x :: g) d <-> d = x :: g \/ climbs vanish g d).
    { intros d. split.
      - induction 1 as [|a h C IHC V' E']; [left; reflexivity|]. right. destruct IHC as [->|IHC]; [cbn in E'; injection E' as <-; constructor|]. econstructor; eassumption.
      - intros [->|C]; [constructor|]. induction C as [|a h C IHC V' E']; [|econstructor; eassumption]. econstructor; [constructor|exact V|reflexivity]. }
    assert (ACY : forall d, climbs vanish g d -> d <> x :: g).
    { intros d C E. apply climbs_ancestor in C. subst d. assert (LL : forall a c, ancestor a c -> (length a < length c)%nat).
      { induction 1 as [c h E'|c h a E' H IHA]; apply father_inv in E'; destruct E' as (z & -> & _); cbn in *; lia. }
      destruct C as [C|C]; [apply (f_equal (@length nat)) in C; cbn in C; lia|]. apply LL in C. cbn in C. lia. }
    assert (IH0 : forall st st', climb F old dofs vanish u g st = Ok st' -> good st -> good st' /\ (forall d, snd st' d <> None <-> snd st d <> None \/ (d <> g /\ climbs vanish g d)) /\ (forall d v, (In d old \/ ~ ancestor d g) -> snd st d = Some v -> leaf_set old -> In g old \/ (exists c, In c old /\ ancestor g c) -> snd st' d = Some v)).
    { apply IH. intros st0 G N. split; [exact G|]. split; [|auto]. intros d. split; [auto|]. intros [H|(H & C)]; [exact H|]. elim H. apply N, C. }
    assert (SOME : forall (m : tmap) w, m g = Some w -> forall st1 st'1, snd st1 = m -> climb F old dofs vanish u g st1 = Ok st'1 -> good st1 ->
       good st'1 /\ (forall d, snd st'1 d <> None <-> m d <> None \/ d <> x :: g /\ climbs vanish (x :: g) d) /\
       (forall d v, (In d old \/ ~ ancestor d (x :: g)) -> m d = Some v -> leaf_set old -> In (x :: g) old \/ (exists c, In c old /\ ancestor (x :: g) c) -> snd st'1 d = Some v)).
    { intros m w M st1 st'1 S1 E G. destruct (IH0 st1 st'1 E G) as (G' & D & K). subst m. split; [exact G'|]. split.
      - intros d. rewrite D, UP. split; [intros [H|(H & C)]; [auto|]; right; split; [apply ACY, C|auto]|].
        intros [H|(H & [C|C])]; [auto|congruence|]. destruct (list_eq_dec Nat.eq_dec d g) as [->|N]; [left; congruence|]. auto.
      - intros d v H Md LS A. apply (K d v); auto.
        + destruct H as [H|H]; [auto|]. right. intros C. apply H. apply (anc_step _ g); [reflexivity|exact C].
        + right. destruct A as [A|(c & A & C)]; [exists (x :: g); split; [exact A|apply anc_father; reflexivity]|].
          exists c. split; [exact A|]. exact (ancestor_trans _ _ _ (anc_father (x :: g) g eq_refl) C). }
    assert (NEW : forall (st0 : cache * tmap), (snd st0 g = None \/ snd st0 g = Some []) -> forall ch' uc, project F old dofs u (fst st0) g = Ok (ch', uc) -> forall st'1, climb F old dofs vanish u g (ch', put (snd st0) g uc) = Ok st'1 -> good st0 ->
       good st'1 /\ (forall d, snd st'1 d <> None <-> snd st0 d <> None \/ d <> x :: g /\ climbs vanish (x :: g) d) /\
       (forall d v, (In d old \/ ~ ancestor d (x :: g)) -> snd st0 d = Some v -> leaf_set old -> In (x :: g) old \/ (exists c, In c old /\ ancestor (x :: g) c) -> snd st'1 d = Some v)).
    { intros st0 M ch' uc P st'1 E G. destruct G as (G1 & G2). destruct (project_cache _ _ _ _ G1 P) as (P1 & P2 & P3).
      assert (G' : good (ch', put (snd st0) g uc)). { split; [exact P1|]. cbn [fst snd]. intros d D. apply put_none in D. destruct D as [->|D]; [exact P2|apply P3, G2, D]. }
      destruct (SOME _ _ (put_same (snd st0) g uc) (ch', put (snd st0) g uc) st'1 eq_refl E G') as (Q1 & Q2 & Q3). split; [exact Q1|]. split.
      - intros d. rewrite Q2, put_none. split; [intros [[->|H]|H]; auto|tauto]. right. split; [apply ACY; constructor|]. apply UP. right. constructor.
      - intros d v H Md LS A. apply (Q3 d v); auto. rewrite put_other; [exact Md|]. intros ->. destruct H as [H|H].
        + destruct A as [A|(c & A & C)]; [exact (LS g (x :: g) H A (anc_father (x :: g) g eq_refl))|].
          exact (LS g c H A (ancestor_trans _ _ _ (anc_father (x :: g) g eq_refl) C)).
        + apply H. apply anc_father. reflexivity. }
    intros E G. destruct (snd st g) as [[|w0 w]|] eqn:M.
    + apply bind_ok in E. destruct E as ((ch', uc) & P & E). cbn [fst snd] in E. exact (NEW st (or_intror M) ch' uc P st' E G).
    + exact (SOME (snd st) _ M st st' eq_refl E G).
    + apply bind_ok in E. destruct E as ((ch', uc) & P & E). cbn [fst snd] in E. exact (NEW st (or_introl M) ch' uc P st' E G).
Qed.

Lemma backup_facts ch st' : cache_ok F ch -> leaf_set old -> backup F old dofs vanish u ch = Ok st' ->
  good st' /\ (forall a, snd st' a <> None <-> saved old vanish a) /\ forall c, In c old -> snd st' c = Some (map u (dofs c)).
Proof.
  intros CO LS E. unfold backup in E.
  assert (H : forall l done st, (forall c, In c l -> In c old) -> (forall c, In c done -> In c old) -> good st ->
     (forall a, snd st a <> None <-> exists c, In c done /\ climbs vanish c a) -> (forall c, In c done -> snd st c = Some (map u (dofs c))) ->
     foldM (backup_cell F old dofs vanish u) l st = Ok st' ->
     good st' /\ (forall a, snd st' a <> None <-> exists c, In c (done ++ l) /\ climbs vanish c a) /\ forall c, In c (done ++ l) -> snd st' c = Some (map u (dofs c))).
  { induction l as [|e l IH]; intros done st HL HD G D K E1.
    - injection E1 as <-. rewrite app_nil_r. auto.
    - cbn [foldM] in E1. apply bind_ok in E1. destruct E1 as (st1 & E1 & E2). unfold backup_cell in E1.
      assert (G1 : good (cache_update F (fst st) e, put (snd st) e (read u (dofs e)))).
      { destruct G as (G1 & G2). split; cbn [fst snd]; [apply update_ok; auto|]. intros d H. apply put_none in H. destruct H as [->|H]; [apply update_known, G1|apply update_keeps; auto]. }
      destruct (climb_facts e _ _ E1 G1) as (G' & D' & K'). cbn [snd] in D', K'.
      destruct (IH (done ++ [e]) st1) as (R1 & R2 & R3); auto.
      + intros c C. apply HL. right. exact C.
      + intros c C. apply in_app_or in C. destruct C as [C|[<-|[]]]; [apply HD, C|apply HL; left; reflexivity].
      + intros a. rewrite D', put_none, D. split.
        * intros [[->|(c & C & H)]|(_ & H)]; [exists e; split; [apply in_or_app; right; left; reflexivity|constructor]|exists c; split; [apply in_or_app; auto|exact H]|exists e; split; [apply in_or_app; right; left; reflexivity|exact H]].
        * intros (c & C & H). apply in_app_or in C. destruct C as [C|[<-|[]]]; [left; right; eauto|]. destruct (list_eq_dec Nat.eq_dec a e) as [->|N]; auto.
      + intros c C. assert (CO' : In c old) by (apply in_app_or in C; destruct C as [C|[<-|[]]]; [apply HD, C|apply HL; left; reflexivity]).
        apply K'; [left; exact CO'| |exact LS|left; apply HL; left; reflexivity].
        destruct (list_eq_dec Nat.eq_dec c e) as [->|N]; [apply put_same|]. rewrite put_other by exact N. apply K. apply in_app_or in C. destruct C as [C|[C|[]]]; [exact C|congruence].
      + rewrite <- app_assoc in R2, R3. cbn [app] in R2, R3. auto. }
  destruct (H old [] (ch, fun _ => None)) as (R1 & R2 & R3); auto.
  - intros c [].
  - split; [exact CO|]. intros a N. cbn in N. congruence.
  - intros a. cbn. split; [congruence|]. intros (c & [] & _).
  - intros c [].
Qed.
End Backup.
