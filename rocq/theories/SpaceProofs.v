(** Proofs about the life of grid function spaces. *)
From Verif Require Import Common CommonFacts SpaceModel SpaceSpec.

Local Arguments seq : simpl never.
Local Arguments sum_nat : simpl never.
Lemma sum_cons a l : sum_nat (a :: l) = a + sum_nat l.
Proof. reflexivity. Qed.

(** ** Induction on trees *)
Lemma stree_ind' (P : stree -> Prop) :
  (forall id es f b, P (SLeaf id es f b)) -> (forall id k cs, Forall P cs -> P (SNode id k cs)) -> forall t, P t.
Proof.
  intros Hl Hn. fix F 1. intros [id es f b|id k cs]; [apply Hl|]. apply Hn. induction cs; constructor; [apply F|assumption].
Qed.
Lemma ltree_ind' (P : ltree -> Prop) :
  (forall id f, P (LLeaf id f)) -> (forall cs, Forall P cs -> P (LNode cs)) -> forall t, P t.
Proof.
  intros Hl Hn. fix F 1. intros [id f|cs]; [apply Hl|]. apply Hn. induction cs; constructor; [apply F|assumption].
Qed.
Lemma otree_ind' (P : otree -> Prop) :
  (forall id es f b z, P (OLeaf id es f b z)) -> (forall id es b l z, P (OGrid id es b l z)) ->
  (forall id k cs z, Forall P cs -> P (ONode id k cs z)) -> forall t, P t.
Proof.
  intros Hl Hg Hn. fix F 1. intros [id es f b z|id es b l z|id k cs z]; [apply Hl|apply Hg|]. apply Hn.
  induction cs; constructor; [apply F|assumption].
Qed.

Lemma put_same {A} (f : nat -> A) k x : put f k x k = x.
Proof. unfold put. now rewrite Nat.eqb_refl. Qed.
Lemma put_other {A} (f : nat -> A) k x j : j <> k -> put f k x j = f j.
Proof. intros H. unfold put. destruct (Nat.eqb_spec j k); congruence. Qed.

(** ** Entity sets *)
(** The stored counts are those of the grid, as far as they are used. *)
Definition good (g : nat -> nat) (s : ixset) : Prop :=
  (ix_needs s = false -> ix_active s = ix_wanted s) /\ (ix_active s = 0%N \/ ix_count s = g).

Lemma good_update_force g s : good g (ix_update g true s).
Proof. unfold ix_update. rewrite orb_true_r. cbn. split; cbn; auto. Qed.
Lemma good_update g f s : good g s -> good g (ix_update g f s).
Proof. intros H. unfold ix_update. destruct (ix_needs s || f); cbn; [split; cbn; auto|assumption]. Qed.
Lemma good_mark g s w : good g s -> good g (ix_mark s w).
Proof.
  intros [H1 H2]. split; cbn; [|assumption].
  intros H. apply orb_false_iff in H as [H _]. apply negb_false_iff in H. apply N.eqb_eq in H. congruence.
Qed.
Lemma good_reset g s : good g s -> good g (ix_reset s).
Proof. intros [H1 H2]. split; cbn; [discriminate|assumption]. Qed.
Lemma good_new g m b : good g (ix_new g m b).
Proof. unfold ix_new. destruct b; [apply good_update_force|]. split; cbn; [discriminate|auto]. Qed.

Lemma adds_good g l s : good g s -> good g (fold_left ix_add l s).
Proof. revert s. induction l as [|c l IH]; intros s H; cbn; [assumption|]. apply IH, good_mark, H. Qed.
Lemma adds_wanted l s c :
  N.testbit (ix_wanted s) (N.of_nat c) = true \/ In c l -> N.testbit (ix_wanted (fold_left ix_add l s)) (N.of_nat c) = true.
Proof.
  revert s. induction l as [|d l IH]; intros s [H|H]; cbn; [assumption|destruct H| |].
  - apply IH. left. cbn. rewrite N.setbit_eqb, H. apply orb_true_r.
  - apply IH. destruct H as [->|H]; [left|right; assumption]. cbn. rewrite N.setbit_eqb, N.eqb_refl. reflexivity.
Qed.
Lemma good_prepare dim g d s : good g s -> good g (prepare dim g d s).
Proof. intros H. apply good_update, adds_good, H. Qed.
Lemma prepare_spec dim g d s :
  good g s ->
  let s' := prepare dim g d s in
  ix_count s' = g /\ forall c, c <= dim -> 0 < d c -> N.testbit (ix_active s') (N.of_nat c) = true.
Proof.
  intros H. cbn zeta. unfold prepare. set (l := filter _ _).
  pose proof (adds_good g l s H) as G.
  assert (W : forall c, c <= dim -> (c = 0 \/ 0 < d c) -> N.testbit (ix_wanted (fold_left ix_add l s)) (N.of_nat c) = true).
  { intros c Hc Hd. apply adds_wanted. right. subst l. apply filter_In. split; [apply in_seq; lia|].
    apply orb_true_iff. destruct Hd as [->|Hd]; [left; reflexivity|right; now apply Nat.ltb_lt]. }
  set (t := fold_left ix_add l s) in *. unfold ix_update. destruct (ix_needs t) eqn:E; cbn.
  - split; [reflexivity|]. intros c Hc Hd. apply W; auto.
  - destruct G as [G1 G2]. specialize (G1 E). split.
    + destruct G2 as [G2|G2]; [|assumption]. exfalso. pose proof (W 0 ltac:(lia) (or_introl eq_refl)) as W0.
      rewrite <- G1, G2 in W0. discriminate.
    + intros c Hc Hd. rewrite G1. apply W; auto.
Qed.

Lemma sum_filter_zero {A} (h : A -> nat) (p : A -> bool) l :
  (forall a, In a l -> p a = false -> h a = 0) -> sum_nat (map h (filter p l)) = sum_nat (map h l).
Proof.
  induction l as [|a l IH]; intros H; cbn; [reflexivity|]. destruct (p a) eqn:E; cbn; rewrite ?sum_cons.
  - rewrite IH; [reflexivity|]. intros b Hb. apply H. right; assumption.
  - rewrite IH, (H a (or_introl eq_refl) E); [reflexivity|]. intros b Hb. apply H. right; assumption.
Qed.

Lemma grid_sizes_spec dim g b d max s :
  good g s ->
  grid_sizes dim b d max (prepare dim g d s) =
  mkosz (dofs_on dim g d) (if b then carriers dim g d else dofs_on dim g d) max.
Proof.
  intros H. destruct (prepare_spec dim g d s H) as [C A]. unfold grid_sizes. rewrite C. f_equal.
  - apply sum_filter_zero. intros c Hc E. apply in_seq in Hc. destruct (d c) eqn:D; [reflexivity|]. rewrite A in E; [discriminate|lia|lia].
  - assert (Z : forall c, In c (seq 0 (S dim)) -> N.testbit (ix_active (prepare dim g d s)) (N.of_nat c) = false -> d c = 0).
    { intros c Hc E. apply in_seq in Hc. destruct (d c) eqn:D; [reflexivity|]. rewrite A in E; [discriminate|lia|lia]. }
    rewrite sum_filter_zero by (intros c Hc E; rewrite (Z c Hc E); destruct b; reflexivity).
    destruct b; [|reflexivity]. unfold carriers. f_equal. apply map_ext. intros c. destruct (0 <? d c); lia.
Qed.

(** ** The visitor that updates the leaves' entity sets *)
Lemma visit_good g f l : forall cur Ss,
  (forall x, In x l -> good g (Ss x)) \/ (f = true /\ good g (Ss cur)) ->
  forall x, (In x l \/ good g (Ss x)) -> good g (snd (fold_left (visit_leaf g f) l (cur, Ss)) x).
Proof.
  induction l as [|e l IH]; intros cur Ss H x Hx; cbn [fold_left].
  - destruct Hx as [[]|Hx]. exact Hx.
  - unfold visit_leaf at 2. destruct (Nat.eqb_spec cur e) as [->|Hn].
    + apply IH.
      * destruct H as [H|H]; [left; intros y Hy; apply H; right; assumption|right; assumption].
      * destruct Hx as [[->|Hx]|Hx]; auto. right. destruct H as [H|[_ H]]; [apply H; left; reflexivity|assumption].
    + assert (E : good g (put Ss e (ix_update g f (Ss e)) e)).
      { rewrite put_same. destruct H as [H|[-> H]]; [apply good_update, H; left; reflexivity|apply good_update_force]. }
      apply IH.
      * destruct H as [H|[-> H]]; [left|right; split; [reflexivity|exact E]].
        intros y Hy. destruct (Nat.eq_dec y e) as [->|Hne]; [exact E|]. rewrite put_other by assumption. apply H. right; assumption.
      * destruct (Nat.eq_dec x e) as [->|Hne]; [right; exact E|]. rewrite put_other by assumption.
        destruct Hx as [[->|Hx]|Hx]; auto. contradiction.
Qed.

(** ** Orderings *)
Fixpoint blank (o : otree) : otree :=
  match o with
  | OLeaf id es f b _ => OLeaf id es f b no_sizes
  | OGrid id es b l _ => OGrid id es b l no_sizes
  | ONode id k cs _ => ONode id k (map blank cs) no_sizes
  end.

Lemma upd_children_cons f c cs S :
  upd_children f (c :: cs) S =
  let '(c1, S1, ok) := f c S in
  if ok then let '(cs1, S2, ok2) := upd_children f cs S1 in (c1 :: cs1, S2, ok2) else (c1 :: cs, S1, false).
Proof. reflexivity. Qed.

Lemma blank_oupdate dim g o : forall S, blank (fst (fst (oupdate dim g o S))) = blank o.
Proof.
  induction o as [id es f b z|id es b l z|id k cs z IH] using otree_ind'; intros S; cbn [oupdate]; [reflexivity|reflexivity|].
  assert (C : forall S, map blank (fst (fst (upd_children (oupdate dim g) cs S))) = map blank cs).
  { induction IH as [|c cs Hc IH2 IH3]; intros S0; [reflexivity|]. rewrite upd_children_cons.
    specialize (Hc S0). destruct (oupdate dim g c S0) as [[c1 S1] ok]. cbn in Hc. destruct ok; cbn [fst map]; [|now rewrite Hc].
    specialize (IH3 S1). destruct (upd_children (oupdate dim g) cs S1) as [[cs1 S2] ok2]. cbn [fst map] in *. now rewrite Hc, IH3. }
  specialize (C S). destruct (upd_children (oupdate dim g) cs S) as [[cs1 S1] ok]. cbn [fst] in C.
  destruct ok; [destruct (merge k cs1 z) as [z1 ok1]|]; cbn [fst blank]; now rewrite C.
Qed.

Lemma all_some_map {A B} (f : A -> option B) l r : all_some (map f l) = Some r -> Forall2 (fun a b => f a = Some b) l r.
Proof.
  revert r. induction l as [|a l IH]; intros r; cbn; intros E; [injection E as <-; constructor|].
  destruct (f a) eqn:F; [|discriminate]. destruct (all_some (map f l)) eqn:L; [|discriminate]. injection E as <-. constructor; auto.
Qed.
Lemma all_some_map_conv {A B} (f : A -> option B) l r : Forall2 (fun a b => f a = Some b) l r -> all_some (map f l) = Some r.
Proof. induction 1 as [|a b l r H _ IH]; cbn; [reflexivity|]. now rewrite H, IH. Qed.

Lemma blank_create t : forall o, create t = Some o -> blank o = o.
Proof.
  induction t as [id es f b|id k cs IH] using stree_ind'; cbn [create]; intros o H.
  - injection H as <-. reflexivity.
  - assert (N : forall os, all_some (map create cs) = Some os -> map blank os = os).
    { intros os E. apply all_some_map in E. clear H. revert E. generalize os. clear os. induction IH as [|c cs Hc _ IH3]; intros os E; inversion E; subst; [reflexivity|].
      cbn. f_equal; auto. }
    destruct k as [b|b m|b].
    + destruct (all_some (map create cs)) eqn:E; [|discriminate]. injection H as <-. cbn. f_equal. auto.
    + destruct (all_some (map create cs)) eqn:E; [|discriminate]. injection H as <-. cbn. f_equal. auto.
    + destruct (common_set (flat_map leaf_sets cs)); [|discriminate]. injection H as <-. reflexivity.
Qed.

Lemma common_set_spec l s : common_set l = Some s -> (forall x, In x l -> x = s) /\ In s l.
Proof.
  destruct l as [|a l]; cbn; [discriminate|]. destruct (forallb (Nat.eqb a) l) eqn:F; [|discriminate]. intros E; injection E as <-.
  rewrite forallb_forall in F. split; [|left; reflexivity]. intros x [->|Hx]; [reflexivity|]. apply F in Hx. apply Nat.eqb_eq in Hx. congruence.
Qed.

(** Local orderings. *)
Lemma ldofs_local t c : ldofs (local t) c = dofs_at t c.
Proof.
  induction t as [id es f b|id k cs IH] using stree_ind'; cbn; [reflexivity|]. rewrite map_map. f_equal. apply map_ext_in.
  intros t Ht. rewrite Forall_forall in IH. auto.
Qed.
Lemma lmax_local t : lmax (local t) = shapes t.
Proof.
  induction t as [id es f b|id k cs IH] using stree_ind'; cbn; [reflexivity|]. rewrite map_map. f_equal. apply map_ext_in.
  intros t Ht. rewrite Forall_forall in IH. auto.
Qed.
Lemma flat_map_ext_in {A B} (f h : A -> list B) l : (forall a, In a l -> f a = h a) -> flat_map f l = flat_map h l.
Proof. induction l as [|a l IH]; intros H; cbn; [reflexivity|]. rewrite (H a (or_introl eq_refl)), IH; [reflexivity|]. intros b Hb. apply H. right; assumption. Qed.
Lemma lwrites_local t : lwrites (local t) = map (fun id => (id, None)) (leaf_ids t).
Proof.
  induction t as [id es f b|id k cs IH] using stree_ind'; cbn; [reflexivity|].
  rewrite Forall_forall in IH. induction cs as [|c cs IH2]; cbn; [reflexivity|]. rewrite map_app, IH by (left; reflexivity).
  f_equal. apply IH2. intros t Ht. apply IH. right; assumption.
Qed.

Lemma sum_nat_add {A} (f h : A -> nat) l : sum_nat (map (fun a => f a + h a) l) = sum_nat (map f l) + sum_nat (map h l).
Proof. induction l as [|a l IH]; cbn; rewrite ?sum_cons; [reflexivity|lia]. Qed.
Lemma sum_nat_swap {A B} (f : A -> B -> nat) l m :
  sum_nat (map (fun a => sum_nat (map (f a) m)) l) = sum_nat (map (fun b => sum_nat (map (fun a => f a b) l)) m).
Proof.
  induction l as [|a l IH]; cbn.
  - induction m as [|b m IHm]; cbn; rewrite ?sum_cons, <- ?IHm; reflexivity.
  - rewrite sum_cons, IH. rewrite <- sum_nat_add. reflexivity.
Qed.
Lemma sum_nat_mul_r {A} (f : A -> nat) k l : sum_nat (map f l) * k = sum_nat (map (fun a => f a * k) l).
Proof. induction l as [|a l IH]; cbn; rewrite ?sum_cons; [reflexivity|lia]. Qed.
Lemma dofs_on_at dim g t : dofs_on dim g (dofs_at t) = dimension dim g t.
Proof.
  induction t as [id es f b|id k cs IH] using stree_ind'; cbn [dimension]; [reflexivity|]. unfold dofs_on. cbn [dofs_at].
  transitivity (sum_nat (map (fun c => sum_nat (map (fun t => dofs_at t c * g c) cs)) (seq 0 (S dim)))).
  - f_equal. apply map_ext. intros c. apply sum_nat_mul_r.
  - rewrite <- sum_nat_swap. f_equal. apply map_ext_in. intros t Ht. rewrite Forall_forall in IH. apply IH, Ht.
Qed.

(** *** What an update of an ordering computes *)
Definition computed dim g (t : stree) (o : otree) : Prop :=
  osizes o = mkosz (dimension dim g t) (blocks dim g t) (shapes t) /\
  (forall j v, In (j, v) (writes o) ->
     (v = None /\ In j (enclosed t)) \/
     (exists t', In t' (free t) /\ root_id t' = j /\ v = Some (dimension dim g t', blocks dim g t'))) /\
  (forall t', In t' (free t) -> In (root_id t', Some (dimension dim g t', blocks dim g t')) (writes o)) /\
  (forall j, In j (enclosed t) -> In (j, None) (writes o)).

Lemma create_node id k cs o :
  (forall b, k <> EntityBlocked b) -> create (SNode id k cs) = Some o ->
  exists os, Forall2 (fun t o => create t = Some o) cs os /\ o = ONode id k os no_sizes.
Proof.
  intros Hk H. assert (E : exists os, all_some (map create cs) = Some os /\ o = ONode id k os no_sizes).
  { destruct k as [b|b m|b]; [| |exfalso; exact (Hk b eq_refl)]; cbn [create] in H;
      (destruct (all_some (map create cs)) as [os|]; [|discriminate]); injection H as <-; eauto. }
  destruct E as (os & E & ->). exists os. split; [apply all_some_map, E|reflexivity].
Qed.

Lemma sums_eq {A B} (f : A -> nat) (h : B -> nat) l m : Forall2 (fun a b => f a = h b) l m -> sum_nat (map f l) = sum_nat (map h m).
Proof. induction 1 as [|a b l m H _ IH]; cbn; [reflexivity|]. now rewrite !sum_cons, H, IH. Qed.
Lemma Forall2_impl' {A B} (P Q : A -> B -> Prop) l m : Forall2 P l m -> (forall a b, P a b -> Q a b) -> Forall2 Q l m.
Proof. intros H I. induction H; constructor; auto. Qed.
Lemma Forall2_in_l {A B} (P : A -> B -> Prop) l m a : Forall2 P l m -> In a l -> exists b, In b m /\ P a b.
Proof. induction 1 as [|x y l m H _ IH]; intros []; [subst; exists y; split; [left; reflexivity|assumption]|]. destruct IH as (b & ? & ?); auto. exists b. split; [right|]; auto. Qed.
Lemma Forall2_in_r {A B} (P : A -> B -> Prop) l m b : Forall2 P l m -> In b m -> exists a, In a l /\ P a b.
Proof. induction 1 as [|x y l m H _ IH]; intros []; [subst; exists x; split; [left; reflexivity|assumption]|]. destruct IH as (a & ? & ?); auto. exists a. split; [right|]; auto. Qed.

Lemma oupdate_spec dim g t : forall o Ss,
  create t = Some (blank o) ->
  (forall s, In s (leaf_sets t) -> good g (Ss s)) ->
  let '(o', S', ok) := oupdate dim g o Ss in
  (forall s, good g (Ss s) -> good g (S' s)) /\ (ok = true -> computed dim g t o').
Proof.
  induction t as [id es f b|id k cs IH] using stree_ind'; intros o Ss C G.
  - cbn [create] in C. destruct o as [id' es' f' b' z|id' es' b' l z|id' k' cs' z]; cbn in C; try discriminate; injection C as <- <- <- <-.
    cbn [oupdate]. pose proof (G es (or_introl eq_refl)) as Ge. split.
    + intros s Hs. destruct (Nat.eq_dec s es) as [->|Hn]; [rewrite put_same; apply good_prepare, Ge|now rewrite put_other].
    + intros _. unfold computed. cbn [osizes writes]. rewrite grid_sizes_spec by exact Ge. cbn [o_size o_blocks].
      split; [destruct b; reflexivity|]. split; [|split].
      * intros j v [E|[]]. injection E as <- <-. right. exists (SLeaf id es f b). split; [left; reflexivity|]. split; [reflexivity|]. destruct b; reflexivity.
      * intros t' [<-|[]]. left. destruct b; reflexivity.
      * intros j [].
  - assert (EB : (exists b, k = EntityBlocked b) \/ forall b, k <> EntityBlocked b) by (destruct k; [right|right|left]; eauto; discriminate).
    destruct EB as [[b ->]|Hk].
    + cbn [create] in C. destruct (common_set (flat_map leaf_sets cs)) as [s0|] eqn:E; [|discriminate].
      apply common_set_spec in E as [_ Hin].
      destruct o as [id' es' f' b' z|id' es' b' l z|id' k' cs' z]; cbn in C; try discriminate. injection C as <- <- <- <-.
      change (LNode (map local cs)) with (local (SNode id (EntityBlocked b) cs)). set (t := SNode id (EntityBlocked b) cs) in *.
      cbn [oupdate]. pose proof (G s0 Hin) as Ge. split.
      * intros s Hs. destruct (Nat.eq_dec s s0) as [->|Hn]; [rewrite put_same; apply good_prepare, Ge|now rewrite put_other].
      * intros _. unfold computed. cbn [osizes writes]. rewrite grid_sizes_spec by exact Ge. cbn [o_size o_blocks].
        rewrite lwrites_local, lmax_local.
        assert (D1 : dofs_on dim g (ldofs (local t)) = dimension dim g t).
        { rewrite <- dofs_on_at. unfold dofs_on. f_equal. apply map_ext. intros c. now rewrite ldofs_local. }
        assert (D2 : (if b then carriers dim g (ldofs (local t)) else dofs_on dim g (ldofs (local t))) = blocks dim g t).
        { subst t. destruct b; cbn [blocks].
          - unfold carriers. f_equal. apply map_ext. intros c. now rewrite ldofs_local.
          - rewrite D1. now rewrite dofs_on_at. }
        rewrite D2, D1. split; [reflexivity|]. split; [|split].
        -- intros j v H. apply in_app_or in H as [H|[H|[]]].
           ++ left. apply in_map_iff in H as (i & E & Hi). injection E as <- <-. split; [reflexivity|exact Hi].
           ++ right. injection H as <- <-. exists t. split; [left; reflexivity|]. split; reflexivity.
        -- intros t' [<-|[]]. apply in_or_app. right. left. reflexivity.
        -- intros j Hj. apply in_or_app. left. apply in_map_iff. exists j. split; [reflexivity|exact Hj].
    + destruct (create_node _ _ _ _ Hk C) as (os & F & Eo). destruct o as [id' es' f' b' z|id' es' b' l z|id' k' cs' z]; cbn in Eo; try discriminate.
      injection Eo as -> -> <-. cbn [oupdate].
      assert (CH : forall Ss, (forall s, In s (flat_map leaf_sets cs) -> good g (Ss s)) ->
        let '(cs1, S1, ok) := upd_children (oupdate dim g) cs' Ss in
        (forall s, good g (Ss s) -> good g (S1 s)) /\ (ok = true -> Forall2 (computed dim g) cs cs1)).
      { clear C G z Ss. revert cs' F. induction IH as [|c cs Hc _ IH3]; intros [|c' cs'] F Ss G; cbn [map] in F; inversion F; subst.
        - cbn. split; [auto|]. intros _. constructor.
        - rewrite upd_children_cons. specialize (Hc c' Ss ltac:(assumption)).
          assert (Gc : forall s, In s (leaf_sets c) -> good g (Ss s)) by (intros s Hs; apply G; cbn; apply in_or_app; left; assumption).
          specialize (Hc Gc). destruct (oupdate dim g c' Ss) as [[c1 S1] ok]. destruct Hc as [Hc1 Hc2]. destruct ok.
          + assert (G1 : forall s, In s (flat_map leaf_sets cs) -> good g (S1 s)) by (intros s Hs; apply Hc1, G; cbn; apply in_or_app; right; assumption).
            specialize (IH3 cs' ltac:(assumption) S1 G1). destruct (upd_children (oupdate dim g) cs' S1) as [[cs1 S2] ok2].
            destruct IH3 as [I1 I2]. split; [auto|]. intros ->. constructor; auto.
          + split; [auto|discriminate]. }
      specialize (CH Ss G). destruct (upd_children (oupdate dim g) cs' Ss) as [[cs1 S1] ok]. destruct CH as [CH1 CH2].
      destruct ok; [|split; [assumption|discriminate]]. specialize (CH2 eq_refl).
      assert (M : forall z1, merge k cs1 z = (z1, true) -> z1 = mkosz (dimension dim g (SNode id k cs)) (blocks dim g (SNode id k cs)) (shapes (SNode id k cs))).
      { intros z1. unfold merge.
        assert (Q1 : sum_nat (map (fun o => o_size (osizes o)) cs1) = sum_nat (map (dimension dim g) cs)).
        { symmetry. apply sums_eq. eapply Forall2_impl'; [exact CH2|]. intros a o [-> _]. reflexivity. }
        assert (Q2 : sum_nat (map (fun o => o_blocks (osizes o)) cs1) = sum_nat (map (blocks dim g) cs)).
        { symmetry. apply sums_eq. eapply Forall2_impl'; [exact CH2|]. intros a o [-> _]. reflexivity. }
        assert (Q3 : sum_nat (map (fun o => o_max (osizes o)) cs1) = sum_nat (map shapes cs)).
        { symmetry. apply sums_eq. eapply Forall2_impl'; [exact CH2|]. intros a o [-> _]. reflexivity. }
        rewrite Q1, Q2, Q3. assert (L : length cs = length cs1) by (clear - CH2; induction CH2; cbn; congruence).
        destruct k as [[|]|[|] m|b]; cbn [dimension blocks shapes].
        - intros E. injection E as <-. now rewrite L.
        - intros E. injection E as <-. reflexivity.
        - destruct (_ =? _); intros E; [injection E as <-; reflexivity|discriminate].
        - intros E. injection E as <-. reflexivity.
        - exfalso. exact (Hk b eq_refl). }
      destruct (merge k cs1 z) as [z1 ok1]. split; [assumption|]. intros ->. specialize (M z1 eq_refl). subst z1.
      assert (FR : free (SNode id k cs) = SNode id k cs :: flat_map free cs) by (destruct k; try reflexivity; exfalso; eapply Hk; reflexivity).
      assert (EN : enclosed (SNode id k cs) = flat_map enclosed cs) by (destruct k; try reflexivity; exfalso; eapply Hk; reflexivity).
      unfold computed. rewrite FR, EN. cbn [osizes writes o_size o_blocks]. split; [reflexivity|]. split; [|split].
      * intros j v H. apply in_app_or in H as [H|[H|[]]].
        -- apply in_flat_map in H as (o & Ho & H). destruct (Forall2_in_r _ _ _ _ CH2 Ho) as (a & Ha & _ & W & _).
           destruct (W j v H) as [[-> Hj]|(t' & Ht & <- & ->)].
           ++ left. split; [reflexivity|]. apply in_flat_map. eauto.
           ++ right. exists t'. split; [right; apply in_flat_map; eauto|auto].
        -- injection H as <- <-. right. exists (SNode id k cs). split; [left; reflexivity|]. split; reflexivity.
      * intros t' [<-|Ht]; apply in_or_app; [right; left; reflexivity|left].
        apply in_flat_map in Ht as (a & Ha & Ht). destruct (Forall2_in_l _ _ _ _ CH2 Ha) as (o & Ho & _ & _ & W & _).
        apply in_flat_map. eauto.
      * intros j Hj. apply in_or_app. left. apply in_flat_map in Hj as (a & Ha & Hj).
        destruct (Forall2_in_l _ _ _ _ CH2 Ha) as (o & Ho & _ & _ & _ & W). apply in_flat_map. eauto.
Qed.

(** *** Writing the data of the spaces *)
Lemma writes_other gl mx L : forall D j, ~ In j (map fst L) -> fold_left (write1 gl mx) L D j = D j.
Proof.
  induction L as [|[i v] L IH]; intros D j H; cbn [fold_left]; [reflexivity|]. cbn in H.
  rewrite IH by tauto. unfold write1. cbn [fst snd]. apply put_other. intros ->. tauto.
Qed.
Lemma write1_root gl mx D w j : d_root (write1 gl mx D w j) = d_root (D j).
Proof.
  destruct w as [i v]. unfold write1. cbn [fst snd]. destruct (Nat.eq_dec j i) as [->|Hn]; [rewrite put_same|now rewrite put_other].
  destruct v as [[]|]; reflexivity.
Qed.
Lemma writes_root gl mx L : forall D j, d_root (fold_left (write1 gl mx) L D j) = d_root (D j).
Proof. induction L as [|w L IH]; intros D j; cbn [fold_left]; [reflexivity|]. rewrite IH. apply write1_root. Qed.
Lemma write1_init gl mx D w j : d_init (D j) = true -> d_init (write1 gl mx D w j) = true.
Proof.
  destruct w as [i v]. unfold write1. cbn [fst snd]. intros H. destruct (Nat.eq_dec j i) as [->|Hn]; [rewrite put_same|now rewrite put_other].
  destruct v as [[]|]; reflexivity.
Qed.
Lemma writes_init_keep gl mx L : forall D j, d_init (D j) = true -> d_init (fold_left (write1 gl mx) L D j) = true.
Proof. induction L as [|w L IH]; intros D j H; cbn [fold_left]; [assumption|]. apply IH, write1_init, H. Qed.

Definition written gl mx (d : data) : Prop := d_init d = true /\ d_global d = gl /\ d_max d = mx.
Lemma write1_written gl mx D i v j : (i = j \/ written gl mx (D j)) -> written gl mx (write1 gl mx D (i, v) j).
Proof.
  intros H. unfold write1. cbn [fst snd]. destruct (Nat.eq_dec j i) as [->|Hn].
  - rewrite put_same. destruct v as [[]|]; repeat split.
  - rewrite put_other by assumption. destruct H; [congruence|assumption].
Qed.
Lemma writes_written gl mx L : forall D j, (In j (map fst L) \/ written gl mx (D j)) -> written gl mx (fold_left (write1 gl mx) L D j).
Proof.
  induction L as [|[i v] L IH]; intros D j H; cbn [fold_left]; [destruct H as [[]|H]; exact H|]. apply IH.
  cbn [map fst In] in H. destruct H as [[H|H]|H]; [right|left; exact H|right]; apply write1_written; auto.
Qed.
Lemma writes_value gl mx X B L : forall D j,
  (forall v, In (j, v) L -> v = Some (X, B)) -> (In j (map fst L) \/ (d_avail (D j) = true /\ d_size (D j) = X /\ d_blocks (D j) = B)) ->
  let d := fold_left (write1 gl mx) L D j in d_avail d = true /\ d_size d = X /\ d_blocks d = B.
Proof.
  induction L as [|[i v] L IH]; intros D j H Hin; cbn [fold_left]; [destruct Hin as [[]|Hin]; exact Hin|]. apply IH.
  - intros u Hu. apply H. right. assumption.
  - destruct (Nat.eq_dec i j) as [->|Hn].
    + right. rewrite (H v (or_introl eq_refl)). unfold write1. cbn [fst snd]. rewrite put_same. repeat split.
    + destruct Hin as [[E|Hin]|Hin]; [contradiction|left; exact Hin|]. right. unfold write1. cbn [fst snd]. rewrite put_other by congruence. exact Hin.
Qed.
Lemma writes_none gl mx L : forall D j,
  (forall v, In (j, v) L -> v = None) -> (In j (map fst L) \/ d_avail (D j) = false) -> d_avail (fold_left (write1 gl mx) L D j) = false.
Proof.
  induction L as [|[i v] L IH]; intros D j H Hin; cbn [fold_left]; [destruct Hin as [[]|Hin]; exact Hin|]. apply IH.
  - intros u Hu. apply H. right. assumption.
  - destruct (Nat.eq_dec i j) as [->|Hn].
    + right. rewrite (H v (or_introl eq_refl)). unfold write1. cbn [fst snd]. rewrite put_same. reflexivity.
    + destruct Hin as [[E|Hin]|Hin]; [contradiction|left; exact Hin|]. right. unfold write1. cbn [fst snd]. rewrite put_other by congruence. exact Hin.
Qed.
