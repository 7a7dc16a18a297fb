From Coq Require Import Sorting.Sorted.
From Verif Require Import Common CommonFacts PatternModel PatternSpec.

(** * Slices *)
Lemma slice_nth {A} b n (l : list A) k : k < n -> nth_error (slice b n l) k = nth_error l (b + k).
Proof.
  unfold slice. intros H.
  revert l; induction b as [|b IH]; intros l; cbn.
  - revert n k H; induction l as [|x t IHl]; intros [|n] [|k] H; cbn; auto; try lia.
    apply IHl; lia.
  - destruct l as [|x t]; cbn.
    + rewrite firstn_nil. destruct k; auto.
    + apply IH.
Qed.

Lemma slice_length {A} b n (l : list A) : b + n <= length l -> length (slice b n l) = n.
Proof. intros H. unfold slice. rewrite firstn_length, skipn_length. lia. Qed.

Lemma nth_error_ext {A} (l1 l2 : list A) : (forall k, nth_error l1 k = nth_error l2 k) -> l1 = l2.
Proof.
  revert l2; induction l1 as [|x t IH]; intros [|y l2] H; auto.
  - specialize (H 0); discriminate.
  - specialize (H 0); discriminate.
  - pose proof (H 0) as H0. cbn in H0. injection H0 as ->. f_equal. apply IH.
    intros k. apply (H (S k)).
Qed.

Lemma slice_upd_same {A} b n k (x : A) l :
  k < n -> b + n <= length l -> slice b n (upd (b + k) x l) = upd k x (slice b n l).
Proof.
  intros Hk Hl. apply nth_error_ext; intros m.
  destruct (lt_dec m n) as [Hm|Hm].
  - rewrite slice_nth by lia.
    destruct (Nat.eq_dec m k) as [->|Hne].
    + rewrite !upd_nth_error_same; auto; try lia. rewrite slice_length; lia.
    + rewrite !upd_nth_error_other by lia. now rewrite slice_nth by lia.
  - rewrite (proj2 (nth_error_None _ _)); [|rewrite slice_length; rewrite ?upd_length; lia].
    symmetry. apply nth_error_None. rewrite upd_length, slice_length; lia.
Qed.

Lemma slice_upd_other {A} b n p (x : A) l :
  (p < b \/ b + n <= p) -> slice b n (upd p x l) = slice b n l.
Proof.
  intros Hp. apply nth_error_ext; intros m.
  destruct (lt_dec m n) as [Hm|Hm].
  - rewrite !slice_nth by lia. apply upd_nth_error_other; lia.
  - assert (G : forall (z : list A), nth_error (slice b n z) m = None).
    { intros z. apply nth_error_None. unfold slice. rewrite firstn_length. lia. }
    now rewrite !G.
Qed.

Lemma slice_repeat {A} b n m (x : A) : b + n <= m -> slice b n (repeat x m) = repeat x n.
Proof.
  intros H. apply nth_error_ext; intros k.
  assert (G : forall q j, nth_error (repeat x q) j = if j <? q then Some x else None).
  { induction q as [|q IH]; intros [|j]; cbn; auto. rewrite IH. reflexivity. }
  destruct (lt_dec k n) as [Hk|Hk].
  - rewrite slice_nth by lia. rewrite !G.
    destruct (Nat.ltb_spec (b + k) m), (Nat.ltb_spec k n); auto; lia.
  - rewrite G. destruct (Nat.ltb_spec k n); [lia|].
    apply nth_error_None. unfold slice. rewrite firstn_length. lia.
Qed.

(** * The ordered set *)
Definition plt (p q : nat * N) : Prop := fst p < fst q \/ (fst p = fst q /\ (snd p < snd q)%N).

Lemma pair_ltb_plt p q : pair_ltb p q = true <-> plt p q.
Proof. unfold pair_ltb, plt. destruct p as [a b], q as [c d]; cbn. lia. Qed.

Lemma plt_trans p q r : plt p q -> plt q r -> plt p r.
Proof. unfold plt. lia. Qed.

Lemma pair_antisym p q : pair_ltb p q = false -> pair_ltb q p = false -> p = q.
Proof.
  unfold pair_ltb. destruct p as [a b], q as [c d]; cbn. intros H1 H2.
  assert (a = c) by lia. assert (b = d) by lia. congruence.
Qed.

Lemma set_insert_in p s q : In q (set_insert p s) <-> q = p \/ In q s.
Proof.
  induction s as [|h t IH]; cbn; [intuition|].
  destruct (pair_ltb p h) eqn:E1; cbn; [intuition|].
  destruct (pair_ltb h p) eqn:E2; cbn.
  - rewrite IH. intuition.
  - assert (p = h) by (apply pair_antisym; auto). subst. intuition.
Qed.

Lemma set_insert_sorted p s : StronglySorted plt s -> StronglySorted plt (set_insert p s).
Proof.
  induction s as [|h t IH]; intros Hs; cbn.
  - repeat constructor.
  - inversion Hs as [|? ? Ht Hh]; subst.
    destruct (pair_ltb p h) eqn:E1.
    + apply pair_ltb_plt in E1. constructor; auto. constructor; auto.
      rewrite Forall_forall in *. intros x Hx. eapply plt_trans; eauto.
    + destruct (pair_ltb h p) eqn:E2; auto.
      apply pair_ltb_plt in E2. constructor; auto.
      rewrite Forall_forall in *. intros x Hx.
      apply set_insert_in in Hx as [->|Hx]; auto.
Qed.

Lemma sorted_nodup s : StronglySorted plt s -> NoDup s.
Proof.
  induction 1 as [|h t Hs IH Hh]; constructor; auto.
  rewrite Forall_forall in Hh. intros Hin. apply Hh in Hin. unfold plt in Hin. lia.
Qed.

(** Elements of row [i] of a sorted set. *)
Definition over_row (i : nat) (o : list (nat * N)) : list N :=
  map snd (filter (fun p => fst p =? i) o).

Lemma over_row_in i o j : In j (over_row i o) <-> In (i, j) o.
Proof.
  unfold over_row. rewrite in_map_iff. split.
  - intros ([r c] & E & H). apply filter_In in H as [H1 H2]. cbn in *.
    apply Nat.eqb_eq in H2. now subst.
  - intros H. exists (i, j). split; auto. apply filter_In. cbn. now rewrite Nat.eqb_refl.
Qed.

Lemma over_row_nodup i o : NoDup o -> NoDup (over_row i o).
Proof.
  induction o as [|[r c] t IH]; intros H; cbn; [constructor|].
  inversion H as [|? ? Hn Ht]; subst. unfold over_row in *; cbn.
  destruct (Nat.eqb_spec r i) as [->|]; cbn; auto.
  constructor; auto. intros Hin. apply over_row_in in Hin. auto.
Qed.

(** * find_padded *)
Lemma find_padded_used j cs m :
  ~ In empty cs -> In j cs -> exists k, find_padded j (cs ++ repeat empty m) = Some k /\
    k < length cs /\ nth_error cs k = Some j.
Proof.
  intros Hne. induction cs as [|c t IH]; intros Hin; [destruct Hin|]. cbn.
  destruct (N.eqb_spec c j) as [->|Hc]; cbn.
  - exists 0. cbn. repeat split; lia || auto.
  - destruct (N.eqb_spec c empty) as [->|Hc'].
    + exfalso. apply Hne. now left.
    + destruct Hin as [->|Hin]; [congruence|].
      destruct IH as (k & Ek & Hk & Hn); auto.
      { intros H. apply Hne. now right. }
      exists (S k). rewrite Ek. cbn. repeat split; auto; lia.
Qed.

Lemma find_padded_free j cs m :
  ~ In empty cs -> ~ In j cs ->
  find_padded j (cs ++ repeat empty m) = if m =? 0 then None else Some (length cs).
Proof.
  intros Hne Hj. induction cs as [|c t IH]; cbn.
  - destruct m as [|m]; cbn; auto. rewrite N.eqb_refl, orb_true_r. reflexivity.
  - destruct (N.eqb_spec c j) as [->|Hc]; [exfalso; apply Hj; now left|].
    destruct (N.eqb_spec c empty) as [->|Hc']; [exfalso; apply Hne; now left|].
    cbn. rewrite IH by (intros H; (apply Hne + apply Hj); now right).
    destruct (m =? 0); reflexivity.
Qed.

Lemma upd_same_value {A} k (x : A) l : nth_error l k = Some x -> upd k x l = l.
Proof.
  revert l; induction k as [|k IH]; intros [|h t] H; cbn in *; try discriminate.
  - congruence.
  - now rewrite IH.
Qed.

(** * Invariant *)
Definition row_inv (links : list (nat * N)) (p : pattern) (i : nat) (cs : list N) (m : nat) : Prop :=
  slice (epr p * i) (epr p) (slots p) = cs ++ repeat empty m /\
  NoDup cs /\ ~ In empty cs /\
  (forall j, In (i, j) (overflow p) -> m = 0 /\ ~ In j cs) /\
  (forall j, In (i, j) links <-> In j cs \/ In (i, j) (overflow p)).

Record inv (r e : nat) (links : list (nat * N)) (p : pattern) : Prop := {
  inv_rows : rows p = r;
  inv_epr : epr p = e;
  inv_len : length (slots p) = r * e;
  inv_sorted : StronglySorted plt (overflow p);
  inv_over : forall i j, In (i, j) (overflow p) -> i < r;
  inv_row : forall i, i < r -> exists cs m, row_inv links p i cs m
}.

Lemma inv_create r e : inv r e [] (create r e).
Proof.
  constructor; cbn; auto.
  - apply repeat_length.
  - constructor.
  - intros i j [].
  - intros i Hi. exists [], e. unfold row_inv, create; cbn [epr slots overflow].
    split; [|split; [|split; [|split]]].
    + rewrite slice_repeat; auto. nia.
    + constructor.
    + intros [].
    + intros j [].
    + intros j; cbn; tauto.
Qed.

Lemma row_bound r e i k : i < r -> k <= e -> e * i + k <= r * e.
Proof. nia. Qed.

Lemma add_link_inv r e links p i j :
  inv r e links p -> i < r -> j <> empty ->
  exists p', add_link p (i, j) = Ok p' /\ inv r e (links ++ [(i, j)]) p'.
Proof.
  intros H Hi Hj. destruct H as [Hr He Hl Hs Ho Hrow].
  unfold add_link. rewrite Hr. destruct (Nat.ltb_spec i r) as [_|]; [|lia].
  destruct (Hrow i Hi) as (cs & m & Hsl & Hnd & Hne & Hov & Hlk).
  assert (Hlen : length cs + m = e).
  { apply (f_equal (@length N)) in Hsl. rewrite slice_length, app_length, repeat_length in Hsl.
    - lia.
    - rewrite He, Hl. nia. }
  rewrite He in *.
  (* the other rows *)
  assert (Hother : forall p' : pattern, rows p' = r -> epr p' = e ->
     (forall i', i' <> i -> i' < r -> slice (e * i') e (slots p') = slice (e * i') e (slots p)) ->
     (forall i' j', i' <> i -> In (i', j') (overflow p') <-> In (i', j') (overflow p)) ->
     forall i', i' <> i -> i' < r -> exists cs' m', row_inv (links ++ [(i, j)]) p' i' cs' m').
  { intros p' Hr' He' Hsl' Hov' i' Hne' Hi'.
    destruct (Hrow i' Hi') as (cs' & m' & A1 & A2 & A3 & A4 & A5).
    rewrite He in *.
    exists cs', m'. unfold row_inv. rewrite He'. repeat split; auto.
    - now rewrite Hsl'.
    - apply A4 with (j := j0). now apply Hov'.
    - apply A4 with (j := j0). now apply Hov'.
    - intros Hin. apply in_app_or in Hin as [Hin|[Heq|[]]]; [|congruence].
      apply A5 in Hin. rewrite Hov'; auto.
    - intros Hin. apply in_or_app. left. apply A5. rewrite Hov' in Hin; auto. }
  assert (Hin_dec : {In j cs} + {~ In j cs}) by (apply in_dec, N.eq_dec).
  assert (Hm : In j cs \/ ~ In j cs) by (destruct Hin_dec; auto). clear Hin_dec.
  rewrite Hsl.
  destruct Hm as [Hin|Hnin].
  - destruct (find_padded_used j cs m Hne Hin) as (k & Ek & Hk & Hn).
    rewrite Ek. eexists; split; [reflexivity|].
    assert (Hupd : upd (e * i + k) j (slots p) = slots p).
    { apply upd_same_value. rewrite <- slice_nth with (n := e) by lia.
      rewrite Hsl. rewrite nth_error_app1 by lia. auto. }
    constructor; cbn; auto.
    + now rewrite upd_length.
    + intros i' Hi'. destruct (Nat.eq_dec i' i) as [->|Hne'].
      * exists cs, m. unfold row_inv; cbn. rewrite Hupd. repeat split; auto.
        -- apply Hov with (j := j0); auto.
        -- apply Hov with (j := j0); auto.
        -- intros H'. apply in_app_or in H' as [H'|[H'|[]]]; [now apply Hlk|].
           injection H' as <-. now left.
        -- intros H'. apply in_or_app. left. now apply Hlk.
      * apply Hother; cbn; auto; try tauto. now rewrite Hupd.
  - rewrite find_padded_free by auto.
    destruct (Nat.eqb_spec m 0) as [Hm0|Hm0].
    + eexists; split; [reflexivity|]. constructor; cbn; auto.
      * now apply set_insert_sorted.
      * intros i' j' H'. apply set_insert_in in H' as [H'|H']; [|eauto]. congruence.
      * intros i' Hi'. destruct (Nat.eq_dec i' i) as [->|Hne'].
        -- exists cs, m. unfold row_inv; cbn. repeat split; auto.
           ++ apply set_insert_in in H as [H|H]; [injection H as ->; auto|]. apply (Hov _ H).
           ++ intros H'. apply in_app_or in H' as [H'|[H'|[]]].
              ** apply Hlk in H' as [|]; auto. right. apply set_insert_in; auto.
              ** right. apply set_insert_in. left. congruence.
           ++ intros [H'|H'];  apply in_or_app; [left; apply Hlk; now left|].
              apply set_insert_in in H' as [H'|H'].
              ** right. left. congruence.
              ** left. apply Hlk. now right.
        -- apply Hother; cbn; auto. intros i'' j' Hn''. rewrite set_insert_in.
           split; [intros [Hq|]; congruence || auto | auto].
    + eexists; split; [reflexivity|].
      assert (Hsl' : slice (e * i) e (upd (e * i + length cs) j (slots p))
                     = (cs ++ [j]) ++ repeat empty (m - 1)).
      { rewrite slice_upd_same; [|lia|rewrite Hl; nia].
        rewrite Hsl. rewrite upd_app_r by lia. rewrite Nat.sub_diag.
        destruct m as [|m']; [lia|]. cbn. rewrite Nat.sub_0_r, <- app_assoc. reflexivity. }
      constructor; cbn; auto.
      * now rewrite upd_length.
      * intros i' Hi'. destruct (Nat.eq_dec i' i) as [->|Hne'].
        -- exists (cs ++ [j]), (m - 1). unfold row_inv; cbn. repeat split; auto.
           ++ apply Permutation_NoDup with (l := j :: cs); [apply Permutation_cons_append|].
              now constructor.
           ++ intros H'. apply in_app_or in H' as [H'|[H'|[]]]; auto.
           ++ apply Hov in H. lia.
           ++ apply Hov in H. lia.
           ++ intros H'. apply in_app_or in H' as [H'|[H'|[]]].
              ** apply Hlk in H' as [|]; auto. left. apply in_or_app; auto.
              ** injection H' as ->. left. apply in_or_app. right. now left.
           ++ intros [H'|H'].
              ** apply in_app_or in H' as [H'|[->|[]]]; apply in_or_app.
                 --- left. apply Hlk; auto.
                 --- right. now left.
              ** apply in_or_app. left. apply Hlk. auto.
        -- apply Hother; cbn; auto; try tauto.
           intros i'' Hn'' Hi''. apply slice_upd_other.
           assert (i'' < i \/ i < i'') as [Hlt|Hlt] by lia; [right|left]; nia.
Qed.

Lemma build_inv r e links :
  valid_links r links -> exists p, build r e links = Ok p /\ inv r e links p.
Proof.
  intros Hv. unfold build.
  apply foldM_inv with (P := fun l p => inv r e l p).
  - apply inv_create.
  - intros pre [i j] s Hs Hin. apply Hv in Hin as [Hi Hj]. now apply add_link_inv.
Qed.

(** * Iteration *)
Lemma lower_bound_row i o : StronglySorted plt o ->
  exists rest, lower_bound (i, 0%N) o = map (fun j => (i, j)) (over_row i o) ++ rest /\
  (forall r j, In (r, j) rest -> i < r).
Proof.
  induction 1 as [|[r c] t Hs IH Hh]; cbn.
  - exists []. cbn. split; auto. intros r j [].
  - destruct IH as (rest & E & Hrest).
    unfold over_row in *. cbn.
    destruct (pair_ltb (r, c) (i, 0%N)) eqn:Elt.
    + apply pair_ltb_plt in Elt. unfold plt in Elt; cbn in Elt.
      destruct (Nat.eqb_spec r i); [lia|]. eauto.
    + assert (Hge : i <= r) by (unfold pair_ltb in Elt; cbn in Elt; lia).
      destruct (Nat.eqb_spec r i) as [->|Hne].
      * exists rest. split; auto. cbn. f_equal.
        (* all of t is >= (i,c), so lower_bound t = t *)
        assert (Hlb : lower_bound (i, 0%N) t = t).
        { destruct t as [|[r' c'] t']; cbn; auto.
          inversion Hh as [|? ? Hp _]; subst. unfold plt in Hp; cbn in Hp.
          unfold pair_ltb; cbn. destruct ((r' <? i) || (r' =? i) && (c' <? 0)%N)%bool eqn:E'; auto.
          lia. }
        rewrite <- E. symmetry. exact Hlb.
      * assert (Hall : forall r' j', In (r', j') ((r, c) :: t) -> i < r').
        { intros r' j' [H|H]; [injection H as <- <-; lia|].
          rewrite Forall_forall in Hh. apply Hh in H. unfold plt in H; cbn in H. lia. }
        exists ((r, c) :: t). split; auto.
        assert (Hf : filter (fun p => fst p =? i) t = []).
        { clear -Hall. induction t as [|[r' c'] t IH]; cbn; auto.
          destruct (Nat.eqb_spec r' i) as [->|].
          - exfalso. assert (i < i) by (apply Hall with c'; right; now left). lia.
          - apply IH. intros r'' j'' [H|H]; apply Hall with j''; [now left|right; now right]. }
        rewrite Hf. reflexivity.
Qed.

Lemma loop_over e row os rest s ae fuel :
  at_end e = true -> it_row e = row ->
  (forall r j, In (r, j) rest -> row < r) ->
  ae = (match os with [] => true | _ => false end) ->
  length os <= fuel ->
  iter_loop fuel (mkIter row true ae s (map (fun j => (row, j)) os ++ rest)) e = Some os.
Proof.
  intros He Her Hrest. revert ae fuel. induction os as [|j t IH]; intros ae fuel Hae Hf; subst ae.
  - destruct fuel; cbn [iter_loop]; unfold iter_equals; cbn; rewrite He, Her, Nat.eqb_refl; cbn; reflexivity.
  - destruct fuel as [|fuel]; [cbn in Hf; lia|]. cbn [iter_loop].
    unfold iter_equals; cbn [it_row at_end]. rewrite He, Her, Nat.eqb_refl. cbn [negb orb andb].
    unfold iter_deref; cbn [in_overflow it_over map app].
    unfold iter_incr; cbn [in_overflow it_row it_over tl at_end it_slots map app].
    rewrite IH; auto; [|cbn in Hf; lia].
    destruct t as [|j' t']; cbn.
    + destruct rest as [|[r c] rest']; auto.
      destruct (Nat.eqb_spec r row); cbn; auto.
      assert (row < r) by (apply (Hrest r c); now left). lia.
    + rewrite Nat.eqb_refl. reflexivity.
Qed.

Lemma loop_slots e row cs m os rest fuel c :
  at_end e = true -> it_row e = row ->
  (forall r j, In (r, j) rest -> row < r) ->
  ~ In empty (c :: cs) -> length (c :: cs) + length os <= fuel ->
  iter_loop fuel (mkIter row false false ((c :: cs) ++ repeat empty m) (map (fun j => (row, j)) os ++ rest)) e
  = Some ((c :: cs) ++ os).
Proof.
  intros He Her Hrest. revert c fuel. induction cs as [|c' t IH]; intros c fuel Hne Hf.
  - destruct fuel as [|fuel]; [cbn in Hf; lia|]. cbn [iter_loop].
    unfold iter_equals; cbn [it_row at_end]. rewrite He, Her, Nat.eqb_refl. cbn [negb orb andb].
    unfold iter_deref; cbn [in_overflow it_slots app].
    unfold iter_incr; cbn [in_overflow it_row it_over tl at_end it_slots app].
    assert (Hns : no_slot (repeat empty m) = true) by (destruct m; cbn; auto).
    rewrite Hns. rewrite loop_over; auto; [|cbn in Hf; lia].
    destruct os as [|j os]; cbn.
    + destruct rest as [|[r q] rest']; auto.
      destruct (Nat.ltb_spec row r); auto.
      assert (row < r) by (apply (Hrest r q); now left). lia.
    + destruct (Nat.ltb_spec row row); auto; lia.
  - destruct fuel as [|fuel]; [cbn in Hf; lia|]. cbn [iter_loop].
    unfold iter_equals; cbn [it_row at_end]. rewrite He, Her, Nat.eqb_refl. cbn [negb orb andb].
    unfold iter_deref; cbn [in_overflow it_slots app].
    unfold iter_incr; cbn [in_overflow it_row it_over tl at_end it_slots app].
    assert (Hns : no_slot (c' :: t ++ repeat empty m) = false).
    { cbn. destruct (N.eqb_spec c' empty) as [->|]; auto. exfalso. apply Hne. cbn; auto. }
    rewrite Hns.
    replace (c' :: t ++ repeat empty m) with ((c' :: t) ++ repeat empty m) by reflexivity.
    rewrite IH; auto.
    + intros H. apply Hne. now right.
    + cbn in *; lia.
Qed.

Lemma row_columns_eq r e links p i cs m :
  inv r e links p -> i < r -> row_inv links p i cs m ->
  row_columns p i = Some (cs ++ over_row i (overflow p)).
Proof.
  intros H Hi (Hsl & Hnd & Hne & Hov & Hlk). destruct H as [Hr He Hl Hs Ho Hrow].
  unfold row_columns, iter_make. rewrite Nat.mul_comm in Hsl. rewrite Hsl.
  destruct (lower_bound_row i (overflow p) Hs) as (rest & Elb & Hrest). rewrite Elb.
  set (os := over_row i (overflow p)) in *.
  assert (Hlen : length cs + m = e).
  { apply (f_equal (@length N)) in Hsl. rewrite slice_length, app_length, repeat_length in Hsl.
    - lia.
    - rewrite He, Hl. nia. }
  assert (Hos : length os <= length (overflow p)).
  { unfold os, over_row. rewrite map_length. clear. induction (overflow p) as [|q t IH]; cbn; auto.
    destruct (fst q =? i); cbn; lia. }
  cbn [negb andb].
  destruct cs as [|c cs].
  - assert (Hns : no_slot ([] ++ repeat empty m) = true) by (destruct m; cbn; auto).
    rewrite Hns. cbn [andb]. rewrite loop_over; auto; [|lia].
    destruct os as [|j os]; cbn; [|now rewrite Nat.eqb_refl].
    destruct rest as [|[r' q] rest']; auto.
    destruct (Nat.eqb_spec r' i) as [->|]; auto.
    assert (i < i) by (apply (Hrest i q); now left). lia.
  - assert (Hns : no_slot ((c :: cs) ++ repeat empty m) = false).
    { cbn. destruct (N.eqb_spec c empty) as [->|]; auto. exfalso. apply Hne. now left. }
    rewrite Hns. cbn [andb]. rewrite loop_slots; auto. lia.
Qed.

Lemma row_disjoint r e links p i cs m :
  inv r e links p -> i < r -> row_inv links p i cs m ->
  NoDup (cs ++ over_row i (overflow p)) /\
  (forall j, In j (cs ++ over_row i (overflow p)) <-> In (i, j) links).
Proof.
  intros H Hi (Hsl & Hnd & Hne & Hov & Hlk). destruct H as [Hr He Hl Hs Ho Hrow].
  split.
  - assert (Hn2 : NoDup (over_row i (overflow p))) by (apply over_row_nodup, sorted_nodup; auto).
    assert (Hdis : forall x, In x cs -> ~ In x (over_row i (overflow p))).
    { intros x Hx Hx'. apply over_row_in in Hx'. apply Hov in Hx' as [_ Hx']. auto. }
    clear -Hnd Hn2 Hdis. induction cs as [|c t IH]; cbn; auto.
    inversion Hnd; subst. constructor.
    + intros Hin. apply in_app_or in Hin as [|Hin]; auto. apply (Hdis c); [now left|auto].
    + apply IH; auto. intros x Hx. apply Hdis. now right.
  - intros j. rewrite Hlk, in_app_iff, over_row_in. tauto.
Qed.

Lemma row_columns_spec r e links :
  valid_links r links -> exists p, build r e links = Ok p /\
  forall i, i < r -> exists cols, row_columns p i = Some cols /\ NoDup cols /\
    forall j, In j cols <-> In (i, j) links.
Proof.
  intros Hv. destruct (build_inv r e links Hv) as (p & Ep & Hp). exists p. split; auto.
  intros i Hi. destruct (inv_row _ _ _ _ Hp i Hi) as (cs & m & Hrow).
  eexists. split; [eapply row_columns_eq; eauto|]. eapply row_disjoint; eauto.
Qed.

(** * Sizes *)
Lemma row_size_eq i links l : NoDup l -> (forall j, In j l <-> In (i, j) links) -> row_size i links = length l.
Proof.
  intros Hn Hl. unfold row_size. apply Permutation_length.
  apply NoDup_Permutation; auto; [apply NoDup_nodup|].
  intros x. rewrite nodup_In. rewrite Hl. apply (over_row_in i links x).
Qed.

Lemma used_app cs m : ~ In empty cs -> used (cs ++ repeat empty m) = length cs.
Proof.
  induction cs as [|c t IH]; intros Hne; cbn.
  - destruct m; cbn; auto.
  - destruct (N.eqb_spec c empty) as [->|]; [exfalso; apply Hne; now left|].
    rewrite IH; auto. intros H; apply Hne; now right.
Qed.

Lemma count_row_spec i o : StronglySorted plt o -> (forall r j, In (r, j) o -> i <= r) ->
  count_row i o = (length (over_row i o), filter (fun p => negb (fst p =? i)) o).
Proof.
  induction 1 as [|[r c] t Hs IH Hh]; intros Hall; cbn; auto.
  unfold over_row in *; cbn.
  destruct (Nat.eqb_spec r i) as [->|Hne]; cbn.
  - rewrite IH; auto. intros r j Hin. apply (Hall r j). now right.
  - assert (Hlt : i < r) by (assert (i <= r) by (apply (Hall r c); now left); lia).
    assert (Hgt : forall q, In q t -> fst q =? i = false).
    { intros [r' c'] Hin. rewrite Forall_forall in Hh. apply Hh in Hin. unfold plt in Hin. cbn in *.
      destruct (Nat.eqb_spec r' i); auto. lia. }
    clear -Hgt.
    assert (E1 : filter (fun p : nat * N => fst p =? i) t = []).
    { induction t as [|q t IH]; cbn; auto. rewrite Hgt by (now left). apply IH.
      intros; apply Hgt; now right. }
    assert (E2 : filter (fun p : nat * N => negb (fst p =? i)) t = t).
    { induction t as [|q t IH]; cbn; auto. rewrite Hgt by (now left). cbn. f_equal. apply IH.
      - intros; apply Hgt; now right.
      - cbn in E1. rewrite Hgt in E1 by (now left). auto. }
    now rewrite E1, E2.
Qed.

Lemma filter_sorted f o : StronglySorted plt o -> StronglySorted plt (filter f o).
Proof.
  induction 1 as [|h t Hs IH Hh]; cbn; [constructor|].
  destruct (f h); auto. constructor; auto.
  rewrite Forall_forall in *. intros x Hx. apply filter_In in Hx as [Hx _]. auto.
Qed.

Lemma sizes_loop_spec p n i o :
  (forall k, i <= k -> k < i + n -> exists cs m, slice (epr p * k) (epr p) (slots p) = cs ++ repeat empty m /\
      ~ In empty cs /\ length (over_row k o) = length (over_row k (overflow p))) ->
  StronglySorted plt o -> (forall r j, In (r, j) o -> i <= r) ->
  sizes_loop p i n o = map (fun k => used (slice (epr p * k) (epr p) (slots p)) + length (over_row k (overflow p)))
                           (seq i n).
Proof.
  revert i o. induction n as [|n IH]; intros i o Hrow Hs Hall; cbn; auto.
  rewrite count_row_spec by auto. cbn.
  destruct (Hrow i) as (cs & m & Hsl & Hne & Hov); [lia|lia|].
  rewrite Nat.mul_comm, Hov. f_equal.
  apply IH.
  - intros k Hk1 Hk2. destruct (Hrow k) as (cs' & m' & A1 & A2 & A3); [lia|lia|].
    exists cs', m'. repeat split; auto. rewrite <- A3.
    f_equal. unfold over_row. f_equal. clear -Hk1. induction o as [|[r c] t IHo]; cbn; auto.
    destruct (Nat.eqb_spec r i) as [Hri|Hri]; cbn; destruct (Nat.eqb_spec r k) as [Hrk|Hrk]; cbn;
      rewrite ?IHo; auto; lia.
  - now apply filter_sorted.
  - intros r j Hin. apply filter_In in Hin as [Hin Hf]. cbn in Hf. apply Hall in Hin.
    destruct (Nat.eqb_spec r i); cbn in Hf; [discriminate|lia].
Qed.

Lemma inv_sizes r e links p :
  inv r e links p -> sizes p = map (fun i => row_size i links) (seq 0 r).
Proof.
  intros Hp. unfold sizes. rewrite (inv_rows _ _ _ _ Hp).
  rewrite sizes_loop_spec.
  - apply map_ext_in. intros i Hi. apply in_seq in Hi.
    destruct (inv_row _ _ _ _ Hp i) as (cs & m & Hrow); [lia|].
    assert (Hi' : i < r) by lia.
    destruct (row_disjoint _ _ _ _ _ _ _ Hp Hi' Hrow) as [Hn Hin].
    rewrite (row_size_eq _ _ _ Hn Hin). destruct Hrow as (Hsl & _ & Hne & _).
    rewrite Hsl, used_app, app_length; auto.
  - intros k _ Hk. destruct (inv_row _ _ _ _ Hp k) as (cs & m & Hrow); [lia|].
    destruct Hrow as (Hsl & _ & Hne & _). exists cs, m. auto.
  - apply (inv_sorted _ _ _ _ Hp).
  - intros; lia.
Qed.

Lemma sizes_spec r e links :
  valid_links r links -> exists p, build r e links = Ok p /\
  sizes p = map (fun i => row_size i links) (seq 0 r).
Proof.
  intros Hv. destruct (build_inv r e links Hv) as (p & Ep & Hp). exists p. split; auto.
  eapply inv_sizes; eauto.
Qed.

Lemma over_count r o : (forall i j, In (i, j) o -> i < r) ->
  length o = sum_nat (map (fun i => length (over_row i o)) (seq 0 r)).
Proof.
  induction o as [|[a c] t IH]; intros Hall; cbn [length].
  - induction (seq 0 r) as [|x l IHl]; cbn; auto.
  - rewrite IH by (intros; eapply Hall; right; eauto).
    assert (Ha : a < r) by (eapply Hall; now left).
    assert (G : forall n s, sum_nat (map (fun i => length (over_row i ((a, c) :: t))) (seq s n)) =
      (if (s <=? a) && (a <? s + n) then 1 else 0) + sum_nat (map (fun i => length (over_row i t)) (seq s n))).
    { induction n as [|n IHn]; intros s; cbn [seq map sum_nat fold_right].
      - destruct ((s <=? a) && (a <? s + 0))%bool eqn:E; auto. lia.
      - change (fold_right Nat.add 0) with sum_nat. rewrite IHn.
        assert (Ec : length (over_row s ((a, c) :: t)) = (if a =? s then 1 else 0) + length (over_row s t)).
        { unfold over_row; cbn. destruct (a =? s); reflexivity. }
        rewrite Ec. clear Ec IHn IH.
        destruct (Nat.eqb_spec a s), ((s <=? a) && (a <? s + S n))%bool eqn:E1,
          ((S s <=? a) && (a <? S s + n))%bool eqn:E2; lia. }
    rewrite G. destruct ((0 <=? a) && (a <? 0 + r))%bool eqn:E; lia.
Qed.

Lemma overflow_spec r e links :
  valid_links r links -> exists p, build r e links = Ok p /\
  overflowCount p = sum_nat (map (fun i => row_size i links - e) (seq 0 r)).
Proof.
  intros Hv. destruct (build_inv r e links Hv) as (p & Ep & Hp). exists p. split; auto.
  unfold overflowCount. rewrite (over_count r); [|apply (inv_over _ _ _ _ Hp)].
  f_equal. apply map_ext_in. intros i Hi. apply in_seq in Hi.
  destruct (inv_row _ _ _ _ Hp i) as (cs & m & Hrow); [lia|].
  assert (Hi' : i < r) by lia.
    destruct (row_disjoint _ _ _ _ _ _ _ Hp Hi' Hrow) as [Hn Hin].
  rewrite (row_size_eq _ _ _ Hn Hin), app_length.
  destruct Hrow as (Hsl & _ & Hne & Hov & _).
  assert (Hlen : length cs + m = e).
  { apply (f_equal (@length N)) in Hsl. rewrite slice_length, app_length, repeat_length in Hsl.
    - rewrite (inv_epr _ _ _ _ Hp) in Hsl. lia.
    - rewrite (inv_epr _ _ _ _ Hp), (inv_len _ _ _ _ Hp). nia. }
  destruct (over_row i (overflow p)) as [|j t] eqn:Eo; cbn [length]; [lia|].
  assert (m = 0) by (apply (Hov j); apply over_row_in; rewrite Eo; now left). lia.
Qed.

(** * Nested patterns *)
Definition strip (i j : nat) (links : list (list N * list N)) : list (list N * list N) :=
  flat_map (fun l => match l with
    | (a :: ri, b :: ci) => if ((N.to_nat a =? i) && (N.to_nat b =? j))%bool then [(ri, ci)] else []
    | _ => [] end) links.
Definition leaf_links (links : list (list N * list N)) : list (nat * N) :=
  flat_map (fun l => match l with ([i], [j]) => [(N.to_nat i, j)] | _ => [] end) links.

Lemma strip_in i j links ri ci :
  In (ri, ci) (strip i j links) <-> In (N.of_nat i :: ri, N.of_nat j :: ci) links.
Proof.
  unfold strip. rewrite in_flat_map. split.
  - intros ([[|a ri'] [|b ci']] & Hin & H); cbn in H; try tauto.
    destruct (Nat.eqb_spec (N.to_nat a) i), (Nat.eqb_spec (N.to_nat b) j); cbn in H; try tauto.
    destruct H as [H|[]]. injection H as <- <-. subst. now rewrite !N2Nat.id.
  - intros Hin. exists (N.of_nat i :: ri, N.of_nat j :: ci). split; auto.
    rewrite !Nat2N.id, !Nat.eqb_refl. now left.
Qed.
Lemma leaf_links_in i j links : In (i, j) (leaf_links links) <-> In ([N.of_nat i], [j]) links.
Proof.
  unfold leaf_links. rewrite in_flat_map. split.
  - intros ([[|a [|? ?]] [|b [|? ?]]] & Hin & H); cbn in H; try tauto.
    destruct H as [H|[]]. injection H as <- <-. now rewrite N2Nat.id.
  - intros Hin. exists ([N.of_nat i], [j]). split; auto. rewrite Nat2N.id. now left.
Qed.
Lemma strip_app i j l1 l2 : strip i j (l1 ++ l2) = strip i j l1 ++ strip i j l2.
Proof. apply flat_map_app. Qed.
Lemma leaf_links_app l1 l2 : leaf_links (l1 ++ l2) = leaf_links l1 ++ leaf_links l2.
Proof. apply flat_map_app. Qed.

Fixpoint ninv (d e : nat) (ro co : ostruct) (links : list (list N * list N)) (t : npat) : Prop :=
  match d, ro, co, t with
  | 0, OLeaf n, OLeaf m, NLeaf p => inv n e (leaf_links links) p
  | S d', ONode rs, ONode cs, NNode nr nc subs =>
      nc = length cs /\
      forall i j r c, nth_error rs i = Some r -> nth_error cs j = Some c ->
        exists s, nth_error subs (i * nc + j) = Some s /\ ninv d' e r c (strip i j links) s
  | _, _, _, _ => False
  end.

Section Loops.
  Variable e : nat.
  Variable cs : list ostruct.
  Fixpoint loop_j (r : ostruct) (k : option (list npat)) (l : list ostruct) : option (list npat) :=
    match l with
    | [] => k
    | c :: l' => match ncreate r c e, loop_j r k l' with
                 | Some x, Some xs => Some (x :: xs)
                 | _, _ => None
                 end
    end.
  Fixpoint loop_i (rs : list ostruct) : option (list npat) :=
    match rs with
    | [] => Some []
    | r :: rs' => loop_j r (loop_i rs') cs
    end.
End Loops.
Lemma ncreate_node rs cs e :
  ncreate (ONode rs) (ONode cs) e = option_map (NNode (length rs) (length cs)) (loop_i e cs rs).
Proof.
  cbn [ncreate]. f_equal.
  induction rs as [|r rs IH]; [reflexivity|]. cbn [loop_i]. rewrite <- IH. clear IH.
  match goal with |- _ = loop_j _ _ ?k _ => generalize k as kk end. intros kk.
  induction cs as [|c cs' IHc]; cbn; auto. now rewrite IHc.
Qed.

Lemma loop_j_spec e r k l ks :
  k = Some ks -> (forall c, In c l -> exists x, ncreate r c e = Some x) ->
  exists xs, loop_j e r k l = Some (xs ++ ks) /\ length xs = length l /\
   forall j c, nth_error l j = Some c -> exists x, nth_error xs j = Some x /\ ncreate r c e = Some x.
Proof.
  intros ->. induction l as [|c l IH]; intros H; cbn.
  - exists []. cbn. repeat split; auto. intros [|j] c; cbn; discriminate.
  - destruct (H c) as (x & Ex); [now left|]. rewrite Ex.
    destruct IH as (xs & E & Hl & Hx); [intros; apply H; now right|].
    rewrite E. exists (x :: xs). cbn. repeat split; auto.
    intros [|j] c' Hc; cbn in *; [injection Hc as <-; eauto|auto].
Qed.

Lemma loop_i_spec e cs rs :
  (forall r c, In r rs -> In c cs -> exists x, ncreate r c e = Some x) ->
  exists xs, loop_i e cs rs = Some xs /\
   forall i j r c, nth_error rs i = Some r -> nth_error cs j = Some c ->
     exists x, nth_error xs (i * length cs + j) = Some x /\ ncreate r c e = Some x.
Proof.
  induction rs as [|r rs IH]; intros H; cbn.
  - exists []. split; auto. intros [|i] j r c; cbn; discriminate.
  - destruct IH as (ks & Ek & Hk); [intros; apply H; [now right|auto]|].
    destruct (loop_j_spec e r _ cs ks Ek) as (xs & E & Hl & Hx); [intros; apply H; [now left|auto]|].
    exists (xs ++ ks). split; auto.
    intros [|i] j r' c Hr Hc; cbn in Hr.
    + injection Hr as <-. destruct (Hx j c Hc) as (x & E1 & E2). exists x. split; auto.
      cbn. rewrite nth_error_app1; auto. apply nth_error_Some. congruence.
    + destruct (Hk i j r' c Hr Hc) as (x & E1 & E2). exists x. split; auto.
      rewrite nth_error_app2 by nia. rewrite <- E1. f_equal. nia.
Qed.

Lemma ncreate_ok d ro co e : same_depth d ro -> same_depth d co ->
  exists t, ncreate ro co e = Some t /\ ninv d e ro co [] t.
Proof.
  revert ro co. induction d as [|d IH]; intros ro co Hr Hc.
  - inversion Hr; inversion Hc; subst. cbn. eexists; split; [reflexivity|]. apply inv_create.
  - inversion Hr as [|? rs Hrs]; inversion Hc as [|? cs Hcs]; subst. rewrite ncreate_node.
    rewrite Forall_forall in Hrs, Hcs.
    destruct (loop_i_spec e cs rs) as (xs & E & Hx).
    { intros r c Hr' Hc'. destruct (IH r c) as (t & E & _); eauto. }
    rewrite E. cbn. eexists; split; [reflexivity|]. cbn. split; auto.
    intros i j r c Hri Hcj. destruct (Hx i j r c Hri Hcj) as (x & E1 & E2). exists x. split; auto.
    destruct (IH r c) as (t & E3 & Ht).
    + apply Hrs. eapply nth_error_In; eauto.
    + apply Hcs. eapply nth_error_In; eauto.
    + congruence.
Qed.

Section Go.
  Variable f : npat -> res npat.
  Fixpoint go_upd (k : nat) (l : list npat) : res (list npat) :=
    match l, k with
    | [], _ => UB
    | s :: l', O => let* s' := f s in Ok (s' :: l')
    | s :: l', S k' => let* l'' := go_upd k' l' in Ok (s :: l'')
    end.
  Lemma go_upd_ok k l s s' : nth_error l k = Some s -> f s = Ok s' -> go_upd k l = Ok (upd k s' l).
  Proof.
    revert l; induction k as [|k IH]; intros [|h t] Hn Hf; cbn in *; try discriminate.
    - injection Hn as ->. now rewrite Hf.
    - now rewrite IH.
  Qed.
End Go.
Lemma nadd_node i ri j ci r c subs :
  nadd (NNode r c subs) (i :: ri) (j :: ci) =
  let* subs' := go_upd (fun s => nadd s ri ci) (N.to_nat i * c + N.to_nat j) subs in Ok (NNode r c subs').
Proof.
  cbn [nadd]. set (k := N.to_nat i * c + N.to_nat j). clearbody k.
  match goal with |- bind ?a _ = bind ?b _ => assert (a = b) as ->; [|reflexivity] end.
  revert k.
  induction subs as [|s l IH]; intros [|k]; cbn; auto.
Qed.

Lemma nadd_inv d e ro co links t ri ci :
  ninv d e ro co links t -> valid_nlink ro co ri ci ->
  exists t', nadd t ri ci = Ok t' /\ ninv d e ro co (links ++ [(ri, ci)]) t'.
Proof.
  intros Hi Hv. revert d links t Hi.
  induction Hv as [n m i j Hi Hj | rs cs i j r c ri ci Hr Hc Hv IH]; intros d links t Hinv.
  - destruct d as [|d]; cbn in Hinv; [|tauto]. destruct t as [p|]; [|tauto].
    destruct (add_link_inv _ _ _ _ (N.to_nat i) j Hinv Hi Hj) as (p' & E & Hp').
    cbn [nadd]. rewrite E. cbn. eexists; split; [reflexivity|]. cbn.
    rewrite leaf_links_app. exact Hp'.
  - destruct d as [|d]; cbn in Hinv; [tauto|]. destruct t as [|nr nc subs]; [tauto|].
    destruct Hinv as [-> Hsub].
    destruct (Hsub _ _ _ _ Hr Hc) as (s & Es & Hs).
    destruct (IH d _ _ Hs) as (s' & E' & Hs').
    rewrite nadd_node. rewrite (go_upd_ok _ _ _ _ _ Es E'). cbn.
    eexists; split; [reflexivity|]. cbn. split; auto.
    intros i' j' r' c' Hr' Hc'. rewrite strip_app.
    assert (Hjlt : N.to_nat j < length cs) by (apply nth_error_Some; congruence).
    assert (Hjlt' : j' < length cs) by (apply nth_error_Some; congruence).
    destruct (Nat.eq_dec (i' * length cs + j') (N.to_nat i * length cs + N.to_nat j)) as [Heq|Hne].
    + assert (i' = N.to_nat i) by nia. assert (j' = N.to_nat j) by nia. subst.
      rewrite Hr in Hr'. rewrite Hc in Hc'. injection Hr' as <-. injection Hc' as <-.
      exists s'. split.
      * apply upd_nth_error_same. apply nth_error_Some. congruence.
      * cbn. rewrite !Nat.eqb_refl. cbn. exact Hs'.
    + destruct (Hsub _ _ _ _ Hr' Hc') as (s2 & Es2 & Hs2). exists s2. split.
      * rewrite upd_nth_error_other; auto.
      * cbn. destruct (Nat.eqb_spec (N.to_nat i) i'), (Nat.eqb_spec (N.to_nat j) j'); cbn;
          rewrite ?app_nil_r; auto. subst; lia.
Qed.

Lemma nbuild_inv d e ro co t links :
  ninv d e ro co [] t -> (forall ri ci, In (ri, ci) links -> valid_nlink ro co ri ci) ->
  exists t', nbuild t links = Ok t' /\ ninv d e ro co links t'.
Proof.
  intros H0 Hv. unfold nbuild. apply foldM_inv with (P := fun l t => ninv d e ro co l t); auto.
  intros pre [ri ci] s Hs Hin. cbn. apply nadd_inv; auto.
Qed.

Lemma ninv_block d e ro co links t bs n :
  ninv d e ro co links t -> leaf_block ro co bs n ->
  exists p, block t bs = Some p /\ exists ll, inv n e ll p /\
  forall i j, In (i, j) ll <->
    In (map (fun b => N.of_nat (fst b)) bs ++ [N.of_nat i], map (fun b => N.of_nat (snd b)) bs ++ [j]) links.
Proof.
  intros Hi Hb. revert d links t Hi.
  induction Hb as [n m | rs cs i j r c bs n Hr Hc Hb IH]; intros d links t Hinv.
  - destruct d as [|d]; cbn in Hinv; [|tauto]. destruct t as [p|]; [|tauto].
    cbn. exists p. split; auto. exists (leaf_links links). split; auto. intros. apply leaf_links_in.
  - destruct d as [|d]; cbn in Hinv; [tauto|]. destruct t as [|nr nc subs]; [tauto|].
    destruct Hinv as [-> Hsub]. destruct (Hsub _ _ _ _ Hr Hc) as (s & Es & Hs).
    destruct (IH d _ _ Hs) as (p & Ep & ll & Hll & Hin).
    exists p. cbn. rewrite Es. split; auto. exists ll. split; auto.
    intros i' j'. rewrite Hin. cbn. apply strip_in.
Qed.

Lemma nested_spec d e ro co links :
  same_depth d ro -> same_depth d co ->
  (forall ri ci, In (ri, ci) links -> valid_nlink ro co ri ci) ->
  exists t0 t, ncreate ro co e = Some t0 /\ nbuild t0 links = Ok t /\
  forall bs n, leaf_block ro co bs n -> exists p, block t bs = Some p /\
    forall i, i < n -> exists cols, row_columns p i = Some cols /\ NoDup cols /\
    forall j, In j cols <->
      In (map (fun b => N.of_nat (fst b)) bs ++ [N.of_nat i], map (fun b => N.of_nat (snd b)) bs ++ [j]) links.
Proof.
  intros Hr Hc Hv. destruct (ncreate_ok d ro co e Hr Hc) as (t0 & E0 & H0).
  destruct (nbuild_inv d e ro co t0 links H0 Hv) as (t & E & Ht).
  exists t0, t. repeat split; auto. intros bs n Hb.
  destruct (ninv_block _ _ _ _ _ _ _ _ Ht Hb) as (p & Ep & ll & Hp & Hll).
  exists p. split; auto. intros i Hi.
  destruct (inv_row _ _ _ _ Hp i Hi) as (cs & m & Hrow).
  eexists. split; [eapply row_columns_eq; eauto|].
  destruct (row_disjoint _ _ _ _ _ _ _ Hp Hi Hrow) as [Hn Hin]. split; auto.
  intros j. rewrite Hin. apply Hll.
Qed.
