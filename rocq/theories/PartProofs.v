(** Proofs about the splitting of entity sets into patches. *)
From Verif Require Import Common CommonFacts PartModel PartSpec.

(** Size of patch [i] under the remainder rule. *)
Definition patch_size (n p i : nat) : nat := n / p + (if i <? n mod p then 1 else 0).

Lemma slice_all {A} (b n : nat) (l : list A) : length l <= b + n -> slice b n l = skipn b l.
Proof. intro H. unfold slice. apply firstn_all2. rewrite skipn_length. lia. Qed.

Lemma skipn_add {A} n : forall b (l : list A), skipn n (skipn b l) = skipn (b + n) l.
Proof.
  induction b as [|b IH]; intros [|x l]; cbn [skipn Nat.add]; auto. now destruct n.
Qed.

Lemma slice_skipn {A} (b n : nat) (l : list A) : slice b n l ++ skipn (b + n) l = skipn b l.
Proof.
  unfold slice. rewrite <- (firstn_skipn n (skipn b l)) at 2. now rewrite skipn_add.
Qed.

Lemma slice_length {A} (b n : nat) (l : list A) : b + n <= length l -> length (slice b n l) = n.
Proof. intro H. unfold slice. rewrite firstn_length, skipn_length. lia. Qed.

Lemma split_loop_spec {A} (es : list A) k : forall b chunk r,
  r <= k -> length es = b + (S k * chunk + r) ->
  exists rs, split_loop k b (length es) chunk r = Ok rs
    /\ length rs = S k
    /\ concat (map (fun x => slice (fst x) (snd x - fst x) es) rs) = skipn b es
    /\ forall i, i < S k ->
         length (nth i (map (fun x => slice (fst x) (snd x - fst x) es) rs) [])
         = chunk + (if i <? r then 1 else 0).
Proof.
  induction k as [|k IH]; intros b chunk r Hr Hl.
  - exists [(b, length es)]. cbn [split_loop map concat fst snd length].
    repeat split; auto.
    + rewrite app_nil_r, slice_all by lia. reflexivity.
    + intros i Hi. assert (i = 0) by lia. subst i. cbn [nth].
      rewrite slice_length by lia. replace r with 0 in * by lia.
      replace (0 <? 0) with false by reflexivity. lia.
  - cbn [split_loop].
    set (a := if r =? 0 then 0 else 1).
    set (r' := if r =? 0 then r else r - 1).
    assert (Ha : a + r' = r) by (unfold a, r'; destruct (r =? 0) eqn:E; lia).
    assert (Hr' : r' <= k) by (unfold r'; destruct (r =? 0) eqn:E; lia).
    destruct (length es <? b + (chunk + a)) eqn:E.
    { exfalso. apply Nat.ltb_lt in E. nia. }
    destruct (IH (b + (chunk + a)) chunk r' Hr') as (rs & E1 & E2 & E3 & E4); [nia|].
    rewrite E1. cbn [bind]. eexists. split; [reflexivity|].
    split; [cbn; lia|]. split.
    + cbn [map concat fst snd]. rewrite E3.
      replace (b + (chunk + a) - b) with (chunk + a) by lia.
      apply slice_skipn.
    + intros [|i] Hi; cbn [map nth fst snd].
      * replace (b + (chunk + a) - b) with (chunk + a) by lia.
        rewrite slice_length by nia. f_equal. unfold a.
        destruct (r =? 0) eqn:F; destruct (0 <? r) eqn:G; lia.
      * rewrite E4 by lia. f_equal. unfold r'.
        destruct (r =? 0) eqn:F; destruct (i <? _) eqn:G; destruct (S i <? r) eqn:K; lia.
Qed.

Lemma split_set_spec {A} (es : list A) p : 0 < p ->
  exists ps, split_set p es = Ok ps /\ length ps = p /\ concat ps = es
    /\ forall i, i < p -> length (nth i ps []) = patch_size (length es) p i.
Proof.
  intro Hp. unfold split_set.
  destruct (split_loop_spec es (p - 1) 0 (length es / p) (length es mod p)) as (rs & E1 & E2 & E3 & E4).
  - pose proof (Nat.mod_upper_bound (length es) p). lia.
  - replace (S (p - 1)) with p by lia. cbn [Nat.add]. apply Nat.div_mod. lia.
  - rewrite E1. cbn [bind]. eexists. split; [reflexivity|].
    rewrite map_length. split; [lia|]. split; [exact E3|].
    intros i Hi. apply E4. lia.
Qed.

Lemma choose_pos dim p n : 0 < choose_patches dim p n.
Proof. unfold choose_patches. destruct (p =? 0) eqn:E; lia. Qed.

Lemma choose_fix dim p n : 0 < p -> choose_patches dim p n = p.
Proof. unfold choose_patches. destruct (p =? 0) eqn:E; lia. Qed.

Lemma foldM_last {A S} (f : S -> A -> res S) l a s :
  foldM f (l ++ [a]) s = let* s' := foldM f l s in f s' a.
Proof.
  rewrite foldM_app. destruct (foldM f l s); cbn; try reflexivity.
  destruct (f a0 a); reflexivity.
Qed.

Lemma split_updates_spec {A} dim (p : nat) : 0 < p -> forall (us : list (list A)) ps,
  exists r, foldM (split_update dim) us (p, ps) = Ok (p, r).
Proof.
  intros Hp us. induction us as [|u us IH]; intro ps; cbn [foldM]; [eauto|].
  unfold split_update at 1. cbn [fst]. rewrite choose_fix by auto.
  destruct (split_set_spec u p Hp) as (r & -> & _). cbn [bind]. apply IH.
Qed.

Lemma split_history_spec {A} dim p (es : list A) us :
  let q := choose_patches dim p (length es) in
  exists ps, split_history dim p es us = Ok (q, ps)
    /\ split_set q (last us es) = Ok ps.
Proof.
  cbn zeta. unfold split_history.
  set (q := choose_patches dim p (length es)).
  assert (Hq : 0 < q) by apply choose_pos.
  cbn [foldM]. unfold split_update at 1. cbn [fst]. fold q.
  destruct (split_set_spec es q Hq) as (r0 & E0 & _). rewrite E0. cbn [bind].
  destruct (exists_last (l := es :: us)) as (l & a & El); [discriminate|].
  destruct us as [|u us].
  - cbn [foldM last]. eauto.
  - assert (Hl : last (u :: us) es = a).
    { change (last (u :: us) es) with (last (es :: u :: us) es). rewrite El. apply last_last. }
    rewrite Hl. destruct l as [|x l]; [discriminate El|].
    cbn in El. injection El as _ El. rewrite El. rewrite foldM_last.
    destruct (split_updates_spec dim q Hq l r0) as (r1 & ->). cbn [bind].
    unfold split_update. cbn [fst]. rewrite choose_fix by auto.
    destruct (split_set_spec a q Hq) as (r2 & E2 & _). rewrite E2. cbn [bind]. eauto.
Qed.

(** METIS: the elements of part [k], in the order of the entity set. *)
Definition part_elems {A} (es : list A) (ep : list nat) (k : nat) : list A :=
  map fst (filter (fun x => snd x =? k) (combine es ep)).

Lemma metis_assign_spec {A} p : forall (l : list (A * nat)) (sp : list (list A)),
  length sp = p -> Forall (fun x => snd x < p) l ->
  exists r, foldM (fun sp ip => match nth_error sp (snd ip) with
                                | Some y => Ok (upd (snd ip) (y ++ [fst ip]) sp)
                                | None => UB end) l sp = Ok r
    /\ length r = p
    /\ forall k, k < p -> nth k r [] = nth k sp [] ++ map fst (filter (fun x => snd x =? k) l).
Proof.
  induction l as [|[a i] l IH]; intros sp Hs Hf.
  - cbn. exists sp. repeat split; auto. intros. now rewrite app_nil_r.
  - inversion Hf as [|? ? Hi Hf']; subst. cbn [snd] in Hi. cbn [foldM fst snd].
    destruct (nth_error sp i) as [y|] eqn:E.
    2:{ apply nth_error_None in E. lia. }
    cbn [bind]. destruct (IH (upd i (y ++ [a]) sp)) as (r & E1 & E2 & E3).
    { now rewrite upd_length. } { assumption. }
    exists r. split; [exact E1|]. split; [exact E2|]. intros k Hk. rewrite E3 by auto.
    cbn [filter snd]. destruct (i =? k) eqn:F.
    + apply Nat.eqb_eq in F. subst k. rewrite upd_nth_same by auto.
      cbn [map fst]. rewrite <- app_assoc. cbn [app].
      f_equal. symmetry. now apply nth_error_nth.
    + apply Nat.eqb_neq in F. rewrite upd_nth_other by auto. reflexivity.
Qed.

Lemma parts_perm {A} p : forall (l : list (A * nat)),
  Forall (fun x => snd x < p) l ->
  Permutation (concat (map (fun k => map fst (filter (fun x => snd x =? k) l)) (seq 0 p))) (map fst l).
Proof.
  induction l as [|[a i] l IH]; intro Hf.
  - cbn. induction (seq 0 p); cbn; auto.
  - inversion Hf as [|? ? Hi Hf']; subst. cbn [snd] in Hi.
    replace (seq 0 p) with (seq 0 i ++ i :: seq (S i) (p - S i)) in *.
    2:{ rewrite <- (Nat.add_0_l i) at 2. replace (seq (S i) (p - S i)) with (seq (0 + S i) (p - S i)) by reflexivity.
        replace (0 + i :: seq (0 + S i) (p - S i)) with (seq (0 + i) (p - i)).
        - rewrite <- seq_app. f_equal. lia.
        - replace (p - i) with (S (p - S i)) by lia. reflexivity. }
    specialize (IH Hf'). rewrite map_app, concat_app in *. cbn [map concat] in *.
    assert (E : forall s n, ~ (s <= i < s + n) ->
        map (fun k => map fst (filter (fun x : A * nat => snd x =? k) ((a, i) :: l))) (seq s n)
        = map (fun k => map fst (filter (fun x => snd x =? k) l)) (seq s n)).
    { intros s n H. apply map_ext_in. intros k Hk. apply in_seq in Hk. cbn [filter snd].
      replace (i =? k) with false; auto. symmetry. apply Nat.eqb_neq. lia. }
    rewrite !E by lia. cbn [filter snd]. rewrite Nat.eqb_refl. cbn [map fst app].
    rewrite <- Permutation_middle. constructor. exact IH.
Qed.

Lemma map_fst_combine {A B} : forall (l : list A) (l' : list B),
  length l = length l' -> map fst (combine l l') = l.
Proof.
  induction l as [|a l IH]; intros [|b l'] H; cbn in *; try discriminate; auto.
  f_equal. apply IH. lia.
Qed.

Lemma metis_spec {A} p (es : list A) ep :
  length ep = length es -> Forall (fun k => k < p) ep ->
  exists r, metis_assign p ep es = Ok r /\ length r = p
    /\ (forall k, k < p -> nth k r [] = part_elems es ep k)
    /\ Permutation (concat r) es.
Proof.
  intros Hl Hf. unfold metis_assign.
  assert (Hf' : Forall (fun x : A * nat => snd x < p) (combine es ep)).
  { apply Forall_forall. intros [a k] H. apply in_combine_r in H.
    rewrite Forall_forall in Hf. now apply Hf. }
  destruct (metis_assign_spec p (combine es ep) (repeat [] p)) as (r & E1 & E2 & E3); auto.
  { apply repeat_length. }
  assert (E4 : forall k, k < p -> nth k r [] = part_elems es ep k).
  { intros k Hk. rewrite E3 by auto. rewrite nth_repeat. reflexivity. }
  exists r. repeat split; auto.
  replace r with (map (part_elems es ep) (seq 0 p)).
  - transitivity (map fst (combine es ep)).
    + unfold part_elems. now apply parts_perm.
    + rewrite map_fst_combine by auto. reflexivity.
  - apply nth_ext with (d := []) (d' := []).
    + rewrite map_length, seq_length. auto.
    + rewrite map_length, seq_length. intros n Hn. rewrite E4 by auto.
      rewrite (nth_indep _ [] (part_elems es ep 0)) by (rewrite map_length, seq_length; auto).
      rewrite map_nth, seq_nth by auto. reflexivity.
Qed.
