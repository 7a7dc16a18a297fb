(** Proofs about finite element maps: orientations and state. *)
From Verif Require Import Common CommonFacts FemModel FemSpec.

(** *** Vertex maps *)
Ltac decide_ltb :=
  repeat match goal with
  | |- context [?a <? ?b] =>
      first [ replace (a <? b) with true by (symmetry; apply Nat.ltb_lt; lia)
            | replace (a <? b) with false by (symmetry; apply Nat.ltb_ge; lia) ]
  end.

Lemma pk2_find_ranks n0 n1 n2 : NoDup [n0; n1; n2] -> pk2_find n0 n1 n2 = Ok (ranks [n0; n1; n2]).
Proof.
  intros H. inversion_clear H as [|? ? H0 H']. inversion_clear H' as [|? ? H1 _]. cbn in H0, H1.
  assert (n0 <> n1) by (intros ->; apply H0; auto). assert (n0 <> n2) by (intros ->; apply H0; auto). assert (n1 <> n2) by (intros ->; apply H1; auto).
  unfold pk2_find, ranks, rank. cbn [map filter].
  destruct (Nat.lt_ge_cases n0 n1); destruct (Nat.lt_ge_cases n0 n2); destruct (Nat.lt_ge_cases n1 n2); try lia; decide_ltb; reflexivity.
Qed.

Ltac decide_cmp :=
  repeat match goal with
  | |- context [?a <? ?b] =>
      first [ replace (a <? b) with true by (symmetry; apply Nat.ltb_lt; lia)
            | replace (a <? b) with false by (symmetry; apply Nat.ltb_ge; lia) ]
  | |- context [?a <=? ?b] =>
      first [ replace (a <=? b) with true by (symmetry; apply Nat.leb_le; lia)
            | replace (a <=? b) with false by (symmetry; apply Nat.leb_gt; lia) ]
  end.

Lemma pk3_min_at v0 v1 v2 v3 i m : m < 4 ->
  let v := [v0; v1; v2; v3] in
  i <= nth m v 0 -> (forall j, j < 4 -> j <> m -> nth j v 0 < i \/ nth m v 0 < nth j v 0) -> pk3_min v i = Some m.
Proof.
  intros Hm v Hi Hj. unfold pk3_min. cbn [seq fold_left]. subst v.
  pose proof (Hj 0) as J0. pose proof (Hj 1) as J1. pose proof (Hj 2) as J2. pose proof (Hj 3) as J3. clear Hj.
  assert (m = 0 \/ m = 1 \/ m = 2 \/ m = 3) as [-> | [-> | [-> | ->]]] by lia; cbn [nth] in *;
    repeat match goal with H : ?a < 4 -> _ |- _ => specialize (H ltac:(lia)) end;
    repeat match goal with H : ?a <> ?b -> _ |- _ => first [specialize (H ltac:(lia)) | clear H] end;
    cbn [andb];
    repeat (match goal with
      | |- context [?a <=? ?b] => destruct (Nat.leb_spec a b); cbn [andb nth]; try lia
      end);
    repeat (match goal with
      | |- context [?a <? ?b] => destruct (Nat.ltb_spec a b); cbn [andb nth]; try lia
      end); try reflexivity; lia.
Qed.

Lemma pk3_reduce_ranks n0 n1 n2 n3 : NoDup [n0; n1; n2; n3] -> pk3_reduce [n0; n1; n2; n3] = Ok (ranks [n0; n1; n2; n3]).
Proof.
  intros H. inversion_clear H as [|? ? H0 H']. inversion_clear H' as [|? ? H1 H'']. inversion_clear H'' as [|? ? H2 _]. cbn in H0, H1, H2.
  assert (n0 <> n1) by (intros ->; apply H0; auto). assert (n0 <> n2) by (intros ->; apply H0; auto). assert (n0 <> n3) by (intros ->; apply H0; auto).
  assert (n1 <> n2) by (intros ->; apply H1; auto). assert (n1 <> n3) by (intros ->; apply H1; auto). assert (n2 <> n3) by (intros ->; apply H2; auto).
  clear H0 H1 H2. unfold pk3_reduce, ranks, rank. cbn [map filter seq foldM].
  destruct (Nat.lt_ge_cases n0 n1); destruct (Nat.lt_ge_cases n0 n2); destruct (Nat.lt_ge_cases n0 n3);
    destruct (Nat.lt_ge_cases n1 n2); destruct (Nat.lt_ge_cases n1 n3); destruct (Nat.lt_ge_cases n2 n3); try lia; decide_cmp; cbn [length];
  repeat (match goal with |- context [pk3_min ?v ?i] =>
    first [ rewrite (pk3_min_at _ _ _ _ i 0) by (cbn [nth]; first [lia | intros [|[|[|[|j]]]] Hj Hn; cbn [nth]; lia])
          | rewrite (pk3_min_at _ _ _ _ i 1) by (cbn [nth]; first [lia | intros [|[|[|[|j]]]] Hj Hn; cbn [nth]; lia])
          | rewrite (pk3_min_at _ _ _ _ i 2) by (cbn [nth]; first [lia | intros [|[|[|[|j]]]] Hj Hn; cbn [nth]; lia])
          | rewrite (pk3_min_at _ _ _ _ i 3) by (cbn [nth]; first [lia | intros [|[|[|[|j]]]] Hj Hn; cbn [nth]; lia]) ]; cbn [bind upd] end); reflexivity.
Qed.
Lemma pk3_find_ranks n0 n1 n2 n3 : NoDup [n0; n1; n2; n3] -> pk3_find n0 n1 n2 n3 = Ok (ranks [n0; n1; n2; n3]).
Proof.
  intros H. unfold pk3_find. rewrite pk3_reduce_ranks by exact H. cbn [bind].
  inversion_clear H as [|? ? H0 H']. inversion_clear H' as [|? ? H1 H'']. inversion_clear H'' as [|? ? H2 _]. cbn in H0, H1, H2.
  assert (n0 <> n1) by (intros ->; apply H0; auto). assert (n0 <> n2) by (intros ->; apply H0; auto). assert (n0 <> n3) by (intros ->; apply H0; auto).
  assert (n1 <> n2) by (intros ->; apply H1; auto). assert (n1 <> n3) by (intros ->; apply H1; auto). assert (n2 <> n3) by (intros ->; apply H2; auto).
  clear H0 H1 H2. unfold ranks, rank. cbn [map filter].
  destruct (Nat.lt_ge_cases n0 n1); destruct (Nat.lt_ge_cases n0 n2); destruct (Nat.lt_ge_cases n0 n3);
    destruct (Nat.lt_ge_cases n1 n2); destruct (Nat.lt_ge_cases n1 n3); destruct (Nat.lt_ge_cases n2 n3); try lia; decide_cmp; vm_compute; reflexivity.
Qed.

Lemma rank_le x y l : x <= y -> rank x l <= rank y l.
Proof.
  intros H. unfold rank. induction l as [|z l IH]; cbn [filter]; [lia|].
  destruct (Nat.ltb_spec z x); destruct (Nat.ltb_spec z y); cbn [length]; lia.
Qed.
Lemma rank_lt x y l : In x l -> x < y -> rank x l < rank y l.
Proof.
  intros Hx H. unfold rank. induction l as [|z l IH]; [destruct Hx|]. cbn [filter].
  pose proof (rank_le x y l ltac:(lia)) as Q. unfold rank in Q. destruct Hx as [->|Hx].
  - destruct (Nat.ltb_spec x x); [lia|]. destruct (Nat.ltb_spec x y); [|lia]. cbn [length]. lia.
  - specialize (IH Hx). destruct (Nat.ltb_spec z x); destruct (Nat.ltb_spec z y); cbn [length]; lia.
Qed.
Lemma rank_lt_iff x y l : In x l -> In y l -> (rank x l < rank y l <-> x < y).
Proof.
  intros Hx Hy. split; [|apply rank_lt, Hx]. intros H. destruct (Nat.lt_ge_cases x y) as [L|L]; [exact L|]. pose proof (rank_le y x l L). lia.
Qed.
Lemma rank_bound x l : In x l -> rank x l < length l.
Proof.
  intros H. unfold rank. induction l as [|z l IH]; [destruct H|]. cbn [filter]. assert (B : forall l', length (filter (fun y => y <? x) l') <= length l').
  { clear. induction l' as [|z l' IH]; cbn [filter]; [lia|]. destruct (z <? x); cbn [length]; lia. }
  destruct H as [->|H].
  - destruct (Nat.ltb_spec x x); [lia|]. specialize (B l). cbn [length]. lia.
  - specialize (IH H). destruct (z <? x); cbn [length]; lia.
Qed.
Lemma nth_ranks l i : i < length l -> nth i (ranks l) 0 = rank (nth i l 0) l.
Proof. intros H. unfold ranks. rewrite (nth_indep _ 0 (rank 0 l)) by (rewrite map_length; exact H). apply (map_nth (fun x => rank x l)). Qed.
Lemma ranks_order l i j : i < length l -> j < length l -> (nth i (ranks l) 0 < nth j (ranks l) 0 <-> nth i l 0 < nth j l 0).
Proof. intros Hi Hj. rewrite !nth_ranks by assumption. apply rank_lt_iff; apply nth_In; assumption. Qed.

Lemma edge_dof_ranks k l a b s : NoDup l -> a < length l -> b < length l -> a <> b -> 1 <= s -> s < k ->
  edge_dof k (ranks l) a b s = if nth a l 0 <? nth b l 0 then s - 1 else k - 1 - s.
Proof.
  intros ND Ha Hb Hn Hs Hk. unfold edge_dof. cbv zeta.
  assert (Ne : nth a l 0 <> nth b l 0) by (intros E; apply Hn; eapply NoDup_nth; eauto).
  pose proof (ranks_order l a b Ha Hb) as O1. pose proof (ranks_order l b a Hb Ha) as O2.
  destruct (Nat.ltb_spec a b) as [L|L].
  - rewrite Nat.max_r, Nat.min_l by lia. destruct (Nat.ltb_spec (nth b (ranks l) 0) (nth a (ranks l) 0)); destruct (Nat.ltb_spec (nth a l 0) (nth b l 0)); lia.
  - rewrite Nat.max_l, Nat.min_r by lia. destruct (Nat.ltb_spec (nth a (ranks l) 0) (nth b (ranks l) 0)); destruct (Nat.ltb_spec (nth a l 0) (nth b l 0)); lia.
Qed.

(** *** Faces *)
Lemma testbit_byte x i : i < 8 -> N.testbit (byte x) (N.of_nat i) = N.testbit x (N.of_nat i).
Proof. intros H. unfold byte. change 256%N with (2 ^ 8)%N. apply N.mod_pow2_bits_low. lia. Qed.
Lemma testbit_shift f i : N.testbit (N.shiftl 1 (N.of_nat f)) (N.of_nat i) = (f =? i).
Proof.
  rewrite N.shiftl_1_l, N.pow2_bits_eqb. destruct (Nat.eqb_spec f i) as [->|H]; [apply N.eqb_refl|]. apply N.eqb_neq. lia.
Qed.
Definition up (me : nat) (f : nat) (i : inter) : bool := (fst i =? f) && match snd i with Some out => me <? out | None => false end.
Lemma rt_orient_bits me l f : f < 8 -> N.testbit (rt_orient me l) (N.of_nat f) = existsb (up me f) l.
Proof.
  intros Hf. unfold rt_orient. rewrite <- (orb_false_l (existsb _ _)). rewrite <- (N.bits_0 (N.of_nat f)). generalize 0%N as o.
  induction l as [|[g [out|]] l IH]; intros o; cbn [fold_left existsb up fst snd].
  - rewrite orb_false_r. reflexivity.
  - rewrite IH. destruct (me <? out) eqn:E.
    + rewrite testbit_byte, N.lor_spec, testbit_shift by exact Hf. unfold up at 2. cbn [fst snd]. rewrite E, andb_true_r, orb_assoc. reflexivity.
    + unfold up at 2. cbn [fst snd]. rewrite E, andb_false_r. reflexivity.
  - rewrite IH. unfold up at 2. cbn [fst snd]. rewrite andb_false_r. reflexivity.
Qed.
Lemma rt_orient_bound me l n : n <= 8 -> (forall f o, In (f, o) l -> f < n) -> (rt_orient me l < 2 ^ N.of_nat n)%N.
Proof.
  intros Hn Hl. unfold rt_orient. assert (H0 : (0 < 2 ^ N.of_nat n)%N) by (pose proof (N.pow_nonzero 2 (N.of_nat n)); lia). revert H0. generalize 0%N as o.
  induction l as [|[g [out|]] l IH]; intros o Ho; cbn [fold_left snd fst]; [exact Ho| |apply IH; [intros; eapply Hl; right; eauto|exact Ho]].
  apply IH; [intros; eapply Hl; right; eauto|]. destruct (me <? out); [|exact Ho].
  assert (L : (N.lor o (N.shiftl 1 (N.of_nat g)) < 2 ^ N.of_nat n)%N).
  { assert (Hg : g < n) by (eapply Hl; left; reflexivity). apply N.div_small_iff; [apply N.pow_nonzero; lia|]. rewrite <- N.shiftr_div_pow2. apply N.bits_inj. intros i. rewrite N.shiftr_spec', N.bits_0, N.lor_spec, N.shiftl_1_l, N.pow2_bits_eqb.
    destruct (N.eqb_spec (N.of_nat g) (i + N.of_nat n)); [lia|]. rewrite orb_false_r.
    destruct (N.eq_dec o 0) as [->|Hz]; [apply N.bits_0|]. apply N.bits_above_log2. apply N.log2_lt_pow2 in Ho; lia. }
  unfold byte. rewrite N.mod_small; [exact L|]. eapply N.lt_le_trans; [exact L|]. change 256%N with (2 ^ 8)%N. apply N.pow_le_mono_r; lia.
Qed.
Lemma rt_new_nth cells i : i < length cells -> nth_error (rt_new cells) i = Some (rt_orient i (nth i cells [])).
Proof.
  intros H. unfold rt_new. rewrite nth_error_map. rewrite (nth_error_nth' _ 0) by (rewrite seq_length; exact H). rewrite seq_nth by exact H. reflexivity.
Qed.
Lemma rt_find_ok faces cells v i : faces <= 8 -> (2 ^ N.of_nat faces <= N.of_nat v)%N -> conforming faces cells -> i < length cells ->
  rt_find v (rt_new cells) i = Ok (rt_orient i (nth i cells [])).
Proof.
  intros Hf Hv C Hi. unfold rt_find. rewrite rt_new_nth by exact Hi. destruct (C (nth i cells [])) as [_ B]; [apply nth_In, Hi|].
  assert (L : (rt_orient i (nth i cells []) <? N.of_nat v)%N = true); [|rewrite L; reflexivity].
  apply N.ltb_lt. eapply N.lt_le_trans; [|exact Hv]. apply rt_orient_bound; assumption.
Qed.
Lemma rt_sign faces cells i f o : faces <= 8 -> conforming faces cells -> i < length cells -> In (f, o) (nth i cells []) ->
  N.testbit (rt_orient i (nth i cells [])) (N.of_nat f) = match o with Some j => i <? j | None => false end.
Proof.
  intros Hf C Hi Hin. destruct (C (nth i cells [])) as [ND B]; [apply nth_In, Hi|]. specialize (B f o Hin) as Bf.
  rewrite rt_orient_bits by lia. destruct (match o with Some j => i <? j | None => false end) eqn:E.
  - apply existsb_exists. exists (f, o). split; [exact Hin|]. unfold up. cbn. rewrite Nat.eqb_refl. exact E.
  - destruct (existsb (up i f) (nth i cells [])) eqn:X; [|reflexivity]. apply existsb_exists in X as ([f' o'] & H1 & H2). unfold up in H2. cbn in H2.
    apply andb_true_iff in H2 as [H2 H3]. apply Nat.eqb_eq in H2. subst f'.
    assert (Q : o' = o); [|subst o'; congruence].
    clear -ND Hin H1. induction (nth i cells []) as [|[g p] l IH]; [destruct Hin|]. cbn in ND. inversion_clear ND as [|? ? N1 N2].
    destruct Hin as [E1|Hin]; destruct H1 as [E2|H1].
    + congruence.
    + injection E1 as -> ->. exfalso. apply N1. apply in_map_iff. exists (f, o'). auto.
    + injection E2 as -> ->. exfalso. apply N1. apply in_map_iff. exists (f, o). auto.
    + apply IH; assumption.
Qed.

(** *** Edges *)
Definition flipped (vid : nat -> nat) (e : nat * nat) : bool := negb (Bool.eqb (snd e <? fst e) (vid (snd e) <? vid (fst e))).
Lemma edge_orient_bits edges vid i e : length edges <= 8 -> nth_error edges i = Some e ->
  N.testbit (edge_orient edges vid) (N.of_nat i) = flipped vid e.
Proof.
  intros HL Hi. unfold edge_orient.
  assert (G : forall es s o, s + length es <= 8 ->
    N.testbit (fold_left (fun o ie => let '(i, (v0, v1)) := ie in
      if negb (Bool.eqb (v1 <? v0) (vid v1 <? vid v0)) then byte (N.lor o (N.shiftl 1 (N.of_nat i))) else o) (combine (seq s (length es)) es) o) (N.of_nat i) =
    N.testbit o (N.of_nat i) || (s <=? i) && match nth_error es (i - s) with Some e => flipped vid e | None => false end).
  { induction es as [|[v0 v1] es IH]; intros s o Hs; cbn [length seq combine fold_left].
    - destruct (i - s); cbn; rewrite andb_false_r, orb_false_r; reflexivity.
    - cbn [length] in Hs. assert (Hi8 : i < 8) by (apply Nat.lt_le_trans with (length edges); [apply nth_error_Some; congruence|exact HL]).
      rewrite IH by lia. fold (flipped vid (v0, v1)). change (negb (Bool.eqb (v1 <? v0) (vid v1 <? vid v0))) with (flipped vid (v0, v1)).
      destruct (Nat.eq_dec s i) as [->|Hne].
      + rewrite Nat.sub_diag, Nat.leb_refl. replace (S i <=? i) with false by (symmetry; apply Nat.leb_gt; lia). cbn [nth_error andb orb]. rewrite orb_false_r.
        destruct (flipped vid (v0, v1)); [rewrite testbit_byte, N.lor_spec, testbit_shift, Nat.eqb_refl by exact Hi8; reflexivity|rewrite orb_false_r; reflexivity].
      + assert (E : N.testbit (if flipped vid (v0, v1) then byte (N.lor o (N.shiftl 1 (N.of_nat s))) else o) (N.of_nat i) = N.testbit o (N.of_nat i)).
        { destruct (flipped vid (v0, v1)); [|reflexivity]. rewrite testbit_byte, N.lor_spec, testbit_shift by exact Hi8. apply Nat.eqb_neq in Hne. rewrite Hne, orb_false_r. reflexivity. }
        rewrite E. destruct (Nat.leb_spec (S s) i); destruct (Nat.leb_spec s i); try (exfalso; lia); cbn [andb].
        * replace (i - s) with (S (i - S s)) by lia. reflexivity.
        * reflexivity. }
  rewrite G by lia. rewrite N.bits_0, Nat.sub_0_r, Hi. reflexivity.
Qed.
Lemma tangent_flipped vid e o i : fst e <> snd e -> vid (fst e) <> vid (snd e) -> N.testbit o (N.of_nat i) = flipped vid e ->
  vid (fst (tangent o i e)) < vid (snd (tangent o i e)).
Proof.
  intros H1 H2 H. unfold tangent. rewrite H. unfold flipped. destruct e as [v0 v1]. cbn [fst snd] in *.
  destruct (Nat.ltb_spec v1 v0); destruct (Nat.ltb_spec (vid v1) (vid v0)); cbn [Bool.eqb negb fst snd].
  all: first [rewrite Nat.min_l, Nat.max_r by lia | rewrite Nat.min_r, Nat.max_l by lia]; lia.
Qed.

(** *** Variable order *)
Definition v_run (sets : list (nat * N)) (m : vmap) : res vmap := foldM (fun m s => v_set m (fst s) (snd s)) sets m.
Lemma byte_small p : (p < 256)%N -> byte p = p. Proof. apply N.mod_small. Qed.
Lemma v_run_spec sets : forall m m', (v_maxP m < 256)%N -> v_run sets m = Ok m' ->
  v_maxP m' = v_maxP m /\ v_default m' = v_default m /\ length (v_orders m') = length (v_orders m) /\
  forall i, nth_error (v_orders m') i = match nth_error (v_orders m) i with None => None | Some p => Some (last_order p sets i) end.
Proof.
  induction sets as [|[j p] sets IH]; intros m m' HM; cbn [v_run foldM].
  - intros E. injection E as <-. repeat split. intros i. destruct (nth_error (v_orders m) i); reflexivity.
  - cbn [fst snd]. unfold v_set at 1. destruct (N.ltb_spec (v_maxP m) p); [discriminate|]. destruct (Nat.ltb_spec j (length (v_orders m))); [|discriminate].
    cbn [bind]. intros E. destruct (IH (mkvmap (v_default m) (upd j (byte p) (v_orders m)) (v_maxP m)) m' HM E) as (A & B & C & D). cbn [v_maxP v_default v_orders] in *. rewrite upd_length in C. repeat split; try assumption.
    intros i. rewrite D. unfold last_order. cbn [fold_left fst snd]. destruct (Nat.eqb_spec j i) as [->|Hn].
    + rewrite upd_nth_error_same by assumption. rewrite byte_small by lia. destruct (nth_error (v_orders m) i) eqn:X; [reflexivity|]. apply nth_error_None in X. lia.
    + rewrite upd_nth_error_other by assumption. reflexivity.
Qed.
Lemma v_run_ok sets : forall m, (forall i p, In (i, p) sets -> i < length (v_orders m) /\ (p <= v_maxP m)%N) -> exists m', v_run sets m = Ok m'.
Proof.
  induction sets as [|[j p] sets IH]; intros m H; [eexists; reflexivity|]. cbn [v_run foldM fst snd]. unfold v_set at 1.
  destruct (H j p (or_introl eq_refl)) as [H1 H2]. destruct (N.ltb_spec (v_maxP m) p); [lia|]. destruct (Nat.ltb_spec j (length (v_orders m))); [|lia]. cbn [bind].
  apply IH. intros i q Hq. cbn [v_orders v_maxP]. rewrite upd_length. apply H. right. exact Hq.
Qed.
