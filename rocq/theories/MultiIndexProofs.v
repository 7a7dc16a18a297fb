(** Proofs about multi-indices. *)
From Verif Require Import Common CommonFacts MultiIndexModel MultiIndexSpec.

Lemma upd_nth {A} n i (x d : A) l : n < length l -> nth i (upd n x l) d = if i =? n then x else nth i l d.
Proof.
  intros H. destruct (Nat.eqb_spec i n) as [->|E].
  - now apply upd_nth_same.
  - apply upd_nth_other; lia.
Qed.

Lemma nth_firstn_lt {A} i k (l : list A) d : i < k -> nth i (firstn k l) d = nth i l d.
Proof.
  revert i k; induction l as [|h t IH]; intros [|i] [|k] H; cbn; auto; try lia.
  apply IH; lia.
Qed.

(** A valid multi-index stands for [l] iff fill level and slots agree with it. *)
Lemma seq_of_iff m l : valid m ->
  (seq_of m = l <-> len m = length l /\ forall i, i < length l -> nth i (slots m) 0%N = nth i l 0%N).
Proof.
  unfold valid, seq_of. intros V. split.
  - intros <-. rewrite firstn_length, Nat.min_l by auto. split; auto.
    intros i H. now rewrite nth_firstn_lt.
  - intros [L H]. apply nth_ext with (d := 0%N) (d' := 0%N).
    + rewrite firstn_length. lia.
    + intros i Hi. rewrite firstn_length in Hi. rewrite nth_firstn_lt by lia. apply H; lia.
Qed.

Lemma seq_of_len m : valid m -> length (seq_of m) = len m.
Proof. unfold valid, seq_of. intros. rewrite firstn_length. lia. Qed.

Lemma shift_right_length k sl : length (shift_right k sl) = length sl.
Proof. revert sl; induction k as [|k IH]; intros sl; cbn [shift_right]; auto. now rewrite IH, upd_length. Qed.

Lemma shift_right_nth k sl i : k < length sl ->
  nth i (shift_right k sl) 0%N = if (1 <=? i) && (i <=? k) then nth (i - 1) sl 0%N else nth i sl 0%N.
Proof.
  revert sl; induction k as [|k IH]; intros sl H; cbn [shift_right].
  - destruct i; cbn; auto.
  - rewrite IH by (rewrite upd_length; lia).
    destruct (Nat.leb_spec 1 i), (Nat.leb_spec i k), (Nat.leb_spec i (S k)); cbn [andb]; try lia;
      rewrite ?upd_nth by lia.
    + destruct (Nat.eqb_spec (i - 1) (S k)); [lia|auto].
    + destruct (Nat.eqb_spec i (S k)); [subst; f_equal; lia|lia].
    + destruct (Nat.eqb_spec i (S k)); [lia|auto].
    + destruct (Nat.eqb_spec i (S k)); [lia|auto].
Qed.

Lemma copy_fwd_length k a b sl : length (copy_fwd k a b sl) = length sl.
Proof. revert a b sl; induction k as [|k IH]; intros a b sl; cbn [copy_fwd]; auto. now rewrite IH, upd_length. Qed.

Lemma copy_fwd_nth k to sl i : to + k < length sl ->
  nth i (copy_fwd k (S to) to sl) 0%N = if (to <=? i) && (i <? to + k) then nth (S i) sl 0%N else nth i sl 0%N.
Proof.
  revert to sl; induction k as [|k IH]; intros to sl H; cbn [copy_fwd].
  - destruct (Nat.leb_spec to i), (Nat.ltb_spec i (to + 0)); cbn [andb]; auto; lia.
  - rewrite IH by (rewrite upd_length; lia).
    destruct (Nat.leb_spec to i), (Nat.leb_spec (S to) i), (Nat.ltb_spec i (S to + k)),
      (Nat.ltb_spec i (to + S k)); cbn [andb]; try lia; rewrite ?upd_nth by lia.
    + destruct (Nat.eqb_spec (S i) to); [lia|auto].
    + destruct (Nat.eqb_spec i to); [lia|auto].
    + destruct (Nat.eqb_spec i to); [now subst|lia].
    + destruct (Nat.eqb_spec i to); [lia|auto].
Qed.

Lemma write_range_length xs to sl : length (write_range xs to sl) = length sl.
Proof. revert to sl; induction xs as [|x xs IH]; intros to sl; cbn [write_range]; auto. now rewrite IH, upd_length. Qed.

Lemma write_range_nth xs to sl i : to + length xs <= length sl ->
  nth i (write_range xs to sl) 0%N =
  if (to <=? i) && (i <? to + length xs) then nth (i - to) xs 0%N else nth i sl 0%N.
Proof.
  revert to sl; induction xs as [|x xs IH]; intros to sl H; cbn [write_range length] in *.
  - destruct (Nat.leb_spec to i), (Nat.ltb_spec i (to + 0)); cbn [andb]; auto; lia.
  - rewrite IH by (rewrite upd_length; lia).
    destruct (Nat.leb_spec to i), (Nat.leb_spec (S to) i), (Nat.ltb_spec i (S to + length xs)),
      (Nat.ltb_spec i (to + S (length xs))); cbn [andb]; try lia; rewrite ?upd_nth by lia.
    + replace (i - to) with (S (i - S to)) by lia. auto.
    + destruct (Nat.eqb_spec i to); [lia|auto].
    + destruct (Nat.eqb_spec i to); [subst; now rewrite Nat.sub_diag|lia].
    + destruct (Nat.eqb_spec i to); [lia|auto].
Qed.

Lemma swaps_spec sz sl j : sz <= length sl -> 2 * j <= sz ->
  let s := fold_left (fun s i => swap i (sz - 1 - i) s) (seq 0 j) sl in
  length s = length sl /\
  forall i, nth i s 0%N = if (i <? j) || ((sz - j <=? i) && (i <? sz)) then nth (sz - 1 - i) sl 0%N else nth i sl 0%N.
Proof.
  intros L. induction j as [|j IH]; intros H; cbn zeta.
  - cbn [seq fold_left]. split; auto. intros i.
    destruct (Nat.ltb_spec i 0), (Nat.leb_spec (sz - 0) i), (Nat.ltb_spec i sz); cbn [orb andb]; auto; lia.
  - rewrite seq_S, fold_left_app. cbn [fold_left plus].
    destruct IH as [IL IN]; [lia|]. set (s := fold_left _ (seq 0 j) sl) in *. clearbody s.
    unfold swap. rewrite !upd_length. split; auto. intros i.
    rewrite upd_nth by (rewrite upd_length; lia). rewrite upd_nth by lia. rewrite !IN.
    destruct (Nat.eqb_spec i (sz - 1 - j)) as [E1|E1]; [|destruct (Nat.eqb_spec i j) as [E2|E2]];
      repeat match goal with
      | |- context [ ?a <? ?b ] => destruct (Nat.ltb_spec a b)
      | |- context [ ?a <=? ?b ] => destruct (Nat.leb_spec a b)
      end; cbn [orb andb]; try lia; auto; f_equal; lia.
Qed.

Lemma reverse_slots_spec sz sl : sz <= length sl ->
  length (reverse_slots sz sl) = length sl /\
  forall i, i < sz -> nth i (reverse_slots sz sl) 0%N = nth (sz - 1 - i) sl 0%N.
Proof.
  intros L. unfold reverse_slots.
  assert (H2 : 2 * (sz / 2) <= sz) by (pose proof (Nat.mul_div_le sz 2); lia).
  assert (H3 : sz <= 2 * (sz / 2) + 1).
  { pose proof (Nat.div_mod sz 2). pose proof (Nat.mod_upper_bound sz 2). lia. }
  destruct (swaps_spec sz sl (sz / 2) L H2) as [IL IN]. split; auto.
  intros i Hi. rewrite IN.
  destruct (Nat.ltb_spec i (sz / 2)), (Nat.leb_spec (sz - sz / 2) i), (Nat.ltb_spec i sz); cbn [orb andb]; auto; try lia.
  f_equal; lia.
Qed.

Lemma nth_removelast {A} (l : list A) i d : i < length l - 1 -> nth i (removelast l) d = nth i l d.
Proof.
  revert i; induction l as [|h t IH]; intros i H; [cbn in H; lia|].
  destruct t as [|h' t']; [cbn in H; lia|]. destruct i; cbn in *; auto. apply IH. lia.
Qed.

Lemma length_removelast {A} (l : list A) : length (removelast l) = length l - 1.
Proof. induction l as [|h [|h' t'] IH]; cbn in *; auto. rewrite IH. lia. Qed.

Lemma last_nth {A} (l : list A) d : last l d = nth (length l - 1) l d.
Proof. induction l as [|h [|h' t'] IH]; cbn in *; auto. rewrite IH. now rewrite Nat.sub_0_r. Qed.

(** One call refines the list operation. *)
Definition refines (m : mi) (l : list N) : Prop := valid m /\ seq_of m = l.

Lemma step_ok m l o l' : refines m l -> (forall tl, o = OJoin tl -> valid tl) ->
  lstep (cap m) l o = Some l' -> exists m', step m o = Ok m' /\ cap m' = cap m /\ refines m' l'.
Proof.
  intros [V S] A. pose proof V as V0. apply seq_of_iff in S; auto. destruct S as [L S].
  unfold valid in V. unfold cap.
  destruct o as [x|x| | |x| |t|t|tl| ]; cbn [lstep step]; intros H.
  - (* push_back *)
    rewrite app_length in H. cbn [length] in H.
    destruct (Nat.leb_spec (length l + 1) (length (slots m))) as [C|]; [|discriminate]. injection H as <-.
    unfold cap in *. unfold push_back, cap. destruct (Nat.ltb_spec (len m) (length (slots m))); [|lia].
    eexists; split; [reflexivity|]. cbn [slots]. rewrite upd_length. split; auto.
    assert (V' : valid (mkmi (upd (len m) x (slots m)) (Datatypes.S (len m)))).
    { unfold valid; cbn [slots len]. rewrite upd_length. lia. }
    split; auto. apply seq_of_iff; auto. cbn [slots len]. rewrite app_length. cbn [length]. split; [lia|].
    intros i Hi. rewrite upd_nth by lia. destruct (Nat.eqb_spec i (len m)) as [->|E].
    + rewrite L, app_nth2, Nat.sub_diag by lia. reflexivity.
    + rewrite app_nth1 by lia. apply S; lia.
  - (* push_front *)
    cbn [length] in H. destruct (Nat.leb_spec (Datatypes.S (length l)) (length (slots m))) as [C|]; [|discriminate]. injection H as <-.
    unfold cap in *. unfold push_front, resize, cap.
    destruct (Nat.leb_spec (len m + 1) (length (slots m))); [|lia]. cbn [bind slots].
    eexists; split; [reflexivity|]. cbn [slots]. rewrite upd_length, shift_right_length. split; auto.
    match goal with |- refines ?m' _ => assert (V' : valid m') end.
    { unfold valid; cbn [slots len]. rewrite upd_length, shift_right_length. lia. }
    split; auto. apply seq_of_iff; auto. cbn [slots len length]. split; [lia|].
    intros i Hi. rewrite upd_nth by (rewrite shift_right_length; lia).
    destruct (Nat.eqb_spec i 0) as [->|E]; [reflexivity|].
    rewrite shift_right_nth by lia.
    destruct (Nat.leb_spec 1 i), (Nat.leb_spec i (len m + 1 - 1)); cbn [andb]; try lia.
    rewrite S by lia. destruct i; [lia|]. cbn. now rewrite Nat.sub_0_r.
  - (* pop_back *)
    destruct l as [|h t]; [discriminate|]. injection H as <-. unfold pop_back. cbn [length] in L.
    destruct (len m) as [|k] eqn:E; [lia|]. eexists; split; [reflexivity|]. split; auto.
    match goal with |- refines ?m' _ => assert (V' : valid m') end.
    { unfold valid; cbn [slots len]. lia. }
    split; auto. apply seq_of_iff; auto. change (match t with [] => [] | _ :: _ => h :: removelast t end) with (removelast (h :: t)).
    rewrite length_removelast. cbn [slots len length]. split; [lia|].
    intros i Hi. rewrite nth_removelast by (cbn [length]; lia). apply S; cbn [length]; lia.
  - (* pop_front *)
    destruct l as [|h t]; [discriminate|]. injection H as <-. unfold pop_front. cbn [length] in L.
    destruct (Nat.eqb_spec (len m) 0); [lia|].
    destruct (Nat.ltb_spec 1 (len m)).
    + unfold resize, cap. cbn [slots]. rewrite copy_fwd_length.
      destruct (Nat.leb_spec (len m - 1) (length (slots m))); [|lia].
      eexists; split; [reflexivity|]. cbn [slots]. rewrite copy_fwd_length. split; auto.
      match goal with |- refines ?m' _ => assert (V' : valid m') end.
      { unfold valid; cbn [slots len]. rewrite copy_fwd_length. lia. }
      split; auto. apply seq_of_iff; auto. cbn [slots len]. split; [lia|].
      intros i Hi. rewrite copy_fwd_nth by lia.
      destruct (Nat.leb_spec 0 i), (Nat.ltb_spec i (0 + (len m - 1))); cbn [andb]; try lia.
      rewrite S by (cbn [length]; lia). reflexivity.
    + unfold resize, cap. cbn [slots].
      destruct (Nat.leb_spec (len m - 1) (length (slots m))); [|lia].
      eexists; split; [reflexivity|]. cbn [slots]. split; auto.
      match goal with |- refines ?m' _ => assert (V' : valid m') end.
      { unfold valid; cbn [slots len]. lia. }
      split; auto. apply seq_of_iff; auto. cbn [slots len]. split; [lia|]. intros i Hi. lia.
  - (* set *)
    cbn [length] in H. destruct (Nat.leb_spec 1 (length (slots m))) as [C|]; [|discriminate]. injection H as <-.
    unfold cap in *. unfold set_, clear, push_back, cap. cbn [len slots].
    destruct (Nat.ltb_spec 0 (length (slots m))); [|lia].
    eexists; split; [reflexivity|]. cbn [slots]. rewrite upd_length. split; auto.
    match goal with |- refines ?m' _ => assert (V' : valid m') end.
    { unfold valid; cbn [slots len]. rewrite upd_length. lia. }
    split; auto. apply seq_of_iff; auto. cbn [slots len length]. split; auto.
    intros i Hi. rewrite upd_nth by lia. destruct (Nat.eqb_spec i 0); [subst; auto|lia].
  - (* clear *)
    injection H as <-. eexists; split; [reflexivity|]. split; auto. split; [unfold valid; cbn; lia|reflexivity].
  - (* accumulate_back *)
    destruct l as [|h r0] eqn:El; [discriminate|]. rewrite <- El in *. injection H as <-.
    assert (len m = Datatypes.S (length r0)) as L' by (rewrite L, El; reflexivity).
    unfold accumulate_back, back, at_.
    destruct (len m) as [|k] eqn:E; [lia|]. destruct (Nat.ltb_spec k (Datatypes.S k)); [|lia].
    rewrite (nth_error_nth' _ 0%N) by lia. cbn [bind].
    eexists; split; [reflexivity|]. cbn [slots]. rewrite upd_length. split; auto.
    match goal with |- refines ?m' _ => assert (V' : valid m') end.
    { unfold valid; cbn [slots len]. rewrite upd_length. lia. }
    split; auto. apply seq_of_iff; auto. cbn [slots len]. rewrite app_length, length_removelast. cbn [length].
    split; [lia|]. intros i Hi. rewrite upd_nth by lia.
    destruct (Nat.eqb_spec i (Datatypes.S k - 1)) as [->|Ei].
    + rewrite app_nth2 by (rewrite length_removelast; lia). rewrite length_removelast.
      replace (Datatypes.S k - 1 - (length l - 1)) with 0 by lia. cbn [nth].
      unfold acc. rewrite last_nth, S by lia. replace (length l - 1) with k by lia. reflexivity.
    + rewrite app_nth1 by (rewrite length_removelast; lia). rewrite nth_removelast by lia. apply S; lia.
  - (* accumulate_front *)
    destruct l as [|h r] eqn:El; [discriminate|]. injection H as <-. cbn [length] in L.
    unfold accumulate_front, front, at_.
    destruct (Nat.ltb_spec 0 (len m)); [|lia].
    rewrite (nth_error_nth' _ 0%N) by lia. cbn [bind].
    eexists; split; [reflexivity|]. cbn [slots]. rewrite upd_length. split; auto.
    match goal with |- refines ?m' _ => assert (V' : valid m') end.
    { unfold valid; cbn [slots len]. rewrite upd_length. lia. }
    split; auto. apply seq_of_iff; auto. cbn [slots len length].
    split; [lia|]. intros i Hi. rewrite upd_nth by lia. rewrite S by (cbn [length]; lia).
    destruct (Nat.eqb_spec i 0) as [->|Ei]; [reflexivity|].
    rewrite S by (cbn [length]; lia). destruct i; [lia|reflexivity].
  - (* join *)
    assert (Vt : valid tl) by (apply A; auto). pose proof (seq_of_len tl Vt) as Lt.
    rewrite app_length, Lt in H.
    destruct (Nat.leb_spec (length l + len tl) (length (slots m))) as [C|]; [|discriminate]. injection H as <-.
    unfold cap in *. unfold join, resize, cap.
    destruct (Nat.leb_spec (len m + len tl) (length (slots m))); [|lia]. cbn [bind slots len].
    eexists; split; [reflexivity|]. cbn [slots]. rewrite write_range_length. split; auto.
    match goal with |- refines ?m' _ => assert (V' : valid m') end.
    { unfold valid; cbn [slots len]. rewrite write_range_length. lia. }
    split; auto. apply seq_of_iff; auto. cbn [slots len]. rewrite app_length, Lt. split; [lia|].
    intros i Hi. change (range tl) with (seq_of tl). rewrite write_range_nth by lia. rewrite Lt.
    destruct (Nat.leb_spec (len m) i), (Nat.ltb_spec i (len m + len tl)); cbn [andb]; try lia.
    + rewrite app_nth2 by lia. now rewrite L.
    + rewrite app_nth1 by lia. apply S; lia.
  - (* reverse *)
    injection H as <-. unfold reverse, cap. eexists; split; [reflexivity|].
    destruct (reverse_slots_spec (len m) (slots m) V) as [RL RN].
    destruct (Nat.ltb_spec 1 (length (slots m))).
    + cbn [slots]. split; auto.
      match goal with |- refines ?m' _ => assert (V' : valid m') end.
      { unfold valid; cbn [slots len]. lia. }
      split; auto. apply seq_of_iff; auto. cbn [slots len]. rewrite rev_length. split; auto.
      intros i Hi. rewrite RN, rev_nth, S by lia. f_equal. lia.
    + split; auto. split; auto. apply seq_of_iff; auto. rewrite rev_length. split; auto.
      intros i Hi. rewrite rev_nth by lia. rewrite S by lia. f_equal. lia.
Qed.

Lemma step_ub m l o : refines m l -> (forall tl, o = OJoin tl -> valid tl) ->
  lstep (cap m) l o = None -> step m o = UB.
Proof.
  intros [V S] A H. pose proof (seq_of_len m V) as L. rewrite S in L.
  destruct o as [x|x| | |x| |t|t|tl| ]; cbn [lstep step] in *.
  - rewrite app_length in H. cbn [length] in H.
    destruct (Nat.leb_spec (length l + 1) (cap m)); [discriminate|].
    unfold push_back. destruct (Nat.ltb_spec (len m) (cap m)); [lia|auto].
  - cbn [length] in H. destruct (Nat.leb_spec (Datatypes.S (length l)) (cap m)); [discriminate|].
    unfold push_front, resize. destruct (Nat.leb_spec (len m + 1) (cap m)); [lia|auto].
  - destruct l; [|discriminate]. cbn in L. unfold pop_back. now rewrite <- L.
  - destruct l; [|discriminate]. cbn in L. unfold pop_front. now rewrite <- L.
  - cbn [length] in H. destruct (Nat.leb_spec 1 (cap m)); [discriminate|].
    unfold set_, push_back, clear. cbn [len]. destruct (Nat.ltb_spec 0 (cap (mkmi (slots m) 0))); [|auto].
    unfold cap in *; cbn in *; lia.
  - discriminate.
  - destruct l; [|discriminate]. cbn in L. unfold accumulate_back, back. now rewrite <- L.
  - destruct l; [|discriminate]. cbn in L. unfold accumulate_front, front, at_. now rewrite <- L.
  - assert (Vt : valid tl) by (apply A; auto). pose proof (seq_of_len tl Vt) as Lt.
    rewrite app_length, Lt in H.
    destruct (Nat.leb_spec (length l + len tl) (cap m)); [discriminate|].
    unfold join. destruct (Nat.leb_spec (len m + len tl) (cap m)); [lia|auto].
  - discriminate.
Qed.

Lemma run_from m l ops : refines m l -> args_valid ops ->
  match lrun (cap m) l ops with
  | Some l' => exists m', foldM step ops m = Ok m' /\ refines m' l'
  | None => foldM step ops m = UB
  end.
Proof.
  revert m l; induction ops as [|o ops IH]; intros m l R A; cbn [lrun foldM].
  - eauto.
  - assert (A1 : forall tl, o = OJoin tl -> valid tl) by (intros tl E; apply A; left; auto).
    assert (A2 : args_valid ops) by (intros tl E; apply A; right; auto).
    destruct (lstep (cap m) l o) as [l1|] eqn:E.
    + destruct (step_ok m l o l1 R A1 E) as (m1 & Hs & C & R1). rewrite Hs. cbn [bind]. rewrite <- C.
      now apply IH.
    + now rewrite (step_ub m l o R A1 E).
Qed.

Lemma at_spec m l : refines m l -> forall i, at_ m i = match nth_error l i with Some x => Ok x | None => UB end.
Proof.
  intros [V S] i. pose proof (seq_of_len m V) as L. rewrite S in L. unfold valid in V. unfold at_.
  destruct (Nat.ltb_spec i (len m)).
  - rewrite (nth_error_nth' (slots m) 0%N) by lia. rewrite (nth_error_nth' l 0%N) by lia. f_equal.
    apply seq_of_iff in S; auto. apply S; lia.
  - assert (E : nth_error l i = None) by (apply nth_error_None; lia). now rewrite E.
Qed.

Lemma nth_error_firstn_lt {A} i k (l : list A) : i < k -> nth_error (firstn k l) i = nth_error l i.
Proof.
  revert i k; induction l as [|h t IH]; intros [|i] [|k] H; cbn; auto; try lia.
  apply IH; lia.
Qed.

Lemma refines_observes m l : refines m l -> observes m l.
Proof.
  intros R. pose proof R as [V S]. pose proof (at_spec m l R) as AT.
  pose proof (seq_of_len m V) as L. rewrite S in L.
  repeat split; auto.
  - unfold front. rewrite AT. destruct l; auto.
  - unfold back. destruct l as [|h t] eqn:El; [now rewrite <- L|]. rewrite <- El in *.
    assert (length l > 0) by (rewrite El; cbn; lia).
    destruct (len m) as [|k] eqn:E; [lia|]. rewrite AT. rewrite (nth_error_nth' l 0%N) by lia.
    f_equal. rewrite last_nth. f_equal. lia.
  - intros k i Hk. unfold view_at, view_k. cbn [vsize vmi].
    destruct (Nat.ltb_spec i k).
    + rewrite AT. now rewrite nth_error_firstn_lt.
    + assert (E : nth_error (firstn k l) i = None) by (apply nth_error_None; rewrite firstn_length; lia).
      now rewrite E.
  - intros k Hk. unfold view_back, view_k. cbn [vsize vmi]. destruct k as [|k]; auto.
    rewrite AT. rewrite (nth_error_nth' l 0%N) by lia. f_equal.
    rewrite last_nth, firstn_length, Nat.min_l by lia. rewrite nth_firstn_lt by lia. f_equal; lia.
  - intros h. unfold hash_value. f_equal. exact S.
Qed.

Lemma refines_new junk : refines (mi_new junk) [].
Proof. split; [unfold valid; cbn; lia|reflexivity]. Qed.

Lemma run_spec junk ops : args_valid ops ->
  match lrun (length junk) [] ops with
  | Some l => exists m, run junk ops = Ok m /\ observes m l
  | None => run junk ops = UB
  end.
Proof.
  intros A. pose proof (run_from (mi_new junk) [] ops (refines_new junk) A) as H.
  change (cap (mi_new junk)) with (length junk) in H. unfold run.
  destruct (lrun (length junk) [] ops) as [l|]; auto.
  destruct H as (m & E & R). eauto using refines_observes.
Qed.

Lemma run_ok_refines junk ops m : args_valid ops -> run junk ops = Ok m ->
  exists l, lrun (length junk) [] ops = Some l /\ refines m l.
Proof.
  intros A E. pose proof (run_from (mi_new junk) [] ops (refines_new junk) A) as H.
  change (cap (mi_new junk)) with (length junk) in H. unfold run in E.
  destruct (lrun (length junk) [] ops) as [l|]; [|congruence].
  destruct H as (m' & E' & R). exists l; split; auto. congruence.
Qed.

Lemma equal_range_spec k i a b :
  equal_range k i a b = true <-> forall j, i <= j < i + k -> nth j a 0%N = nth j b 0%N.
Proof.
  revert i; induction k as [|k IH]; intros i; cbn [equal_range].
  - split; auto. intros _ j Hj. lia.
  - rewrite andb_true_iff, N.eqb_eq, IH. split.
    + intros [H1 H2] j Hj. destruct (Nat.eq_dec j i) as [->|]; auto. apply H2; lia.
    + intros H. split; [apply H; lia|]. intros j Hj. apply H; lia.
Qed.

Lemma eqb_spec a b la lb : refines a la -> refines b lb -> (eqb a b = true <-> la = lb).
Proof.
  intros [Va Sa] [Vb Sb]. apply seq_of_iff in Sa; auto. apply seq_of_iff in Sb; auto.
  destruct Sa as [La Sa], Sb as [Lb Sb].
  unfold eqb. rewrite andb_true_iff, Nat.eqb_eq, equal_range_spec. split.
  - intros [E H]. apply nth_ext with (d := 0%N) (d' := 0%N); [lia|].
    intros i Hi. rewrite <- Sa, <- Sb by lia. apply H; lia.
  - intros ->. split; [lia|]. intros j Hj. rewrite Sa, Sb by lia. auto.
Qed.

Lemma convert_loop_spec src k sl : k <= length sl ->
  let s := fold_left (fun s i => upd i (nth i src 0%N) s) (seq 0 k) sl in
  length s = length sl /\ forall i, nth i s 0%N = if i <? k then nth i src 0%N else nth i sl 0%N.
Proof.
  induction k as [|k IH]; intros H; cbn zeta; [cbn [seq fold_left]; split; auto|].
  rewrite seq_S, fold_left_app. cbn [fold_left plus]. destruct IH as [IL IN]; [lia|].
  set (s := fold_left _ (seq 0 k) sl) in *. clearbody s. rewrite upd_length. split; auto.
  intros i. rewrite upd_nth by lia. rewrite IN.
  destruct (Nat.eqb_spec i k), (Nat.ltb_spec i k), (Nat.ltb_spec i (S k)); subst; auto; lia.
Qed.

Lemma convert_spec junk rv l : refines rv l ->
  if length l <=? length junk then exists m, convert junk rv = Ok m /\ cap m = length junk /\ refines m l
  else convert junk rv = UB.
Proof.
  intros [V S]. pose proof V as V0. apply seq_of_iff in S; auto. destruct S as [L S]. unfold valid in V.
  unfold convert, resize, cap, mi_new. cbn [slots]. rewrite L.
  destruct (Nat.leb_spec (length l) (length junk)) as [C|]; auto. cbn [bind slots len].
  destruct (convert_loop_spec (slots rv) (Nat.min (length junk) (length (slots rv))) junk) as [IL IN]; [lia|].
  eexists; split; [reflexivity|]. cbn [slots]. split; auto.
  match goal with |- refines ?m' _ => assert (V' : valid m') end.
  { unfold valid; cbn [slots len]. lia. }
  split; auto. apply seq_of_iff; auto. cbn [slots len]. split; auto.
  intros i Hi. rewrite IN.
  destruct (Nat.ltb_spec i (Nat.min (length junk) (length (slots rv)))); [|lia]. apply S; lia.
Qed.

Lemma of_view_spec m l k : refines m l -> k <= length l ->
  exists m', of_view (view_k m k) = Ok m' /\ refines m' (firstn k l).
Proof.
  intros [V S] Hk. pose proof (seq_of_len m V) as L. rewrite S in L. unfold valid in V.
  unfold of_view, resize, view_k, cap. cbn [vmi vsize].
  destruct (Nat.leb_spec k (length (slots m))); [|lia].
  eexists; split; [reflexivity|]. split; [unfold valid; cbn; lia|].
  subst l. unfold seq_of. cbn [slots len]. rewrite firstn_firstn. f_equal. lia.
Qed.

Lemma back_popped_spec m k : back_popped (view_k m (S k)) = Ok (view_k m k) /\ back_popped (view_k m 0) = UB.
Proof. split; reflexivity. Qed.

Lemma run_refines junk ops m l : args_valid ops -> run junk ops = Ok m ->
  lrun (length junk) [] ops = Some l -> refines m l.
Proof. intros A R L. destruct (run_ok_refines junk ops m A R) as (l' & L' & H). congruence. Qed.

Lemma convert_observes junk junk' ops m l :
  args_valid ops -> run junk ops = Ok m -> lrun (length junk) [] ops = Some l ->
  if length l <=? length junk' then exists m', convert junk' m = Ok m' /\ observes m' l
  else convert junk' m = UB.
Proof.
  intros A R L. pose proof (run_refines junk ops m l A R L) as H.
  pose proof (convert_spec junk' m l H) as C. destruct (length l <=? length junk'); auto.
  destruct C as (m' & E & _ & R'). eauto using refines_observes.
Qed.

Lemma removelast_firstn_S {A} k (l : list A) : S k <= length l -> removelast (firstn (S k) l) = firstn k l.
Proof. intros. now rewrite removelast_firstn. Qed.

Lemma views_observe junk ops m l k :
  args_valid ops -> run junk ops = Ok m -> lrun (length junk) [] ops = Some l -> k <= length l ->
  (exists m', of_view (view_k m k) = Ok m' /\ observes m' (firstn k l)) /\
  match k with
  | O => back_popped (view_k m k) = UB
  | S k' => exists v m', back_popped (view_k m k) = Ok v /\ of_view v = Ok m' /\ observes m' (removelast (firstn k l))
  end.
Proof.
  intros A R L Hk. pose proof (run_refines junk ops m l A R L) as H. split.
  - destruct (of_view_spec m l k H Hk) as (m' & E & R'). eauto using refines_observes.
  - destruct k as [|k]; [reflexivity|].
    destruct (of_view_spec m l k H) as (m' & E & R'); [lia|].
    exists (view_k m k), m'. rewrite removelast_firstn_S by lia. auto using refines_observes.
Qed.
