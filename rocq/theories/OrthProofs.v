(** The enumerations of multi-indices. *)
From Verif Require Import Common CommonFacts OrthModel OrthSpec.

(** ** Generic facts *)

Lemma foldM_collect {A B} (f : A -> res B) (g : A -> B) l : forall acc, (forall a, In a l -> f a = Ok (g a)) ->
  foldM (fun t a => let* v := f a in Ok (t ++ [v])) l acc = Ok (acc ++ map g l).
Proof.
  induction l as [|a l IH]; intros acc H; cbn; [now rewrite app_nil_r|].
  rewrite (H a) by now left. cbn. rewrite IH by (intros; apply H; now right). now rewrite <- app_assoc.
Qed.
Lemma foldM_collect_inv {A B} (f : A -> res B) l : forall acc out,
  foldM (fun t a => let* v := f a in Ok (t ++ [v])) l acc = Ok out ->
  exists vs, out = acc ++ vs /\ Forall2 (fun a v => f a = Ok v) l vs.
Proof.
  induction l as [|a l IH]; intros acc out H; cbn in H.
  - injection H as <-. exists []. split; [now rewrite app_nil_r | constructor].
  - destruct (f a) as [v| |] eqn:E; cbn in H; try discriminate.
    destruct (IH _ _ H) as (vs & -> & F). exists (v :: vs). rewrite <- app_assoc. split; [reflexivity | now constructor].
Qed.
Lemma Forall2_nth {A B} (P : A -> B -> Prop) l l' da db i : Forall2 P l l' -> i < length l -> P (nth i l da) (nth i l' db).
Proof. intros F. revert i. induction F; intros [|i] L; cbn in *; try lia; auto. apply IHF. lia. Qed.
Lemma Forall2_len {A B} (P : A -> B -> Prop) l l' : Forall2 P l l' -> length l = length l'.
Proof. induction 1; cbn; congruence. Qed.
Lemma rev_seq_S k : rev (seq 0 (S k)) = k :: rev (seq 0 k).
Proof. rewrite seq_S, rev_app_distr. reflexivity. Qed.
Lemma upd_app_here {A} (p : list A) x y t : upd (length p) x (p ++ y :: t) = p ++ x :: t.
Proof. rewrite upd_app_r by lia. now rewrite Nat.sub_diag. Qed.
Lemma last_cons {A} (l : list A) : forall x y, last (x :: l) y = last l x.
Proof. induction l as [|z l IH]; intros x y; auto. change (last (x :: z :: l) y) with (last (z :: l) y). now rewrite !IH. Qed.
Lemma sum_nat_repeat n : sum_nat (repeat 0 n) = 0.
Proof. unfold sum_nat. induction n; cbn; auto. Qed.
Lemma fold_sum {A} (f : A -> nat) l : forall a, fold_left (fun n j => n + f j) l a = a + sum_nat (map f l).
Proof. unfold sum_nat. induction l as [|x l IH]; intros a; cbn; [lia|]. rewrite IH. lia. Qed.
Lemma length_flat_map {A B} (f : A -> list B) l : length (flat_map f l) = sum_nat (map (fun a => length (f a)) l).
Proof. unfold sum_nat. induction l as [|x l IH]; cbn; auto. rewrite app_length, IH. reflexivity. Qed.
Lemma sum_nat_perm l l' : Permutation l l' -> sum_nat l = sum_nat l'.
Proof. unfold sum_nat. induction 1; cbn; lia. Qed.
Lemma sum_nat_zero l : sum_nat l = 0 -> l = repeat 0 (length l).
Proof. unfold sum_nat. induction l as [|x l IH]; cbn; intros H; auto. f_equal; [lia | apply IH; lia]. Qed.

(** ** Multi-indices of a given degree in the order of the enumeration *)

Fixpoint layer (r k : nat) : list (list nat) :=
  match r with
  | 0 => []
  | S r' => (k :: repeat 0 r') :: flat_map (fun m => map (cons m) (layer r' (k - m))) (rev (seq 0 k))
  end.
Lemma layer_0 r : layer (S r) 0 = [repeat 0 (S r)].
Proof. reflexivity. Qed.

Lemma layer_sound r : forall k a, In a (layer r k) -> length a = r /\ sum_nat a = k.
Proof.
  induction r as [|r IH]; intros k a H; [destruct H|]. destruct H as [<-|H].
  - cbn. rewrite repeat_length. split; auto. change (k + sum_nat (repeat 0 r) = k). rewrite sum_nat_repeat. lia.
  - apply in_flat_map in H. destruct H as (m & Hm & H). apply in_map_iff in H. destruct H as (t & <- & H).
    apply IH in H. apply in_rev, in_seq in Hm. destruct H as [L S]. cbn. split; [lia|]. change (m + sum_nat t = k). lia.
Qed.
Lemma layer_complete r : forall k a, length a = S r -> sum_nat a = k -> In a (layer (S r) k).
Proof.
  induction r as [|r IH]; intros k a L S.
  - destruct a as [|x [|]]; try discriminate. left. cbn in S. f_equal. lia.
  - destruct a as [|x a]; try discriminate. injection L as L. change (x + sum_nat a = k) in S.
    destruct (Nat.eq_dec x k) as [->|D].
    + left. assert (E : sum_nat a = 0) by lia. apply sum_nat_zero in E. rewrite E, L. reflexivity.
    + right. apply in_flat_map. exists x. split.
      * apply in_rev. rewrite rev_involutive. apply in_seq. lia.
      * apply in_map, IH; auto; lia.
Qed.
Lemma NoDup_app {A} (l l' : list A) : NoDup l -> NoDup l' -> (forall x, In x l -> In x l' -> False) -> NoDup (l ++ l').
Proof.
  induction l as [|x l IH]; intros N N' D; cbn; auto. inversion N; subst. constructor.
  - rewrite in_app_iff. intros [I|I]; [auto | exact (D x (or_introl eq_refl) I)].
  - apply IH; auto. intros y I I'. exact (D y (or_intror I) I').
Qed.
Lemma NoDup_flat_map {A B} (f : A -> list B) l : NoDup l -> (forall a, In a l -> NoDup (f a)) ->
  (forall a a' b, In a l -> In a' l -> In b (f a) -> In b (f a') -> a = a') -> NoDup (flat_map f l).
Proof.
  induction l as [|a l IH]; intros N F D; cbn; [constructor|]. inversion N; subst. apply NoDup_app.
  - apply F. now left.
  - apply IH; auto; [intros; apply F; now right |]. intros b b' c I I'. apply D; now right.
  - intros x I I'. apply in_flat_map in I'. destruct I' as (a' & Ia & I').
    assert (a = a') by (eapply D; [now left | now right | exact I | exact I']). subst. contradiction.
Qed.
Lemma NoDup_map_inj {A B} (f : A -> B) l : (forall x y, In x l -> In y l -> f x = f y -> x = y) -> NoDup l -> NoDup (map f l).
Proof.
  induction l as [|x l IH]; intros I N; cbn; [constructor|]. inversion N; subst. constructor.
  - rewrite in_map_iff. intros (y & E & Iy). apply I in E; [|now right | now left]. subst. contradiction.
  - apply IH; auto. intros; apply I; auto; now right.
Qed.
Lemma layer_nodup r : forall k, NoDup (layer r k).
Proof.
  induction r as [|r IH]; intros k; cbn [layer]; [constructor|]. constructor.
  - rewrite in_flat_map. intros (m & Hm & H). apply in_map_iff in H. destruct H as (t & E & _).
    apply in_rev, in_seq in Hm. injection E as E _. lia.
  - apply NoDup_flat_map.
    + apply NoDup_rev, seq_NoDup.
    + intros m _. apply NoDup_map_inj; [intros x y _ _ E; now injection E | apply IH].
    + intros m m' b _ _ H H'. apply in_map_iff in H, H'. destruct H as (t & <- & _), H' as (t' & E & _). now injection E.
Qed.

(** The enumeration visits the layer in order. *)
Lemma enumerate_spec r : forall k i p count, (count < i)%Z ->
  pk_enumerate r (length p) k i (p ++ repeat 0 r) count =
  let L := layer r k in
  if (i - count - 1 <? Z.of_nat (length L))%Z
  then (p ++ nth (Z.to_nat (i - count - 1)) L [], i)
  else (p ++ repeat 0 r, (count + Z.of_nat (length L))%Z).
Proof.
  induction r as [|r IH]; intros k i p count C.
  - cbn. destruct (i - count - 1 <? 0)%Z eqn:E; [lia|]. f_equal. lia.
  - cbn [pk_enumerate repeat]. rewrite upd_app_here. destruct (Z.eqb_spec (count + 1) i) as [E|D].
    + cbv zeta. replace (i - count - 1)%Z with 0%Z by lia. rewrite E. reflexivity.
    + set (F := fun st m => _).
      assert (G : forall ms x count, (count < i)%Z -> (forall m, In m ms -> m < k) ->
        fold_left F ms (false, p ++ x :: repeat 0 r, count) =
        let L := flat_map (fun m => map (cons m) (layer r (k - m))) ms in
        if (i - count - 1 <? Z.of_nat (length L))%Z
        then (true, p ++ nth (Z.to_nat (i - count - 1)) L [], i)
        else (false, p ++ last ms x :: repeat 0 r, (count + Z.of_nat (length L))%Z)).
      { induction ms as [|m ms IHms]; intros x count' C' Hm.
        - cbn. destruct (i - count' - 1 <? 0)%Z eqn:E; [lia|]. f_equal. lia.
        - cbn [fold_left flat_map]. unfold F at 2. rewrite upd_app_here.
          replace (length p + 1) with (length (p ++ [m])) by (rewrite app_length; cbn; lia).
          replace (p ++ m :: repeat 0 r) with ((p ++ [m]) ++ repeat 0 r) by now rewrite <- app_assoc.
          rewrite IH by auto. cbv zeta. set (M := map (cons m) (layer r (k - m))).
          assert (LM : length (layer r (k - m)) = length M) by (unfold M; now rewrite map_length). rewrite LM.
          rewrite app_length, Nat2Z.inj_add.
          destruct (Z.ltb_spec (i - count' - 1) (Z.of_nat (length M))) as [Q|Q].
          + rewrite Z.eqb_refl.
            assert (Fx : forall ms a, fold_left F ms (true, a, i) = (true, a, i)) by (clear; induction ms; cbn; auto).
            rewrite Fx. destruct (Z.ltb_spec (i - count' - 1) (Z.of_nat (length M) + Z.of_nat (length (flat_map (fun m => map (cons m) (layer r (k - m))) ms)))); [|lia].
            rewrite app_nth1 by lia. f_equal. f_equal. unfold M.
            rewrite (nth_indep (map (cons m) _) [] (m :: [])) by (rewrite map_length; eapply Nat.lt_le_trans; [|apply Nat.eq_le_incl; symmetry; exact LM]; lia). rewrite (map_nth (cons m)).
            now rewrite <- app_assoc.
          + destruct (Z.eqb_spec (count' + Z.of_nat (length M)) i) as [E|E]; [lia|].
            rewrite <- app_assoc. cbn [app]. rewrite IHms by (try lia; intros; apply Hm; now right). cbv zeta.
            set (N := flat_map _ ms).
            replace (i - (count' + Z.of_nat (length M)) - 1)%Z with (i - count' - 1 - Z.of_nat (length M))%Z by lia.
            destruct (Z.ltb_spec (i - count' - 1 - Z.of_nat (length M)) (Z.of_nat (length N))) as [Q'|Q'];
              destruct (Z.ltb_spec (i - count' - 1) (Z.of_nat (length M) + Z.of_nat (length N))); try lia.
            * f_equal. f_equal. f_equal. rewrite app_nth2 by lia. f_equal. lia.
            * f_equal; [|lia]. f_equal. f_equal. f_equal. now rewrite last_cons. }
      rewrite G; [|lia|intros m Hm; apply in_rev, in_seq in Hm; lia]. cbv zeta. cbn [layer].
      set (N := flat_map _ _). cbn [length]. rewrite Nat2Z.inj_succ.
      destruct (Z.ltb_spec (i - (count + 1) - 1) (Z.of_nat (length N))) as [Q|Q];
        destruct (Z.ltb_spec (i - count - 1) (Z.succ (Z.of_nat (length N)))) as [Q'|Q']; try lia.
      * f_equal. f_equal. replace (Z.to_nat (i - count - 1)) with (S (Z.to_nat (i - (count + 1) - 1))) by lia. reflexivity.
      * rewrite upd_app_here. f_equal. lia.
Qed.

(** ** Sizes *)

Lemma layer_length r : forall k, r <> 0 -> pk_size k r = sum_nat (map (fun j => length (layer r j)) (seq 0 (k + 1))).
Proof.
  assert (P : forall k (h : nat -> nat), sum_nat (map (fun m => h (k - m)) (seq 0 (k + 1))) = sum_nat (map h (seq 0 (k + 1)))).
  { intros k h. apply sum_nat_perm.
    replace (map (fun m => h (k - m)) (seq 0 (k + 1))) with (map h (map (fun m => k - m) (seq 0 (k + 1)))) by now rewrite map_map.
    apply Permutation_map. apply NoDup_Permutation.
    - apply NoDup_map_inj; [|apply seq_NoDup]. intros x y Hx Hy. apply in_seq in Hx, Hy. lia.
    - apply seq_NoDup.
    - intros x. rewrite in_map_iff. split.
      + intros (y & <- & Hy). apply in_seq in Hy. apply in_seq. lia.
      + intros Hx. apply in_seq in Hx. exists (k - x). split; [lia|]. apply in_seq. lia. }
  induction r as [|r IH]; intros k R; [lia|]. destruct r as [|r].
  - cbn [pk_size]. assert (L1 : forall j, length (layer 1 j) = 1).
    { intros j. cbn. f_equal. clear. induction (rev (seq 0 j)); cbn; auto. }
    rewrite (map_ext _ (fun _ => 1)) by apply L1.
    assert (Q : forall n s, sum_nat (map (fun _ => 1) (seq s n)) = n) by (unfold sum_nat; induction n; intros; cbn; auto).
    rewrite Q. destruct (Nat.eqb_spec k 0); lia.
  - assert (LL : forall j, length (layer (S (S r)) j) = pk_size j (S r)).
    { intros j. rewrite IH by lia.
      change (layer (S (S r)) j) with ((j :: repeat 0 (S r)) :: flat_map (fun m => map (cons m) (layer (S r) (j - m))) (rev (seq 0 j))).
      cbn [length]. rewrite length_flat_map.
      rewrite (sum_nat_perm _ (map (fun a => length (map (cons a) (layer (S r) (j - a)))) (seq 0 j)))
        by (apply Permutation_map, Permutation_sym, Permutation_rev).
      rewrite <- (P j (fun j => length (layer (S r) j))). replace (j + 1) with (S j) by lia. rewrite seq_S, map_app, sum_nat_app.
      rewrite (map_ext _ (fun m => length (layer (S r) (j - m)))) by (intros; now rewrite map_length).
      cbn [map]. rewrite Nat.sub_diag. rewrite layer_0. cbn [length]. change (sum_nat [1]) with 1. lia. }
    rewrite (map_ext _ (fun j => pk_size j (S r))) by apply LL.
    rewrite <- (P k (fun j => pk_size j (S r))).
    cbn [pk_size]. destruct (Nat.eqb_spec k 0) as [->|K].
    + reflexivity.
    + rewrite fold_sum. cbn. reflexivity.
Qed.

Definition all_upto (d k : nat) : list (list nat) := flat_map (layer d) (seq 0 (k + 1)).
Lemma all_upto_length d k : d <> 0 -> length (all_upto d k) = pk_size k d.
Proof. intros D. unfold all_upto. now rewrite length_flat_map, layer_length. Qed.
Lemma all_upto_S d k : all_upto d (S k) = all_upto d k ++ layer d (S k).
Proof. unfold all_upto. replace (S k + 1) with (S (k + 1)) by lia. rewrite seq_S, flat_map_app. cbn [flat_map]. rewrite app_nil_r. replace (0 + (k + 1)) with (S k) by lia. reflexivity. Qed.
Lemma all_upto_app d k k' : k <= k' -> exists t, all_upto d k' = all_upto d k ++ t.
Proof.
  induction 1 as [|k' L IH]; [exists []; now rewrite app_nil_r|]. destruct IH as (t & E). rewrite all_upto_S, E, <- app_assoc. eauto.
Qed.
Lemma pk_size_mono d k k' : d <> 0 -> k <= k' -> pk_size k d <= pk_size k' d.
Proof. intros D L. rewrite <- !all_upto_length by auto. destruct (all_upto_app d k k' L) as (t & ->). rewrite app_length. lia. Qed.
Lemma pk_size_pos d k : d <> 0 -> 0 < pk_size k d.
Proof. intros D. destruct d; [lia|]. pose proof (pk_size_mono (S d) 0 k D ltac:(lia)) as H. change (pk_size 0 (S d)) with 1 in H. lia. Qed.
Lemma layer_nonempty d k : d <> 0 -> 0 < length (layer d k).
Proof. destruct d; [lia|]. cbn. lia. Qed.
Lemma pk_size_strict d k : d <> 0 -> pk_size k d < pk_size (S k) d.
Proof. intros D. rewrite <- !all_upto_length, all_upto_S, app_length by auto. pose proof (layer_nonempty d (S k) D). lia. Qed.

Lemma pk_find d i k : d <> 0 -> 0 < i -> k <= 24 -> i < pk_size k d ->
  exists k', find (fun k => (pk_size (k - 1) d <=? i) && (i <? pk_size k d)) (seq 1 24) = Some k' /\
    1 <= k' <= k /\ pk_size (k' - 1) d <= i < pk_size k' d.
Proof.
  intros D I K L.
  assert (E : exists k', 1 <= k' <= k /\ pk_size (k' - 1) d <= i < pk_size k' d).
  { clear K. induction k as [|k IH].
    - assert (pk_size 0 d = 1) by (destruct d; reflexivity). lia.
    - destruct (Nat.lt_ge_cases i (pk_size k d)) as [H|H].
      + destruct (IH H) as (k' & ? & ?). exists k'. split; [lia|auto].
      + exists (S k). cbn [Nat.sub]. rewrite Nat.sub_0_r. split; [lia|]. split; auto. }
  destruct E as (k' & R & Q). exists k'. split; [|auto].
  destruct (find _ (seq 1 24)) as [m|] eqn:F.
  - apply find_some in F. destruct F as [Im F]. apply andb_true_iff in F. destruct F as [F1 F2].
    apply Nat.leb_le in F1. apply Nat.ltb_lt in F2. apply in_seq in Im. f_equal.
    destruct (Nat.lt_trichotomy m k') as [H|[H|H]]; auto; exfalso.
    + pose proof (pk_size_mono d m (k' - 1) D ltac:(lia)). lia.
    + pose proof (pk_size_mono d k' (m - 1) D ltac:(lia)). lia.
  - exfalso. apply find_none with (x := k') in F; [|apply in_seq; lia].
    apply andb_false_iff in F. destruct F as [F|F]; [apply Nat.leb_gt in F | apply Nat.ltb_ge in F]; lia.
Qed.

Lemma pk_multiindex_spec d i k : d <> 0 -> k <= 24 -> i < pk_size k d -> pk_multiindex d i = Ok (nth i (all_upto d k) []).
Proof.
  intros D K L. unfold pk_multiindex. destruct (Nat.eqb_spec i 0) as [->|I].
  - f_equal. destruct (all_upto_app d 0 k ltac:(lia)) as (t & ->). destruct d; [lia|]. reflexivity.
  - destruct (pk_find d i k D ltac:(lia) K L) as (k' & -> & R & Q). f_equal.
    change (repeat 0 d) with ([] ++ repeat 0 d). change 0 with (length (@nil nat)) at 1.
    rewrite enumerate_spec by lia. cbv zeta.
    destruct k' as [|k']; [lia|]. cbn [Nat.sub] in *. rewrite Nat.sub_0_r in *.
    assert (LL : length (layer d (S k')) = pk_size (S k') d - pk_size k' d).
    { rewrite <- !all_upto_length, all_upto_S, app_length by auto. lia. }
    match goal with |- context [(?a <? ?b)%Z] => destruct (Z.ltb_spec a b) end; [|lia].
    cbn [fst app]. destruct (all_upto_app d (S k') k ltac:(lia)) as (t & ->). rewrite all_upto_S.
    rewrite app_nth1 by (rewrite app_length, all_upto_length by auto; lia).
    rewrite app_nth2 by (rewrite all_upto_length by auto; lia). rewrite all_upto_length by auto. f_equal. lia.
Qed.
Lemma pk_multiindex_throws d i : d <> 0 -> pk_size 24 d <= i -> pk_multiindex d i = Throw.
Proof.
  intros D L. unfold pk_multiindex. pose proof (pk_size_pos d 24 D). destruct (Nat.eqb_spec i 0); [lia|].
  destruct (find _ _) as [m|] eqn:F; auto. apply find_some in F. destruct F as [Im F]. apply in_seq in Im.
  apply andb_true_iff in F. destruct F as [_ F]. apply Nat.ltb_lt in F.
  pose proof (pk_size_mono d m 24 D ltac:(lia)). lia.
Qed.

(** ** Qk *)

Lemma qk_size_pow k d : qk_size k d = (k + 1) ^ d.
Proof.
  unfold qk_size. induction d as [|d IH]; [reflexivity|]. rewrite seq_S, fold_left_app, IH. cbn [fold_left Nat.pow]. lia.
Qed.
Fixpoint code (k : nat) (a : multiindex) : nat := match a with [] => 0 | x :: a' => x + (k + 1) * code k a' end.
Lemma qk_length d : forall i k, length (qk_multiindex d i k) = d.
Proof. induction d; intros; cbn; auto. Qed.
Lemma qk_bound d : forall i k e, In e (qk_multiindex d i k) -> e <= k.
Proof.
  induction d as [|d IH]; intros i k e H; [destruct H|]. destruct H as [<-|H]; [|eauto].
  pose proof (Nat.mod_upper_bound i (k + 1)). lia.
Qed.
Lemma qk_code d : forall i k, i < (k + 1) ^ d -> code k (qk_multiindex d i k) = i.
Proof.
  induction d as [|d IH]; intros i k L; cbn [qk_multiindex code Nat.pow] in *; [lia|].
  rewrite IH by (apply Nat.div_lt_upper_bound; lia). pose proof (Nat.div_mod i (k + 1)). lia.
Qed.
Lemma code_bound k a : (forall e, In e a -> e <= k) -> code k a < (k + 1) ^ length a.
Proof.
  induction a as [|x a IH]; intros H; cbn [code length Nat.pow]; [lia|].
  assert (x <= k) by (apply H; now left). specialize (IH ltac:(intros; apply H; now right)). nia.
Qed.
Lemma code_qk k a : (forall e, In e a -> e <= k) -> qk_multiindex (length a) (code k a) k = a.
Proof.
  induction a as [|x a IH]; intros H; cbn [code length qk_multiindex]; [reflexivity|].
  assert (x <= k) by (apply H; now left).
  assert (E : x + (k + 1) * code k a = code k a * (k + 1) + x) by lia. rewrite E.
  rewrite Nat.div_add_l by lia. rewrite (Nat.add_comm _ x), Nat.mod_add by lia.
  rewrite Nat.mod_small, Nat.div_small, Nat.add_0_r by lia. rewrite IH; [reflexivity|]. intros; apply H; now right.
Qed.

(** ** The list of the basis *)

Definition indices (b : basis_type) (k d : nat) : list (list nat) :=
  match b with Pk => all_upto d k | Qk => map (fun i => qk_multiindex d i k) (seq 0 (qk_size k d)) end.
Lemma basis_indices_ok b k d : d <> 0 -> (b = Pk -> k <= 24) -> basis_indices b k d = Ok (indices b k d).
Proof.
  intros D K. unfold basis_indices. destruct b; cbn [traits_multiindex traits_size indices].
  - rewrite foldM_collect with (g := fun i => nth i (all_upto d k) []).
    + cbn [app]. f_equal. rewrite <- all_upto_length by auto. apply nth_ext with (d := []) (d' := []).
      * now rewrite map_length, seq_length.
      * intros i Hi. rewrite map_length, seq_length in Hi.
        rewrite (nth_indep _ [] ((fun i => nth i (all_upto d k) []) 0)) by now rewrite map_length, seq_length.
        rewrite (map_nth (fun i => nth i (all_upto d k) [])). now rewrite seq_nth.
    + intros i Hi. apply in_seq in Hi. apply pk_multiindex_spec; auto; lia.
  - rewrite foldM_collect with (g := fun i => qk_multiindex d i k) by reflexivity. reflexivity.
Qed.
Lemma foldM_throw {A S} (f : S -> A -> res S) l1 x l2 s : (forall t, f t x = Throw) -> (exists t, foldM f l1 s = Ok t) ->
  foldM f (l1 ++ x :: l2) s = Throw.
Proof. intros T (t & E). rewrite foldM_app, E. cbn. now rewrite T. Qed.
Lemma basis_indices_throws k d : d <> 0 -> 24 < k -> basis_indices Pk k d = Throw.
Proof.
  intros D K. unfold basis_indices. cbn [traits_size traits_multiindex].
  assert (L : pk_size 24 d < pk_size k d).
  { pose proof (pk_size_strict d 24 D). pose proof (pk_size_mono d 25 k D ltac:(lia)). lia. }
  replace (pk_size k d) with (pk_size 24 d + S (pk_size k d - pk_size 24 d - 1)) by lia.
  rewrite seq_app. cbn [seq]. apply foldM_throw.
  - intros t. now rewrite pk_multiindex_throws by (auto; lia).
  - eexists. exact (basis_indices_ok Pk 24 d D ltac:(lia)).
Qed.

Lemma all_upto_in d k a : d <> 0 -> In a (all_upto d k) <-> length a = d /\ sum_nat a <= k.
Proof.
  intros D. unfold all_upto. rewrite in_flat_map. split.
  - intros (j & Hj & H). apply in_seq in Hj. apply layer_sound in H. split; [tauto | lia].
  - intros [L S]. exists (sum_nat a). split; [apply in_seq; lia|]. destruct d; [lia|]. now apply layer_complete.
Qed.
Lemma all_upto_nodup d k : NoDup (all_upto d k).
Proof.
  apply NoDup_flat_map; [apply seq_NoDup | intros; apply layer_nodup |].
  intros j j' a _ _ H H'. apply layer_sound in H, H'. lia.
Qed.
Lemma indices_in b k d a : d <> 0 -> In a (indices b k d) <-> in_space b d k a.
Proof.
  intros D. destruct b; cbn [indices in_space]; unfold of_degree_upto, of_degree_each, degree.
  - now apply all_upto_in.
  - rewrite in_map_iff. split.
    + intros (i & <- & Hi). split; [apply qk_length | apply qk_bound].
    + intros [L B]. exists (code k a). split; [now rewrite <- L, code_qk|]. apply in_seq.
      pose proof (code_bound k a B). rewrite qk_size_pow. rewrite L in H. lia.
Qed.
Lemma indices_nodup b k d : NoDup (indices b k d).
Proof.
  destruct b; cbn [indices]; [apply all_upto_nodup|]. apply NoDup_map_inj; [|apply seq_NoDup].
  intros x y Hx Hy E. apply in_seq in Hx, Hy. rewrite qk_size_pow in *.
  rewrite <- (qk_code d x k), <- (qk_code d y k) by lia. now rewrite E.
Qed.
Lemma indices_length b k d : d <> 0 -> length (indices b k d) = traits_size b k d.
Proof. intros D. destruct b; cbn [indices traits_size]; [now apply all_upto_length|]. now rewrite map_length, seq_length. Qed.

(** Sorted by degree. *)
Lemma all_upto_sorted d k i j : d <> 0 -> i <= j < pk_size k d -> sum_nat (nth i (all_upto d k) []) <= sum_nat (nth j (all_upto d k) []).
Proof.
  intros D. induction k as [|k IH]; intros L.
  - assert (E : pk_size 0 d = 1) by (destruct d; reflexivity). replace i with j by lia. auto.
  - rewrite all_upto_S. pose proof (all_upto_length d k D) as A.
    assert (LL : length (layer d (S k)) = pk_size (S k) d - pk_size k d).
    { rewrite <- !all_upto_length, all_upto_S, app_length by auto. lia. }
    destruct (Nat.lt_ge_cases j (pk_size k d)) as [H|H].
    + rewrite !app_nth1 by lia. apply IH. lia.
    + rewrite (app_nth2 _ _ _ (n := j)) by lia.
      assert (Ij : In (nth (j - length (all_upto d k)) (layer d (S k)) []) (layer d (S k))) by (apply nth_In; lia).
      apply layer_sound in Ij. destruct Ij as [_ ->].
      destruct (Nat.lt_ge_cases i (pk_size k d)) as [H'|H'].
      * rewrite app_nth1 by lia. assert (I : In (nth i (all_upto d k) []) (all_upto d k)) by (apply nth_In; lia).
        apply all_upto_in in I; auto. lia.
      * rewrite app_nth2 by lia.
        assert (Ii : In (nth (i - length (all_upto d k)) (layer d (S k)) []) (layer d (S k))) by (apply nth_In; lia).
        apply layer_sound in Ii. lia.
Qed.
