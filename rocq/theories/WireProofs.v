(** Proofs: what scatter does with what gather wrote. *)
From Coq Require Import Init.Byte.
From Verif Require Import Common CommonFacts WireModel WireSpec.

Lemma read_any {A} (c : codec A) a rest : codec_ok c -> exists b, read c (encode c a ++ rest) = Ok (b, rest).
Proof.
  intros (W & L). specialize (L a). unfold read. rewrite app_length, L.
  replace (width c + length rest <? width c) with false by (symmetry; apply Nat.ltb_ge; lia).
  rewrite firstn_app, skipn_app, L, Nat.sub_diag. rewrite <- L. rewrite firstn_all, skipn_all.
  cbn. eauto.
Qed.
Lemma read_encode {A} (c : codec A) a rest : codec_ok c -> representable c a -> read c (encode c a ++ rest) = Ok (a, rest).
Proof.
  intros (W & L) D. specialize (L a). unfold read. rewrite app_length, L.
  replace (width c + length rest <? width c) with false by (symmetry; apply Nat.ltb_ge; lia).
  rewrite firstn_app, skipn_app, L, Nat.sub_diag. rewrite <- L. rewrite firstn_all, skipn_all.
  cbn. rewrite app_nil_r, D. reflexivity.
Qed.

Definition bytes {A} (c : codec A) (l : list A) : list byte := flat_map (encode c) l.

Lemma fold_write {A} (c : codec A) l : forall buf, fold_left (write c) l buf = buf ++ bytes c l.
Proof.
  induction l as [|x l IH]; intros buf; cbn; [now rewrite app_nil_r|]. rewrite IH. unfold write. now rewrite <- app_assoc.
Qed.
Lemma bytes_cons {A} (c : codec A) x l : bytes c (x :: l) = encode c x ++ bytes c l.
Proof. reflexivity. Qed.
Lemma bytes_length {A} (c : codec A) l : codec_ok c -> length (bytes c l) = length l * width c.
Proof. intros (_ & H). induction l as [|x l IH]; [reflexivity|]. rewrite bytes_cons, app_length, IH. cbn [length]. rewrite H. lia. Qed.
Lemma bytes_app {A} (c : codec A) l l' : bytes c (l ++ l') = bytes c l ++ bytes c l'.
Proof. apply flat_map_app. Qed.

Section handle.
  Variable A : Type.
  Variables (value : codec A) (size rank : codec nat).
  Variables (transmit_rank : bool) (leaf_count : nat).
  Variable op : A -> A -> A.
  Hypothesis VO : codec_ok value.
  Hypothesis SO : codec_ok size.
  Hypothesis RO : codec_ok rank.

  Lemma drain_bytes l : forall rest, drain A value (length l) (bytes value l ++ rest) = Ok rest.
  Proof.
    induction l as [|x l IH]; intros rest; cbn; auto. rewrite <- app_assoc. destruct (read_any value x (bytes value l ++ rest) VO) as (b & E). unfold bytes in *. rewrite E. cbn. apply IH.
  Qed.

  Lemma combined_length (l : list A) : forall r, length l = length r -> length (combined op l r) = length l.
  Proof. induction l as [|x l IH]; intros [|y r] H; cbn in *; auto; lia. Qed.

  Lemma scatter_range_bytes r : forall pre l post rest, Forall (representable value) r -> length r = length l ->
    scatter_range A value op (length l) (length pre) (bytes value r ++ rest) (pre ++ l ++ post) =
    Ok (rest, pre ++ combined op l r ++ post).
  Proof.
    induction r as [|x r IH]; intros pre [|y l] post rest RP L; cbn in L; try discriminate; cbn; auto.
    inversion RP; subst. rewrite <- app_assoc, read_encode by auto. cbn.
    rewrite nth_error_app2, Nat.sub_diag by lia. cbn.
    rewrite upd_app_r by lia. rewrite Nat.sub_diag. cbn.
    replace (pre ++ op y x :: l ++ post) with ((pre ++ [op y x]) ++ l ++ post) by (rewrite <- app_assoc; reflexivity).
    replace (S (length pre)) with (length (pre ++ [op y x])) by (rewrite app_length; cbn; lia).
    rewrite IH by (auto; lia). rewrite <- app_assoc. reflexivity.
  Qed.

  Lemma read_sizes_bytes l : Forall (representable size) l -> forall rest, read_sizes size (length l) (bytes size l ++ rest) = Ok (l, rest).
  Proof.
    induction 1 as [|x l RX _ IH]; intros rest; cbn; auto. rewrite <- app_assoc, read_encode by auto. cbn. rewrite IH. reflexivity.
  Qed.

  Lemma offsets_length l : forall a, length (offsets_from a l) = S (length l).
  Proof. induction l; intros a0; cbn; auto. Qed.
  Lemma offsets_last l : forall a d, last (offsets_from a l) d = a + sum_nat l.
  Proof.
    induction l as [|x l IH]; intros a d; [cbn; lia|].
    change (offsets_from a (x :: l)) with (a :: offsets_from (a + x) l).
    assert (N : offsets_from (a + x) l <> []) by (destruct l; cbn; discriminate).
    transitivity (last (offsets_from (a + x) l) d); [destruct (offsets_from (a + x) l); [congruence|reflexivity]|].
    rewrite IH. cbn. unfold sum_nat. lia.
  Qed.

  Definition lens (bl : list (list A)) := map (@length A) bl.
  Lemma concat_lens bl : length (concat bl) = sum_nat (lens bl).
  Proof. induction bl as [|b bl IH]; cbn; auto. rewrite app_length, IH. reflexivity. Qed.

  (** The loop over the blocks, from the state reached after the leaves before. *)
  Lemma blocks_loop sb : forall lb ra pre rest commit, Forall (representable value) (concat sb) -> length sb = length lb ->
    Forall2 compatible sb lb ->
    exists ra' la' c',
    foldM (scatter_block A value op)
      (combine (tl (offsets_from ra (lens sb))) (tl (offsets_from (length pre) (lens lb))))
      (ra, length pre, bytes value (concat sb) ++ rest, pre ++ concat lb, commit) =
    Ok (ra', la', rest, pre ++ concat (received_all op sb lb), c') /\
    (c' = true <-> commit = true \/ some_common sb lb).
  Proof.
    assert (TL : forall a l, tl (offsets_from a l) = match l with [] => [] | s :: l' => offsets_from (a + s) l' end)
      by (intros a [|s l]; reflexivity).
    assert (HD : forall a l, offsets_from a l = a :: tl (offsets_from a l)) by (intros a [|s l]; reflexivity).
    induction sb as [|s sb IH]; intros [|l lb] ra pre rest commit RV L F; cbn in L; try discriminate.
    - cbn. exists ra, (length pre), commit. rewrite app_nil_r. split; auto. split; auto.
      intros [H|(i & r & l & H & _)]; auto. destruct i; discriminate.
    - cbn [concat] in RV. apply Forall_app in RV as (RV1 & RV2). inversion F as [|? ? ? ? C F']; subst.
      change (lens (s :: sb)) with (length s :: lens sb). change (lens (l :: lb)) with (length l :: lens lb).
      rewrite !TL. rewrite (HD (ra + _)), (HD (length pre + _)). cbn [combine foldM concat received_all].
      assert (SC : forall P : Prop, (P <-> (s <> [] /\ l <> [])) ->
        (some_common (s :: sb) (l :: lb) <-> P \/ some_common sb lb)).
      { intros P HP. split.
        - intros ([|i] & r & m & H1 & H2 & H3 & H4); cbn in *.
          + injection H1 as ->. injection H2 as ->. left. tauto.
          + right. exists i, r, m. auto.
        - intros [H|(i & r & m & H)]; [exists 0, s, l; cbn; tauto|exists (S i), r, m; auto]. }
      unfold scatter_block at 1.
      destruct s as [|s0 s'] eqn:ES.
      + (* nothing sent *)
        cbn [length app concat]. rewrite Nat.add_0_r, Nat.eqb_refl. cbn [bind].
        destruct (IH lb ra (pre ++ l) rest commit) as (ra' & la' & c' & E & K); [auto|lia|auto|].
        rewrite app_length in E. rewrite <- !app_assoc in E. exists ra', la', c'. split.
        * cbn [received]. rewrite <- E. reflexivity.
        * rewrite K, (SC False); [tauto|]. split; [tauto|]. intros (H & _). now apply H.
      + rewrite <- ES in *. assert (NS : s <> []) by (subst; discriminate).
        assert (LS : 0 < length s) by (subst; cbn; lia).
        replace (ra + length s =? ra) with false by (symmetry; apply Nat.eqb_neq; lia).
        destruct l as [|l0 l'] eqn:EL.
        * (* no local values *)
          cbn [length app concat]. rewrite Nat.add_0_r, Nat.eqb_refl.
          replace (ra + length s - ra) with (length s) by lia.
          rewrite bytes_app, <- app_assoc, drain_bytes. cbn [bind].
          replace (Nat.max ra (ra + length s)) with (ra + length s) by lia.
          destruct (IH lb (ra + length s) pre rest commit) as (ra' & la' & c' & E & K); [auto|lia|auto|].
          exists ra', la', c'. split.
          -- rewrite E. rewrite ES. reflexivity.
          -- rewrite K, (SC False); [tauto|]. split; [tauto|]. intros (_ & H). now apply H.
        * rewrite <- EL in *. assert (NL : l <> []) by (subst; discriminate).
          assert (LL : 0 < length l) by (subst; cbn; lia).
          destruct C as [C|[C|C]]; [contradiction|contradiction|].
          replace (length pre + length l =? length pre) with false by (symmetry; apply Nat.eqb_neq; lia).
          replace (ra + length s - ra) with (length s) by lia.
          replace (length pre + length l - length pre) with (length l) by lia.
          rewrite C, Nat.eqb_refl. cbn [negb].
          rewrite bytes_app, <- app_assoc, scatter_range_bytes by auto. cbn [bind].
          destruct (IH lb (ra + length s) (pre ++ combined op l s) rest true) as (ra' & la' & c' & E & K); [auto|lia|auto|].
          rewrite app_length, combined_length in E by auto. rewrite <- !app_assoc in E.
          exists ra', la', c'. split.
          -- rewrite C in E. rewrite E. rewrite ES. reflexivity.
          -- rewrite K, (SC True); [tauto|]. tauto.
  Qed.

  (** Two leaves of different non-zero size: an exception. *)
  Lemma blocks_throw sb : forall lb ra pre rest commit, Forall (representable value) (concat sb) -> length sb = length lb ->
    ~ Forall2 compatible sb lb ->
    foldM (scatter_block A value op)
      (combine (tl (offsets_from ra (lens sb))) (tl (offsets_from (length pre) (lens lb))))
      (ra, length pre, bytes value (concat sb) ++ rest, pre ++ concat lb, commit) = Throw.
  Proof.
    assert (TL : forall a l, tl (offsets_from a l) = match l with [] => [] | s :: l' => offsets_from (a + s) l' end)
      by (intros a [|s l]; reflexivity).
    assert (HD : forall a l, offsets_from a l = a :: tl (offsets_from a l)) by (intros a [|s l]; reflexivity).
    induction sb as [|s sb IH]; intros [|l lb] ra pre rest commit RV L F; cbn in L; try discriminate.
    - destruct F. constructor.
    - cbn [concat] in RV. apply Forall_app in RV as (RV1 & RV2).
      change (lens (s :: sb)) with (length s :: lens sb). change (lens (l :: lb)) with (length l :: lens lb).
      rewrite !TL. rewrite (HD (ra + _)), (HD (length pre + _)). cbn [combine foldM concat].
      unfold scatter_block at 1.
      destruct s as [|s0 s'] eqn:ES.
      + cbn [length app concat]. rewrite Nat.add_0_r, Nat.eqb_refl. cbn [bind].
        rewrite <- app_length. rewrite app_assoc. apply IH; [auto|lia|]. intros F'. apply F. constructor; auto. now left.
      + rewrite <- ES in *. assert (LS : 0 < length s) by (subst; cbn; lia).
        replace (ra + length s =? ra) with false by (symmetry; apply Nat.eqb_neq; lia).
        destruct l as [|l0 l'] eqn:EL.
        * cbn [length app concat]. rewrite Nat.add_0_r, Nat.eqb_refl.
          replace (ra + length s - ra) with (length s) by lia.
          rewrite bytes_app, <- app_assoc, drain_bytes. cbn [bind].
          replace (Nat.max ra (ra + length s)) with (ra + length s) by lia.
          apply IH; [auto|lia|]. intros F'. apply F. constructor; auto. right. now left.
        * rewrite <- EL in *. assert (LL : 0 < length l) by (subst; cbn; lia).
          replace (length pre + length l =? length pre) with false by (symmetry; apply Nat.eqb_neq; lia).
          replace (ra + length s - ra) with (length s) by lia.
          replace (length pre + length l - length pre) with (length l) by lia.
          destruct (Nat.eqb_spec (length s) (length l)) as [C|C]; cbn [negb bind]; auto.
          rewrite bytes_app, <- app_assoc, scatter_range_bytes by auto. cbn [bind].
          replace (length pre + length l) with (length (pre ++ combined op l s)) by (rewrite app_length, combined_length; auto).
          rewrite app_assoc. apply IH; [auto|lia|]. intros F'. apply F. constructor; auto. right. now right.
  Qed.

  Definition header (my_rank : nat) : list byte := if transmit_rank then encode rank my_rank else [].

  Lemma gather_leaf my_rank sb buf :
    gather A value size rank transmit_rank true my_rank (offsets (lens sb)) (concat sb) buf =
    buf ++ header my_rank ++ bytes size (tl (offsets (lens sb))) ++ bytes value (concat sb).
  Proof.
    unfold gather, header. rewrite !fold_write. unfold write. destruct transmit_rank; rewrite <- ?app_assoc; reflexivity.
  Qed.
  Lemma gather_plain my_rank offs view buf :
    gather A value size rank transmit_rank false my_rank offs view buf = buf ++ header my_rank ++ bytes value view.
  Proof.
    unfold gather, header. rewrite !fold_write. unfold write. destruct transmit_rank; rewrite <- ?app_assoc; reflexivity.
  Qed.

  Lemma read_header my_rank rest : representable rank my_rank ->
    (if transmit_rank then let* (r, buf) := read rank (header my_rank ++ rest) in Ok (Some r, buf)
     else Ok (None, header my_rank ++ rest)) =
    Ok (if transmit_rank then Some my_rank else None, rest).
  Proof. intros RR. unfold header. destruct transmit_rank; cbn; auto. now rewrite read_encode. Qed.

  Lemma tl_offsets_length sb : length (tl (offsets (lens sb))) = length sb.
  Proof.
    unfold offsets. pose proof (offsets_length (lens sb) 0) as H. unfold lens in *. rewrite map_length in H.
    destruct (offsets_from 0 (map (@length A) sb)); cbn in *; lia.
  Qed.
  Lemma offsets_hd l : offsets l = 0 :: tl (offsets l).
  Proof. destruct l; reflexivity. Qed.

  Lemma scatter_leaf my_rank sb n contained loffs view rest :
    representable rank my_rank -> Forall (representable size) (tl (offsets (lens sb))) ->
    length sb = leaf_count ->
    scatter A value size rank transmit_rank true leaf_count op contained n loffs
      (gather A value size rank transmit_rank true my_rank (offsets (lens sb)) (concat sb) [] ++ rest) view =
    (let* (buf, view, commit) :=
       scatter_blocks A value op contained (offsets (lens sb)) loffs (bytes value (concat sb) ++ rest) view in
     Ok (buf, view, commit, if transmit_rank then Some my_rank else None)).
  Proof.
    intros RR RS L. unfold scatter. rewrite gather_leaf. cbn [app]. rewrite <- !app_assoc, read_header by auto. cbn [bind].
    rewrite <- L, <- tl_offsets_length, read_sizes_bytes by auto. cbn [bind]. rewrite <- offsets_hd. reflexivity.
  Qed.

  Lemma scatter_leaf_spec my_rank sb lb n rest :
    representable rank my_rank -> Forall (representable size) (tl (offsets (lens sb))) -> Forall (representable value) (concat sb) ->
    length sb = leaf_count -> length lb = leaf_count ->
    (Forall2 compatible sb lb ->
     exists commit,
       scatter A value size rank transmit_rank true leaf_count op true n (offsets (lens lb))
         (gather A value size rank transmit_rank true my_rank (offsets (lens sb)) (concat sb) [] ++ rest) (concat lb) =
       Ok (rest, concat (received_all op sb lb), commit, if transmit_rank then Some my_rank else None) /\
       (commit = true <-> some_common sb lb)) /\
    (~ Forall2 compatible sb lb ->
       scatter A value size rank transmit_rank true leaf_count op true n (offsets (lens lb))
         (gather A value size rank transmit_rank true my_rank (offsets (lens sb)) (concat sb) [] ++ rest) (concat lb) = Throw).
  Proof.
    intros RR RS RV L1 L2. rewrite scatter_leaf by auto. unfold scatter_blocks, offsets. split.
    - intros F. destruct (blocks_loop sb lb 0 [] rest false) as (ra & la & c & E & K); [auto|lia|auto|].
      cbn [length app] in E. rewrite E. cbn [bind]. exists c. split; auto. rewrite K. intuition congruence.
    - intros F. pose proof (blocks_throw sb lb 0 [] rest false RV ltac:(lia) F) as E. cbn [length app] in E. rewrite E. reflexivity.
  Qed.

  Lemma scatter_outside my_rank sb n loffs rest :
    representable rank my_rank -> Forall (representable size) (tl (offsets (lens sb))) ->
    length sb = leaf_count ->
    scatter A value size rank transmit_rank true leaf_count op false n loffs
      (gather A value size rank transmit_rank true my_rank (offsets (lens sb)) (concat sb) [] ++ rest) [] =
    Ok (rest, [], false, if transmit_rank then Some my_rank else None).
  Proof.
    intros RR RS L. rewrite scatter_leaf by auto. unfold scatter_blocks. cbn [length Nat.eqb negb].
    unfold offsets. rewrite offsets_last. cbn [Nat.add]. rewrite <- concat_lens, drain_bytes. reflexivity.
  Qed.

  Lemma scatter_plain_spec my_rank sv lv offs loffs rest :
    representable rank my_rank -> Forall (representable value) sv ->
    (length sv = length lv ->
     scatter A value size rank transmit_rank false leaf_count op true
       (message_size A value size rank transmit_rank false leaf_count (length sv)) loffs
       (gather A value size rank transmit_rank false my_rank offs sv [] ++ rest) lv =
     Ok (rest, combined op lv sv, true, if transmit_rank then Some my_rank else None)) /\
    (length sv <> length lv ->
     scatter A value size rank transmit_rank false leaf_count op true
       (message_size A value size rank transmit_rank false leaf_count (length sv)) loffs
       (gather A value size rank transmit_rank false my_rank offs sv [] ++ rest) lv = Throw).
  Proof.
    intros RR RV.
    assert (N : (if transmit_rank then message_size A value size rank transmit_rank false leaf_count (length sv) - width rank
       else message_size A value size rank transmit_rank false leaf_count (length sv)) / width value = length sv).
    { unfold message_size. destruct VO as (W & _).
      replace (if transmit_rank then _ else _) with (length sv * width value) by (destruct transmit_rank; lia).
      apply Nat.div_mul. lia. }
    unfold scatter. rewrite gather_plain. cbn [app]. rewrite <- !app_assoc, read_header by auto. cbn [bind].
    rewrite N. unfold scatter_same. split; intros H.
    - rewrite H, Nat.eqb_refl. cbn [negb].
      pose proof (scatter_range_bytes sv [] lv [] rest RV H) as E. cbn [length app] in E. rewrite !app_nil_r in E. rewrite E. reflexivity.
    - replace (length lv =? length sv) with false by (symmetry; apply Nat.eqb_neq; auto). reflexivity.
  Qed.

  Lemma gather_size send my_rank sb :
    length sb = leaf_count ->
    length (gather A value size rank transmit_rank send my_rank (offsets (lens sb)) (concat sb) []) =
    message_size A value size rank transmit_rank send leaf_count (length (concat sb)).
  Proof.
    intros L. assert (H : length (header my_rank) = if transmit_rank then width rank else 0).
    { unfold header. destruct transmit_rank; auto. apply RO. }
    unfold message_size. destruct send.
    - rewrite gather_leaf. cbn [app]. rewrite !app_length, H, !bytes_length, tl_offsets_length, L by auto. lia.
    - rewrite gather_plain. cbn [app]. rewrite !app_length, H, bytes_length by auto. lia.
  Qed.
End handle.
