From Verif Require Import Common CommonFacts OrderingModel OrderingSpec OrderingProofs OrderingProofs2.

Lemma mapM_id {A} (f : A -> res A) l : (forall x, In x l -> f x = Ok x) -> mapM f l = Ok l.
Proof.
  intros H. induction l as [|x l IH]; [reflexivity|]. cbn. rewrite (H x) by now left. cbn [bind].
  rewrite IH; [reflexivity|]. intros y Hy. apply H. now right.
Qed.

Lemma lex_tree_update o : lex_tree o -> update o = Ok o /\ well_formed o /\ flat o.
Proof.
  induction o as [b s|b ents t|b cs IH|b m cs IH|bs o IH|perm o IH] using ord_ind'; intros H; inversion H as [|cs' Hcs]; subst.
  - repeat split; [|constructor]. constructor. discriminate.
  - rewrite Forall_forall in *. repeat split.
    + cbn [update]. rewrite mapM_id; [reflexivity|]. intros x Hx. apply IH; auto.
    + constructor. apply Forall_forall. intros x Hx. apply IH; auto.
    + constructor. apply Forall_forall. intros x Hx. apply IH; auto.
Qed.

Lemma lex_bijection o o' : lex_tree o -> update o = Ok o' ->
  o' = o /\ blockCount o' = osize o' /\ numbers_bijectively o' (osize o').
Proof.
  intros H E. destruct (lex_tree_update o H) as (Eu & Hwf & Hfl). rewrite Eu in E. injection E as <-.
  split; auto. now apply flat_bijective.
Qed.

Lemma inter_layout b sizes n cs : balanced sizes n cs -> Forall well_formed cs -> Forall flat cs ->
  let o := OInter b (tag_offsets sizes) cs in
  let position x c r := if b then [x; before sizes c + r] else [x * sum_nat sizes + (before sizes c + r)] in
  blockCount o = (if b then n else n * sum_nat sizes) /\
  (forall en c p, dof_of o en (c :: p) -> exists x s r, x < n /\ nth_error sizes c = Some s /\ r < s /\
     mapIndex o en (c :: p) = Ok (position x c r)) /\
  (forall x c s r, x < n -> nth_error sizes c = Some s -> r < s ->
     exists en p, dof_of o en (c :: p) /\ mapIndex o en (c :: p) = Ok (position x c r)).
Proof.
  intros (Hne & Hbal) Hcs Hfl o position.
  assert (HS : 0 < sum_nat sizes) by (eapply inter_sum_pos; eauto). repeat split.
  - unfold o. cbn [blockCount]. unfold tag_offsets. rewrite !psums_last, (inter_total _ _ _ Hbal). cbn [Nat.add].
    destruct b; auto. apply Nat.div_mul. lia.
  - intros en c p Hd. destruct (dof_inter_inv _ _ _ _ _ Hd) as (c' & o' & q & Eq & E & Hq). injection Eq as <- <-.
    pose proof (Forall_nth_error _ _ _ _ Hcs E) as Hwo.
    destruct (flat_index o' Hwo (Forall_nth_error _ _ _ _ Hfl E) en p Hq) as (h & Eh).
    destruct (wf_separates o' Hwo) as (A & _). destruct (A en p Hq) as (h' & t' & Eh' & Hh). rewrite Eh in Eh'. injection Eh' as <- <-.
    destruct (Forall2_nth_error _ _ _ _ _ Hbal E) as (s & Es & Hs & Ebc).
    exists (h / s), s, (h mod s). rewrite Ebc in Hh. repeat split; auto.
    + apply Nat.div_lt_upper_bound; lia.
    + apply Nat.mod_upper_bound; lia.
    + unfold o. cbn [mapIndex]. rewrite (at_map _ _ _ _ E). cbn [bind]. rewrite Eh. cbn [bind].
      rewrite (inter_map_ok b sizes c s h []) by auto. unfold position. destruct b; reflexivity.
  - intros x c s r Hx Es Hr.
    destruct (Forall2_nth_error_l _ _ _ _ _ Hbal Es) as (o2 & E2 & Hs2 & Ebc2).
    assert (Hk2 : x * s + r < blockCount o2) by (rewrite Ebc2; nia).
    pose proof (Forall_nth_error _ _ _ _ Hcs E2) as Hwo. pose proof (Forall_nth_error _ _ _ _ Hfl E2) as Hfo.
    destruct (ba_full o2 Hwo (ba_flat _ Hfo) _ Hk2) as (en2 & p2 & t2 & Hd2 & Em2).
    destruct (flat_index o2 Hwo Hfo en2 p2 Hd2) as (h & Eh). rewrite Em2 in Eh. injection Eh as _ ->.
    exists en2, p2. split; [unfold o; econstructor; eauto|].
    unfold o. cbn [mapIndex]. rewrite (at_map _ _ _ _ E2). cbn [bind]. rewrite Em2. cbn [bind].
    rewrite (inter_map_ok b sizes c s _ [] Es Hs2).
    destruct (div_mod_unique_ s (x * s + r) r x Hr eq_refl) as [-> ->]. unfold position. destruct b; reflexivity.
Qed.

Lemma inter_bijection b sizes n cs : balanced sizes n cs -> Forall well_formed cs -> Forall flat cs ->
  let o := OInter b (tag_offsets sizes) cs in
  separates o /\ (b = false -> numbers_bijectively o (osize o)).
Proof.
  intros (Hne & Hbal) Hcs Hfl o.
  assert (Hwf : well_formed o) by (unfold o; econstructor; eauto).
  split; [now apply wf_separates|]. intros ->. apply flat_bijective; auto. unfold o. now constructor.
Qed.

Lemma chunk_update bs o o' : 0 < bs -> update o = Ok o' ->
  update (OChunk bs o) = if blockCount o' mod bs =? 0 then Ok (OChunk bs o') else Throw.
Proof. intros Hb E. cbn [update]. rewrite E. cbn [bind]. now replace (bs =? 0) with false by lia. Qed.

Lemma chunk_layout bs o : 0 < bs -> blockCount o mod bs = 0 -> well_formed o -> flat o ->
  (forall en p, dof_of (OChunk bs o) en p -> exists i, mapIndex o en p = Ok [i] /\ i < osize o /\
     mapIndex (OChunk bs o) en p = Ok [i / bs; i mod bs]) /\
  (forall x y, x < osize o / bs -> y < bs -> exists en p, dof_of (OChunk bs o) en p /\ mapIndex (OChunk bs o) en p = Ok [x; y]) /\
  separates (OChunk bs o) /\
  (forall md, 0 < md -> size_suffix md (OChunk bs o) [] = Ok (osize o / bs)) /\
  (forall md x, size_suffix md (OChunk bs o) [x] = Ok bs).
Proof.
  intros Hb Hdiv Hwf Hfl. destruct (flat_bijective o Hwf Hfl) as (Ec & A & B & C). rewrite Ec in Hdiv.
  assert (Hbc : osize o = osize o / bs * bs) by (rewrite (Nat.div_mod (osize o) bs) at 1 by lia; lia).
  split; [|split; [|split; [|split]]].
  - intros en p Hd. apply dof_chunk_inv in Hd. destruct (A en p Hd) as (i & Ei & Hi). exists i. repeat split; auto.
    cbn [mapIndex]. rewrite Ei. cbn. now replace (bs =? 0) with false by lia.
  - intros x y Hx Hy. destruct (C (x * bs + y)) as (en & p & Hd & Em); [rewrite Hbc; nia|].
    exists en, p. split; [now constructor|]. cbn [mapIndex]. rewrite Em. cbn [bind chunk_map]. replace (bs =? 0) with false by lia.
    destruct (div_mod_unique_ bs (x * bs + y) y x Hy eq_refl) as [-> ->]. reflexivity.
  - apply wf_separates. constructor; auto. congruence.
  - intros md Hmd. cbn [size_suffix blockCount]. now rewrite Ec.
  - reflexivity.
Qed.

Lemma perm_layout perm o : Permutation perm (seq 0 (osize o)) -> well_formed o -> flat o ->
  (forall en p, dof_of (OPerm perm o) en p -> exists i j, mapIndex o en p = Ok [i] /\ nth_error perm i = Some j /\
     mapIndex (OPerm perm o) en p = Ok [j]) /\
  numbers_bijectively (OPerm perm o) (osize o).
Proof.
  intros Hp Hwf Hfl. destruct (flat_bijective o Hwf Hfl) as (Ec & A & B & C). split.
  - intros en p Hd. apply dof_perm_inv in Hd. destruct (A en p Hd) as (i & Ei & Hi).
    assert (L : i < length perm) by (rewrite (Permutation_length Hp), seq_length; auto).
    pose proof (nth_error_nth' perm 0 L) as En. exists i, (nth i perm 0). repeat split; auto.
    cbn [mapIndex]. rewrite Ei. cbn [bind perm_map]. now rewrite (at_ok _ _ _ En).
  - assert (W : well_formed (OPerm perm o)) by (constructor; auto; rewrite Ec; auto).
    destruct (flat_bijective _ W (flat_perm _ _ Hfl)) as (Ec' & Hn).
    replace (osize (OPerm perm o)) with (osize o) in Hn by (cbn [osize]; rewrite psums_last; cbn; lia). exact Hn.
Qed.

(** What update() leaves behind: the wrapped ordering's own numbering. *)
Lemma perm_update perm o o' o1 : update (OPerm perm o) = Ok o' -> update o = Ok o1 -> well_formed o1 -> flat o1 ->
  forall en p, dof_of o1 en p -> mapIndex o' en p = mapIndex o1 en p.
Proof.
  intros E E1 Hwf Hfl en p Hd. cbn [update] in E. rewrite E1 in E. cbn [bind] in E.
  destruct (_ && _); [discriminate|]. injection E as <-.
  destruct (flat_bijective o1 Hwf Hfl) as (Ec & A & _). destruct (A en p Hd) as (i & Ei & Hi).
  cbn [mapIndex]. rewrite Ei. cbn [bind perm_map].
  rewrite (at_nth _ _ 0) by (rewrite seq_length; lia). now rewrite seq_nth by lia.
Qed.
