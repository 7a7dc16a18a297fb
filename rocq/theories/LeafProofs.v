(** Proofs about leaf updates. *)
From Verif Require Export LeafSpec CommonFacts OrderingProofs.

Lemma same_entity_eq a b : same_entity a b = true <-> a = b.
Proof. destruct a, b; unfold same_entity; cbn. rewrite andb_true_iff, !Nat.eqb_eq. split; [intros [-> ->]|intros [= -> ->]]; auto. Qed.

Lemma same_entity_refl a : same_entity a a = true.
Proof. now apply same_entity_eq. Qed.

Lemma same_entity_neq a b : a <> b -> same_entity a b = false.
Proof. intros N. destruct (same_entity a b) eqn:E; auto. now apply same_entity_eq in E. Qed.

Lemma cell_dofs_snoc p en0 i en :
  cell_dofs (p ++ [(en0, i)]) en = Nat.max (cell_dofs p en) (if same_entity en0 en then S i else 0).
Proof.
  unfold cell_dofs. rewrite filter_app, map_app, list_max_app. cbn [filter fst].
  destruct (same_entity en0 en); cbn; lia.
Qed.

Lemma number_snoc cells c en : number_of_dofs (cells ++ [c]) en = Nat.max (number_of_dofs cells en) (cell_dofs c en).
Proof. unfold number_of_dofs. rewrite map_app, list_max_app. cbn. lia. Qed.

Lemma list_max_in l x : In x l -> x <= list_max l.
Proof. induction l as [|a l IH]; cbn; intros []; [lia|]. apply IH in H. unfold list_max in *. lia. Qed.

Lemma list_max_attained l : 0 < list_max l -> In (list_max l) l.
Proof.
  induction l as [|a l IH]; cbn; [lia|]. fold (list_max l). intros H.
  destruct (Nat.max_spec a (list_max l)) as [[? E]|[? E]]; rewrite E in *; auto.
Qed.

Lemma cell_dofs_le c en i : In (en, i) c -> i < cell_dofs c en.
Proof.
  intros H. unfold cell_dofs. apply (list_max_in _ (S i)). apply in_map_iff. exists (en, i). split; auto.
  apply filter_In. split; auto. apply same_entity_refl.
Qed.

Lemma cell_dofs_pos c en : 0 < cell_dofs c en -> In (en, cell_dofs c en - 1) c.
Proof.
  intros H. apply list_max_attained in H as H'. fold (cell_dofs c en) in H'. apply in_map_iff in H' as ([en' i] & E & H').
  apply filter_In in H' as [H' S]. apply same_entity_eq in S. cbn in *. subst en'. rewrite <- E. cbn. now rewrite Nat.sub_0_r.
Qed.

Lemma number_le cells c en : In c cells -> cell_dofs c en <= number_of_dofs cells en.
Proof. intros H. apply list_max_in. apply in_map_iff. eauto. Qed.

Lemma number_pos cells en : 0 < number_of_dofs cells en -> exists c, In c cells /\ cell_dofs c en = number_of_dofs cells en.
Proof.
  intros H. apply list_max_attained in H. fold (number_of_dofs cells en) in H.
  apply in_map_iff in H as (c & E & H). eauto.
Qed.

Lemma attached_below cells en i : attached cells en i -> i < number_of_dofs cells en.
Proof.
  intros (c & H & K). apply cell_dofs_le in K. assert (cell_dofs c en <= number_of_dofs cells en) by now apply number_le. lia.
Qed.

Lemma number_attached cells en : 0 < number_of_dofs cells en -> attached cells en (number_of_dofs cells en - 1).
Proof.
  intros H. destruct (number_pos _ _ H) as (c & Hc & E). exists c. split; auto. rewrite <- E. apply cell_dofs_pos. lia.
Qed.

Lemma put_ok {A} (l : list A) i x : i < length l -> put l i x = Ok (upd i x l).
Proof. intros H. unfold put. destruct (Nat.ltb_spec i (length l)); auto; lia. Qed.

Lemma nil_or_snoc {A} (l : list A) : l = [] \/ exists l' x, l = l' ++ [x].
Proof. destruct l as [|a l]; auto. right. destruct (exists_last (l := a :: l)) as (l' & x & ->); [discriminate|]. eauto. Qed.

(** ** Collecting the used geometry types *)
Definition type_used (cells : list keys) (gt : nat) : Prop := exists en i, attached cells en i /\ fst en = gt.

Lemma collect_keys (c : keys) used : (forall en i, In (en, i) c -> fst en < length used) ->
  exists used', foldM (fun used k => put used (fst (fst k)) true) c used = Ok used' /\ length used' = length used /\
    forall gt, nth gt used' false = true <-> nth gt used false = true \/ exists en i, In (en, i) c /\ fst en = gt.
Proof.
  intros G.
  pose (P := fun (p : keys) (u : list bool) => length u = length used /\
    forall gt, nth gt u false = true <-> nth gt used false = true \/ exists en i, In (en, i) p /\ fst en = gt).
  destruct (foldM_inv (fun (used : list bool) (k : ent * nat) => put used (fst (fst k)) true) P c used) as (u & E & HP).
  - split; auto. intros gt. split; auto. intros [H|(? & ? & [] & _)]; auto.
  - intros p [en i] u [L HU] K. cbn [fst]. assert (B : fst en < length u) by (rewrite L; eauto).
    rewrite put_ok by auto. eexists. split; [reflexivity|]. split; [now rewrite upd_length|].
    intros gt. destruct (Nat.eq_dec (fst en) gt) as [<-|N].
    + rewrite upd_nth_same by auto. split; auto. intros _. right. exists en, i. split; auto. apply in_or_app. right. now left.
    + rewrite upd_nth_other by auto. rewrite HU. split; intros [H|(en' & i' & H & T)]; auto; right.
      * exists en', i'. split; auto. apply in_or_app. now left.
      * apply in_app_or in H as [H|[[= -> ->]|[]]]; [eauto|congruence].
  - exists u. destruct HP. auto.
Qed.

Lemma collected direct ngt before (cells : list keys) : (forall c en i, In c cells -> In (en, i) c -> fst en < ngt) ->
  exists st, foldM collect_cell cells (pre_collect direct ngt before) = Ok st /\
    length (gt_used st) = ngt /\ gt_dof_sizes st = repeat None ngt /\
    max_local st = Nat.max (if direct then 0 else before) (list_max (map (@length _) cells)) /\
    forall gt, nth gt (gt_used st) false = true <-> type_used cells gt.
Proof.
  intros G.
  pose (P := fun (p : list keys) (st : leaf) => length (gt_used st) = ngt /\ gt_dof_sizes st = repeat None ngt /\
    max_local st = Nat.max (if direct then 0 else before) (list_max (map (@length _) p)) /\
    forall gt, nth gt (gt_used st) false = true <-> type_used p gt).
  destruct (foldM_inv collect_cell P cells (pre_collect direct ngt before)) as (st & E & HP); eauto.
  - cbn. unfold P; cbn. rewrite repeat_length, Nat.max_0_r. repeat split; auto.
    + intros H. rewrite nth_repeat in H. discriminate.
    + intros (? & ? & (? & [] & _) & _).
  - intros p c st (L & D & M & U) K.
    destruct (collect_keys c (gt_used st)) as (u & Eu & Lu & Hu); [intros; rewrite L; eauto|].
    unfold collect_cell. rewrite Eu. cbn. eexists. split; [reflexivity|]. unfold P; cbn. split; [congruence|]. split; auto. split.
    + rewrite map_app, list_max_app. cbn. lia.
    + intros gt. rewrite Hu, U. split.
      * intros [(en & i & (c' & ? & ?) & T)|(en & i & H & T)].
        -- exists en, i. split; auto. exists c'. split; auto. apply in_or_app. auto.
        -- exists en, i. split; auto. exists c. split; auto. apply in_or_app. right. now left.
      * intros (en & i & (c' & H & H') & T). apply in_app_or in H as [H|[->|[]]].
        -- left. exists en, i. split; auto. exists c'. auto.
        -- right. eauto.
Qed.

(** ** Extracting the sizes *)
Section Extract.
  Variable direct : bool.
  Variable counts : list nat.
  Variable used : list bool.
  Hypothesis used_len : length used = length counts.
  Let w := map (fun p => if (fst p : bool) then snd p else 0) (combine used counts).
  Let shift := if direct then 1 else 0.

  Lemma w_length : length w = length counts.
  Proof. unfold w. rewrite map_length, combine_length. lia. Qed.

  Lemma w_nth gt : nth gt used false = true -> nth gt w 0 = nth gt counts 0.
  Proof.
    unfold w. clear w. revert used_len. generalize counts as cs. clear counts. generalize used as us. clear used.
    induction gt as [|gt IH]; intros [|u us] [|c cs] L H; cbn in *; try discriminate; auto.
    now rewrite H.
  Qed.

  Lemma w_unused gt : nth gt used false = false -> nth gt w 0 = 0.
  Proof.
    unfold w. clear w. revert used_len. generalize counts as cs. clear counts. generalize used as us. clear used.
    induction gt as [|gt IH]; intros [|u us] [|c cs] L H; cbn in *; try discriminate; auto.
    now rewrite H.
  Qed.

  Definition usable (en : ent) : Prop := in_grid counts en /\ nth (fst en) used false = true.
  Definition position (en : ent) : nat := pre w (fst en) + snd en + shift.

  Lemma position_inj en en' : usable en -> usable en' -> position en = position en' -> en = en'.
  Proof.
    intros [[G1 G2] U] [[G1' G2'] U'] E. unfold position in E. destruct en as [g e], en' as [g' e']. cbn [fst snd] in *.
    destruct (pre_inj w g e g' e') as [-> ->]; auto; rewrite ?w_nth; auto. lia.
  Qed.

  Lemma position_bound en : usable en -> position en < sum_nat w + shift.
  Proof. intros [[G1 G2] U]. unfold position. assert (pre w (fst en) + snd en < sum_nat w) by (apply pre_bound; now rewrite w_nth). lia. Qed.

  Section Cell.
    Variable pre_cells : list keys.
    Variable c : keys.
    Hypothesis c_ok : forall en i, In (en, i) c -> usable en.
    Variable dofs : list nat.
    Hypothesis len : length dofs = sum_nat w + shift.
    Hypothesis start : forall en, usable en -> nth (position en) dofs 0 = number_of_dofs pre_cells en.

    Definition last_size (gt v : nat) : Prop :=
      ((forall en i, In (en, i) c -> fst en <> gt) /\ v = 0) \/
      exists en i, In (en, i) c /\ fst en = gt /\ v = number_of_dofs (pre_cells ++ [c]) en.

    Lemma extract_keys : exists dofs' loc,
      foldM (extract_key direct (psums 0 w)) c (dofs, repeat 0 (length counts)) = Ok (dofs', loc) /\
      length dofs' = length dofs /\ length loc = length counts /\
      (direct = true -> nth 0 dofs' 0 = nth 0 dofs 0) /\
      (forall en, usable en -> nth (position en) dofs' 0 = number_of_dofs (pre_cells ++ [c]) en) /\
      forall gt, gt < length counts -> last_size gt (nth gt loc 0).
    Proof.
      pose (now_ := fun (p : keys) en => Nat.max (number_of_dofs pre_cells en) (cell_dofs p en)).
      pose (P := fun (p : keys) (s : list nat * list nat) => let (d, loc) := s in
        (forall en i, In (en, i) p -> In (en, i) c) /\
        length d = length dofs /\ length loc = length counts /\
        (direct = true -> nth 0 d 0 = nth 0 dofs 0) /\
        (forall en, usable en -> nth (position en) d 0 = now_ p en) /\
        forall gt, gt < length counts ->
          ((forall en i, In (en, i) p -> fst en <> gt) /\ nth gt loc 0 = 0) \/
          exists en i, In (en, i) p /\ fst en = gt /\ nth gt loc 0 = now_ p en).
      destruct (foldM_inv (extract_key direct (psums 0 w)) P c (dofs, repeat 0 (length counts))) as ([d loc] & E & HP).
      - unfold P. rewrite repeat_length. split; [intros ? ? []|]. split; auto. split; auto. split; auto. split.
        + intros en U. unfold now_. rewrite start by auto. cbn. lia.
        + intros gt _. left. split; auto. apply nth_repeat.
      - intros p [[gt e] i] [d loc] (Hp & L & LL & Z & D & S) K.
        pose proof (c_ok _ _ K) as U. pose proof (position_bound _ U) as B. pose proof U as [[G1 G2] Us]. cbn [fst snd] in *.
        unfold extract_key. rewrite at_psums by (rewrite w_length; lia). cbn [bind].
        fold shift. assert (PP : pre w gt + e + shift = position (gt, e)) by reflexivity. rewrite PP.
        rewrite (at_nth d _ 0) by lia. cbn [bind]. rewrite put_ok by lia. cbn [bind]. rewrite put_ok by (rewrite LL; auto).
        cbn [bind].
        rewrite D by auto. eexists. split; [reflexivity|].
        assert (V : Nat.max (now_ p (gt, e)) (i + 1) = now_ (p ++ [((gt, e), i)]) (gt, e)).
        { unfold now_. rewrite cell_dofs_snoc, same_entity_refl. lia. }
        rewrite V. unfold P. rewrite !upd_length. split; [|split; [auto|split; [auto|split; [|split]]]].
        + intros en j H. apply in_app_or in H as [H|[[= <- <-]|[]]]; auto.
        + intros Hd. rewrite upd_nth_other; auto. unfold position, shift. rewrite Hd. lia.
        + intros en Ue. destruct (same_entity (gt, e) en) eqn:Ee.
          * apply same_entity_eq in Ee. subst en. rewrite upd_nth_same by lia. reflexivity.
          * rewrite upd_nth_other.
            -- rewrite D by auto. unfold now_. rewrite cell_dofs_snoc, Ee. lia.
            -- intros Q. apply position_inj in Q; auto. subst en. rewrite same_entity_refl in Ee. discriminate.
        + intros g Hg. destruct (Nat.eq_dec gt g) as [<-|N].
          * right. exists (gt, e), i. split; [apply in_or_app; right; now left|]. split; auto. now rewrite upd_nth_same by lia.
          * rewrite upd_nth_other by auto. destruct (S g Hg) as [[A B']|(en & j & A & T & B')].
            -- left. split; auto. intros en j H. apply in_app_or in H as [H|[[= <- <-]|[]]]; cbn; eauto.
            -- right. exists en, j. split; [apply in_or_app; now left|]. split; auto. rewrite B'. unfold now_.
               rewrite cell_dofs_snoc. rewrite same_entity_neq; [lia|]. intros <-. cbn in T. congruence.
      - destruct HP as (_ & L & LL & Z & D & S). exists d, loc. split; auto. split; auto. split; auto. split; auto. split.
        + intros en U. rewrite D by auto. unfold now_. now rewrite number_snoc.
        + intros gt Hg. destruct (S gt Hg) as [A|(en & j & A & T & B)]; [left; auto|right].
          exists en, j. split; auto. split; auto. rewrite B. unfold now_. now rewrite number_snoc.
    Qed.
  End Cell.

  Lemma compare_true known loc r : compare_sizes known loc = (r, true) -> length known = length loc ->
    r = map Some loc /\ forall gt, nth gt known None = None \/ nth gt known None = Some (nth gt loc 0).
  Proof.
    revert loc r. induction known as [|k known IH]; intros [|l loc] r E L; cbn in *; try discriminate.
    - injection E as <-. split; auto. intros [|gt]; auto.
    - destruct k as [s|].
      + destruct (Nat.eqb_spec s l) as [->|]; [|discriminate]. destruct (compare_sizes known loc) as [r' b] eqn:C.
        injection E as <- ->. destruct (IH _ _ C) as [-> H]; [lia|]. split; auto. intros [|gt]; auto.
      + destruct (compare_sizes known loc) as [r' b] eqn:C. injection E as <- ->. destruct (IH _ _ C) as [-> H]; [lia|].
        split; auto. intros [|gt]; auto.
  Qed.

  Lemma compare_false known loc r : compare_sizes known loc = (r, false) -> length known = length loc ->
    exists gt s, gt < length loc /\ nth gt known None = Some s /\ s <> nth gt loc 0.
  Proof.
    revert loc r. induction known as [|k known IH]; intros [|l loc] r E L; cbn in *; try discriminate.
    destruct k as [s|].
    - destruct (Nat.eqb_spec s l) as [->|N].
      + destruct (compare_sizes known loc) as [r' b] eqn:C. injection E as <- ->.
        destruct (IH _ _ C) as (gt & s & H); [lia|]. exists (S gt), s. repeat split; try apply H. lia.
      + exists 0, s. repeat split; auto. lia.
    - destruct (compare_sizes known loc) as [r' b] eqn:C. injection E as <- ->.
      destruct (IH _ _ C) as (gt & s & H); [lia|]. exists (S gt), s. repeat split; try apply H. lia.
  Qed.

  Lemma compare_length known loc : length (fst (compare_sizes known loc)) = length known.
  Proof.
    revert loc. induction known as [|k known IH]; intros [|l loc]; cbn; auto.
    destruct k as [s|].
    - destruct (s =? l); cbn; auto. specialize (IH loc). destruct (compare_sizes known loc). cbn in *. lia.
    - specialize (IH loc). destruct (compare_sizes known loc). cbn in *. lia.
  Qed.

  (** Two cells report different sizes for a geometry type. *)
  Definition disagree (cells : list keys) : Prop :=
    exists gt p1 c p2 v p1' c' p2' v', gt < length counts /\ cells = p1 ++ c :: p2 /\ cells = p1' ++ c' :: p2' /\
      last_size p1 c gt v /\ last_size p1' c' gt v' /\ v <> v'.

  Lemma disagree_snoc cells c : disagree cells -> disagree (cells ++ [c]).
  Proof.
    intros (gt & p1 & c1 & p2 & v & p1' & c1' & p2' & v' & B & E & E' & L & L' & N).
    exists gt, p1, c1, (p2 ++ [c]), v, p1', c1', (p2' ++ [c]), v'. repeat split; auto.
    - now rewrite E, <- app_assoc.
    - now rewrite E', <- app_assoc.
  Qed.

  Definition extracted (cells : list keys) (m0 : nat) (st : leaf) : Prop :=
    gt_used st = used /\ gt_entity_offsets st = psums 0 w /\ length (gt_dof_sizes st) = length counts /\
    length (per_entity st) = sum_nat w + shift /\
    (direct = true -> nth 0 (per_entity st) 0 = 0) /\
    (forall en, usable en -> nth (position en) (per_entity st) 0 = number_of_dofs cells en) /\
    max_local st = (if direct then m0 else Nat.max m0 (list_max (map (@length _) cells))) /\
    (fixed_possible st = true ->
      (cells = [] /\ gt_dof_sizes st = repeat None (length counts)) \/
      (cells <> [] /\ exists s, gt_dof_sizes st = map Some s /\ length s = length counts /\
        forall p1 c p2, cells = p1 ++ c :: p2 -> forall gt, gt < length counts -> last_size p1 c gt (nth gt s 0))) /\
    (fixed_possible st = false -> disagree cells).

  Lemma extract_all cells m0 : (forall c en i, In c cells -> In (en, i) c -> usable en) ->
    exists st, foldM (extract_cell direct) cells
      (mkleaf false true m0 used (repeat None (length counts)) (psums 0 w) (repeat 0 (last (psums 0 w) 0 + shift))) = Ok st /\
      extracted cells m0 st.
  Proof.
    intros G. apply (foldM_inv (extract_cell direct) (fun p st => extracted p m0 st)).
    - split; [reflexivity|]. split; [reflexivity|]. cbn. rewrite !repeat_length, psums_last. split; auto. split; auto. split.
      { intros _. apply nth_repeat. } split.
      { intros en _. now rewrite nth_repeat. } split; [case direct; auto; lia|]. split; auto. discriminate.
    - intros p c st (U & O & L & LD & Z & D & M & F & FF) K.
      destruct (extract_keys p c (fun en i H => G c en i K H) (per_entity st) LD D) as (d' & loc & E & L' & LL & Z' & D' & S).
      unfold extract_cell. rewrite O, L, E. cbn.
      destruct (if fixed_possible st then compare_sizes (gt_dof_sizes st) loc else (gt_dof_sizes st, false)) as [sizes poss] eqn:C.
      eexists. split; [reflexivity|]. unfold extracted. cbn. split; auto. split; auto. split; [|split; [lia|split; [|split; [auto|split; [|split]]]]].
      + destruct (fixed_possible st); [|now injection C as <- <-].
        pose proof (compare_length (gt_dof_sizes st) loc) as X. rewrite C in X. cbn in X. lia.
      + intros Hd. rewrite Z', Z; auto.
      + rewrite map_app, list_max_app, M. cbn. case direct; auto. lia.
      + intros ->. destruct (fixed_possible st); [|discriminate]. specialize (F eq_refl).
        apply compare_true in C as [-> N]; [|lia]. right. split; [destruct p; discriminate|]. exists loc. split; auto. split; auto.
        intros p1 c' p2 Q gt Hg.
        destruct (nil_or_snoc p2) as [->|(p2' & l2 & ->)].
        * apply app_inj_tail in Q as [-> ->]. auto.
        * replace (p1 ++ c' :: p2' ++ [l2]) with ((p1 ++ c' :: p2') ++ [l2]) in Q by (rewrite <- app_assoc; reflexivity).
          apply app_inj_tail in Q as [Q _].
          destruct F as [[-> _]|(_ & s & Es & Ls & HF)]; [destruct p1; discriminate|].
          specialize (HF _ _ _ Q gt Hg). destruct (N gt) as [X|X]; rewrite Es in X.
          -- rewrite (nth_indep _ _ (Some 0)) in X by (rewrite map_length; lia). rewrite map_nth in X. discriminate.
          -- rewrite (nth_indep _ _ (Some 0)) in X by (rewrite map_length; lia). rewrite map_nth in X. injection X as <-. auto.
      + intros ->. destruct (fixed_possible st); [|apply disagree_snoc; auto]. specialize (F eq_refl).
        apply compare_false in C as (gt & s & B & N & Ne); [|lia].
        destruct F as [[-> Es]|(Np & s' & Es & Ls & HF)].
        { rewrite Es, nth_repeat in N. discriminate. }
        rewrite Es in N. rewrite (nth_indep _ _ (Some 0)) in N by (rewrite map_length; lia). rewrite map_nth in N. injection N as <-.
        destruct p as [|c1 p2]; [contradiction|]. rewrite LL in B.
        exists gt, [], c1, (p2 ++ [c]), (nth gt s' 0), (c1 :: p2), c, [], (nth gt loc 0). repeat split; auto.
        apply (HF [] c1 p2); auto.
  Qed.
End Extract.
