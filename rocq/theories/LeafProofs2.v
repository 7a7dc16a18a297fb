(** Proofs about leaf updates, continued: the sizes after an update. *)
From Verif Require Export LeafProofs.

Lemma at_some {A} (l : list A) i x : nth_error l i = Some x -> at_ l i = Ok x.
Proof. unfold at_. now intros ->. Qed.

Lemma at_row d k : k < length d -> at_ (tl (psums 0 d)) k = Ok (pre d (S k)).
Proof. intros H. apply at_some. now apply nth_error_row. Qed.

(** What one knows after the loops over the cells. *)
Lemma update_state direct f counts cells before : fem_fixed f = false -> on_entities counts cells ->
  exists used st,
    leaf_update direct f counts cells before = Ok (finalize direct st) /\
    length used = length counts /\ (forall gt, nth gt used false = true <-> type_used cells gt) /\
    extracted direct counts used cells (Nat.max (if direct then 0 else before) (list_max (map (@length _) cells))) st.
Proof.
  intros Ff G.
  destruct (collected direct (length counts) before cells) as (st1 & E1 & L1 & D1 & M1 & U1).
  { intros c en i Hc Hk. now apply (G c en i). }
  destruct (extract_all direct counts (gt_used st1) L1 cells (max_local st1)) as (st2 & E2 & X).
  { intros c en i Hc Hk. split; [eapply G; eauto|]. apply U1. exists en, i. split; auto. exists c. auto. }
  exists (gt_used st1), st2. unfold leaf_update. rewrite Ff, E1. cbn [bind]. unfold allocate. rewrite D1.
  assert (fx : fixed_size st1 = false).
  { clear - E1. assert (I : forall l s s', foldM collect_cell l s = Ok s' -> fixed_size s' = fixed_size s).
    { induction l as [|c l IH]; intros s s' H; cbn in H; [now injection H as <-|].
      apply bind_ok in H as (s1 & Hc & H). apply IH in H. rewrite H. unfold collect_cell in Hc.
      apply bind_ok in Hc as (u & _ & Hc). now injection Hc as <-. }
    apply I in E1. now rewrite E1. }
  rewrite fx. change (if direct then 1 else 0) with (if direct then 1 else 0) in E2. rewrite E2. cbn [bind].
  split; auto. split; auto. split; auto. now rewrite <- M1.
Qed.

Lemma unused_number cells en : ~ type_used cells (fst en) -> number_of_dofs cells en = 0.
Proof.
  intros N. destruct (number_of_dofs cells en) eqn:E; auto. destruct N. exists en, (number_of_dofs cells en - 1). split; auto.
  apply number_attached. lia.
Qed.

(** Entity sizes that vary. *)
Lemma variable_sizes direct f counts cells before st : fem_fixed f = false -> on_entities counts cells ->
  leaf_update direct f counts cells before = Ok st -> fixed_size st = false ->
  forall en, in_grid counts en -> entity_size direct st (fst en) (snd en) = Ok (number_of_dofs cells en).
Proof.
  intros Ff G E Fx en Hen. destruct (update_state direct f counts cells before Ff G) as (used & s & E' & LU & HU & X).
  rewrite E' in E. injection E as <-. destruct X as (U & O & L & LD & Z & D & M & F & FF).
  unfold finalize in *. destruct (fixed_possible s) eqn:P; [discriminate|]. unfold entity_size. cbn [fixed_size gt_used gt_entity_offsets per_entity].
  rewrite U. rewrite (at_nth used _ false) by (rewrite LU; apply Hen). cbn [bind].
  destruct (nth (fst en) used false) eqn:Eu.
  - assert (Us : usable counts used en) by (split; auto).
    pose proof (position_bound direct counts used LU en Us) as B. pose proof (D en Us) as DD.
    unfold position in B, DD. set (w := map _ _) in *.
    rewrite O. rewrite at_psums by (unfold w; rewrite w_length; auto; destruct Hen; lia). cbn [bind].
    destruct direct.
    + rewrite !at_row by lia. cbn [bind]. f_equal.
      rewrite (pre_S _ (pre w (fst en) + snd en + 1)), DD.
      replace (S (pre w (fst en) + snd en)) with (pre w (fst en) + snd en + 1) by lia. lia.
    + rewrite Nat.add_0_r in *. rewrite (at_nth _ _ 0) by lia. now rewrite DD.
  - rewrite unused_number; auto. intros T. apply HU in T. congruence.
Qed.

(** Sizes that are the same for all entities of a type. *)
Lemma fixed_detected direct f counts cells before st : fem_fixed f = false -> on_entities counts cells ->
  leaf_update direct f counts cells before = Ok st -> fixed_size st = true ->
  exists s, (forall gt e, gt < length counts -> entity_size direct st gt e = Ok (nth gt s 0)) /\
    (cells = [] -> forall gt, nth gt s 0 = 0) /\
    forall p1 c p2, cells = p1 ++ c :: p2 -> forall gt, gt < length counts -> last_size p1 c gt (nth gt s 0).
Proof.
  intros Ff G E Fx. destruct (update_state direct f counts cells before Ff G) as (used & s & E' & LU & HU & X).
  rewrite E' in E. injection E as <-. destruct X as (U & O & L & LD & Z & D & M & F & FF).
  unfold finalize in *. destruct (fixed_possible s) eqn:P; [|discriminate]. unfold entity_size. cbn [fixed_size gt_dof_sizes].
  destruct (F eq_refl) as [[-> Es]|(N & v & Es & Lv & Hv)].
  - exists (repeat 0 (length counts)). split; [|split; [intros _ gt; apply nth_repeat|intros [|? ?] ? ? [=]]].
    intros gt e H. rewrite Es. rewrite (at_nth _ _ (Some 0)) by now rewrite map_length, repeat_length.
    cbn [bind]. rewrite nth_repeat. replace (nth gt (map _ (repeat None (length counts))) (Some 0)) with (Some 0); auto.
    clear. revert gt. induction (length counts) as [|n IH]; intros [|gt]; cbn; auto.
  - exists v. split; [|split; [contradiction|auto]].
    intros gt e H. rewrite Es, map_map. rewrite (at_nth _ _ (Some 0)) by (rewrite map_length; lia). cbn [bind].
    change (Some 0) with ((fun x : nat => Some x) 0). now rewrite map_nth.
Qed.

Lemma fixed_sound direct f counts cells before st : fem_fixed f = false -> on_entities counts cells ->
  leaf_update direct f counts cells before = Ok st -> fixed_size st = true -> Forall uniform cells ->
  forall en i, attached cells en i -> exists n, entity_size direct st (fst en) (snd en) = Ok n /\ i < n /\
    (consistent cells -> n = number_of_dofs cells en).
Proof.
  intros Ff G E Fx HU en i (c & Hc & Hk). destruct (fixed_detected _ _ _ _ _ _ Ff G E Fx) as (s & Hs & _ & HL).
  pose proof (G c en i Hc Hk) as [B _]. exists (nth (fst en) s 0). split; [auto|].
  destruct (in_split _ _ Hc) as (p1 & p2 & Ec). specialize (HL _ _ _ Ec _ B).
  rewrite Forall_forall in HU. specialize (HU _ Hc).
  destruct HL as [[A _]|(en' & i' & K & T & V)]; [now destruct (A en i Hk)|].
  assert (Q : cell_dofs c en = cell_dofs c en') by (eapply HU; eauto).
  assert (L : i < cell_dofs c en) by now apply cell_dofs_le.
  assert (W : cell_dofs c en' <= nth (fst en) s 0).
  { rewrite V. apply number_le. apply in_or_app. right. now left. }
  split; [lia|]. intros Co.
  assert (N : forall e j, In (e, j) c -> number_of_dofs cells e = cell_dofs c e).
  { intros e j Hj. assert (cell_dofs c e <= number_of_dofs cells e) by now apply number_le.
    pose proof (cell_dofs_le _ _ _ Hj). destruct (number_pos cells e) as (c2 & H2 & E2); [lia|].
    assert (0 < cell_dofs c2 e) as P2 by lia. apply cell_dofs_pos in P2. rewrite <- E2. eapply Co; eauto. }
  rewrite (N _ _ Hk). assert (number_of_dofs (p1 ++ [c]) en' <= number_of_dofs cells en').
  { rewrite Ec. unfold number_of_dofs. rewrite !map_app, !list_max_app. cbn. fold (list_max (map (fun c0 => cell_dofs c0 en') p2)). lia. }
  rewrite (N _ _ K) in H. lia.
Qed.

Lemma fixed_found direct f counts cells before st n : fem_fixed f = false -> on_entities counts cells ->
  leaf_update direct f counts cells before = Ok st -> homogeneous counts n cells -> fixed_size st = true.
Proof.
  intros Ff G E HH. destruct (update_state direct f counts cells before Ff G) as (used & s & E' & LU & HU & X).
  rewrite E' in E. injection E as <-. destruct X as (U & O & L & LD & Z & D & M & F & FF).
  unfold finalize. destruct (fixed_possible s); auto. destruct (FF eq_refl) as (gt & p1 & c & p2 & v & p1' & c' & p2' & v' & B & Ec & Ec' & V & V' & N).
  destruct N.
  assert (Q : forall p1 c p2 v, cells = p1 ++ c :: p2 -> last_size p1 c gt v -> v = n gt).
  { clear p1 c p2 v p1' c' p2' v' Ec Ec' V V'. intros p1 c p2 v Ec V.
    assert (Hc : In c cells) by (rewrite Ec; apply in_or_app; right; now left).
    destruct (HH c gt Hc B) as [H1 H2]. destruct V as [[A ->]|(en & i & K & T & ->)].
    - destruct H2 as [(en & i & K & T)|H2]; [now destruct (A en i K)|auto].
    - rewrite number_snoc, (H1 en i K T). assert (number_of_dofs p1 en <= n gt); [|lia].
      destruct (number_of_dofs p1 en) eqn:En; [lia|]. destruct (number_pos p1 en) as (c2 & H2' & E2); [lia|].
      assert (In c2 cells) as H2c by (rewrite Ec; apply in_or_app; auto).
      assert (0 < cell_dofs c2 en) as P2 by lia. apply cell_dofs_pos in P2.
      destruct (HH c2 gt H2c B) as [H3 _]. rewrite <- En, <- E2. rewrite (H3 _ _ P2 T). auto. }
  rewrite (Q _ _ _ _ Ec V). now rewrite (Q _ _ _ _ Ec' V').
Qed.

Lemma update_ok direct f counts cells before : on_entities counts cells ->
  exists st, leaf_update direct f counts cells before = Ok st /\
    (fem_fixed f = false -> max_local st = Nat.max (if direct then 0 else before) (list_max (map (@length _) cells))).
Proof.
  intros G. destruct (fem_fixed f) eqn:Ff.
  - unfold leaf_update. rewrite Ff. eexists. split; [reflexivity|discriminate].
  - destruct (update_state direct f counts cells before Ff G) as (used & s & E' & LU & HU & X).
    eexists. split; [eauto|]. intros _. destruct X as (_ & _ & _ & _ & _ & _ & M & _).
    unfold finalize. destruct (fixed_possible s); cbn; rewrite M; destruct direct; lia.
Qed.

Lemma promised direct f counts cells before st : fem_fixed f = true -> keeps_promise f cells -> on_entities counts cells ->
  leaf_update direct f counts cells before = Ok st ->
  fixed_size st = true /\ (forall c, In c cells -> length c <= max_local st) /\
  (forall gt e, gt < length counts -> entity_size direct st gt e = Ok (if 0 <? nth gt counts 0 then fem_size f gt else 0)) /\
  forall en i, attached cells en i -> exists n, entity_size direct st (fst en) (snd en) = Ok n /\ i < n.
Proof.
  intros Ff [K1 K2] G E. unfold leaf_update in E. rewrite Ff in E. injection E as <-. split; auto. split; auto.
  assert (S : forall gt e, gt < length counts -> entity_size direct (update_fixed f counts) gt e =
            Ok (if 0 <? nth gt counts 0 then fem_size f gt else 0)).
  { intros gt e H. unfold entity_size, update_fixed. cbn [fixed_size gt_dof_sizes]. rewrite map_map.
    rewrite (at_nth _ _ (Some (if 0 <? snd (0, 0) then fem_size f (fst (0, 0)) else 0)))
      by (rewrite map_length, combine_length, seq_length; lia).
    cbn [bind]. rewrite (map_nth (fun p => Some (if 0 <? snd p then fem_size f (fst p) else 0)) _ (0, 0)).
    rewrite combine_nth by now rewrite seq_length. rewrite seq_nth by auto. reflexivity. }
  split; auto. intros en i A. assert (GR : in_grid counts en) by (destruct A as (c & ? & ?); eapply G; eauto). destruct GR as [G1 G2].
  rewrite S by auto. eexists. split; [reflexivity|]. destruct (Nat.ltb_spec 0 (nth (fst en) counts 0)); [auto|lia].
Qed.

(** ** The leaf data that the index maps work with *)
Lemma data_dofs_on direct counts st en n : in_grid counts en -> (forall gt, nth gt (gt_used st) false = false -> fixed_size st = false ->
    entity_size direct st gt (snd en) = Ok 0) ->
  (fixed_size st = true -> forall gt e e', entity_size direct st gt e = entity_size direct st gt e') ->
  entity_size direct st (fst en) (snd en) = Ok n -> dofs_on (leaf_data direct counts st) en = n.
Proof.
  intros [G1 G2] U Fe E. unfold leaf_data, dofs_on. destruct (fixed_size st) eqn:Fx.
  - rewrite nth_error_map_seq by auto. cbn. destruct (Nat.ltb_spec (snd en) (nth (fst en) counts 0)); [|lia].
    rewrite (Fe eq_refl _ 0 (snd en)), E. reflexivity.
  - rewrite nth_error_map_seq by auto. destruct (nth (fst en) (gt_used st) false) eqn:Eu.
    + rewrite (nth_map_seq (fun e => answer (entity_size direct st (fst en) e))) by auto. now rewrite E.
    + destruct (snd en); rewrite U in E by auto; injection E as <-; reflexivity.
Qed.

Lemma data_sizes_for direct counts st : sizes_for counts (leaf_data direct counts st).
Proof.
  unfold leaf_data. destruct (fixed_size st); cbn.
  - rewrite map_map. cbn. apply (nth_ext _ _ 0 0); [now rewrite map_length, seq_length|].
    intros k Hk. rewrite map_length, seq_length in Hk. now rewrite nth_map_seq.
  - split; [now rewrite map_length, seq_length|]. intros gt l H.
    assert (gt < length counts). { rewrite <- (seq_length (length counts) 0), <- (map_length (fun gt => if nth gt (gt_used st) false
                                   then map (fun e => answer (entity_size direct st gt e)) (seq 0 (nth gt counts 0)) else [])). apply nth_error_Some. congruence. }
    rewrite nth_error_map_seq in H by auto. injection H as <-. destruct (nth gt (gt_used st) false); auto. right. now rewrite map_length, seq_length.
Qed.
