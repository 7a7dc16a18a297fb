(** Proofs about the fast DG operator: comparison with the default one, and complete entries in parallel. *)
From Coq Require Import FunctionalExtensionality Lra.
From Verif Require Import CommonFacts EngineProofs EngineProofs2 EngineProofs3 ConsProofs2 ConsProofs3 DiagProofs DiagProofs2.
From Verif Require Export FastProofs2.
Local Open Scope R_scope.

Section Complete.
  Variables (e : env) (cells : list cell) (p : part) (fl : flags) (m : slot -> slot) (o : nat).
  Variables (CELL : cell -> R) (NEAR FAR BD : slot -> R).
  Let own c := negb (interior_border p) || own_cell p c.
  Let inn (s : slot) := cid (fst s). Let out (s : slot) := outside (snd (snd s)).
  Let l := inner_slots own e cells.
  Hypothesis HO : own o = true.
  Hypothesis HC : forall c, cid c <> o -> CELL c = 0.
  Hypothesis HN : forall s, inn s <> o -> NEAR s = 0.
  Hypothesis HF : forall s, out s <> o -> FAR s = 0.
  Hypothesis HBD : forall s, inn s <> o -> BD s = 0.
  Hypothesis HM : mirrored_in l m.
  Hypothesis HS : if two_sided fl then forall s, In s l -> FAR s = 0 else forall s, In s l -> NEAR (m s) = FAR s.

  Definition face_part (s : slot) : R :=
    match classify e (snd (snd s)) with
    | Skeleton | Periodic => if fast_visit p fl (fst s) (snd (snd s)) then NEAR s + FAR s else 0
    | Boundary => BD s
    | Processor => 0
    end.
  Definition face_complete (s : slot) : R :=
    match classify e (snd (snd s)) with Skeleton | Periodic => NEAR s | Boundary => BD s | Processor => 0 end.

  Let A (s : slot) : bool := own (inn s) && fast_visit p fl (fst s) (snd (snd s)).

  Lemma inner_perm : Permutation (map m l) l.
  Proof.
    destruct HM as [ND M].
    assert (NM : forall k, (forall s, In s k -> In s l) -> NoDup k -> NoDup (map m k)).
    { intros k I N. induction N as [|a k N1 N2 IH]; [constructor|]. cbn [map]. constructor.
      - intros K. apply in_map_iff in K as (b & E & Hb). assert (a = b); [|subst; contradiction].
        destruct (M a) as (_ & Q & _); [apply I; now left|]. destruct (M b) as (_ & Q' & _); [apply I; now right|]. congruence.
      - apply IH. intros; apply I; now right. }
    apply NoDup_Permutation; [apply NM; auto|assumption|].
    intros s. rewrite in_map_iff. split; [intros (b & <- & H); apply (M b H)|]. intros H. exists (m s). split; apply (M s H).
  Qed.

  Lemma visit_split s : In s l -> two_sided fl = false -> inn s = o -> (A s = true /\ A (m s) = false) \/ (A s = false /\ A (m s) = true).
  Proof.
    intros H T E. destruct HM as [_ M]. destruct (M s H) as (Hm & _ & I & O & N). fold (inn s) (out s) in *.
    unfold l, inner_slots in H. apply filter_In in H as [_ H]. apply andb_prop in H as [H1 H2]. fold (inn s) (out s) in H1, H2.
    unfold A, fast_visit. replace (inn (m s)) with (out s) by (symmetry; exact I). rewrite I, O, T, !orb_false_r, H1, H2. fold (inn s) (out s). cbn [andb].
    assert (B1 : interior_border p && negb (own_cell p (out s)) = false).
    { unfold own in H2. destruct (interior_border p), (own_cell p (out s)); cbn in *; congruence. }
    assert (B2 : interior_border p && negb (own_cell p (inn s)) = false).
    { unfold own in H1. destruct (interior_border p), (own_cell p (inn s)); cbn in *; congruence. }
    rewrite B1, B2, !orb_false_r. destruct (Nat.ltb_spec (out s) (inn s)), (Nat.ltb_spec (inn s) (out s)); auto; lia.
  Qed.

  Lemma inner_sum : lsum (fun s => if A s then NEAR s + FAR s else 0) l = lsum NEAR l.
  Proof.
    case_eq (two_sided fl); intros T; pose proof HS as HS1; rewrite T in HS1.
    - apply lsum_ext. intros s H. rewrite (HS1 s H). unfold A, fast_visit. rewrite T, orb_true_r. cbn [orb]. rewrite andb_true_r.
      unfold l, inner_slots in H. apply filter_In in H as [_ H]. apply andb_prop in H as [H1 _]. unfold inn. rewrite H1. lra.
    - transitivity (lsum (fun s => if A s then NEAR s else 0) l + lsum (fun s => if A s then FAR s else 0) l).
      { rewrite <- lsum_plus. apply lsum_ext. intros s _. destruct (A s); lra. }
      rewrite (lsum_ext (fun s => if A s then FAR s else 0) (fun s => if A (m (m s)) then NEAR (m s) else 0) l).
      2:{ intros s H. destruct HM as [_ M]. destruct (M s H) as (_ & -> & _). now rewrite (HS1 s H). }
      replace (lsum (fun s => if A (m (m s)) then NEAR (m s) else 0) l) with (lsum (fun s => if A (m s) then NEAR s else 0) l).
      2:{ rewrite <- (lsum_perm (fun s => if A (m s) then NEAR s else 0) _ _ inner_perm). now rewrite lsum_map. }
      rewrite <- lsum_plus. apply lsum_ext. intros s H. destruct (Nat.eq_dec (inn s) o) as [E|N].
      + destruct (visit_split s H T E) as [[-> ->]|[-> ->]]; lra.
      + rewrite (HN s N). destruct (A s), (A (m s)); lra.
  Qed.

  Lemma interior_sum : lsum (fun s => if A s then NEAR s + FAR s else 0) (interior_slots e cells) = lsum NEAR (interior_slots e cells).
  Proof.
    rewrite (lsum_filter_split _ (fun s => own (inn s) && own (out s))), (lsum_filter_split NEAR (fun s => own (inn s) && own (out s))).
    f_equal; [exact inner_sum|]. apply lsum_ext. intros s H. apply filter_In in H as [_ H].
    apply negb_true_iff in H. unfold A.
    destruct (own (inn s)) eqn:O1; cbn [andb] in *.
    - rewrite (HF s) by congruence. unfold fast_visit. fold (out s). unfold own in H. destruct (interior_border p); cbn in H; [|discriminate].
      rewrite H. cbn [andb negb]. rewrite orb_true_r. lra.
    - rewrite (HN s) by congruence. reflexivity.
  Qed.

  Lemma slots_sum : lsum (fun s => if own (inn s) then face_part s else 0) (visited_slots e cells) = lsum face_complete (visited_slots e cells).
  Proof.
    transitivity (lsum (fun s => (if is_interior e s then (if A s then NEAR s + FAR s else 0) else 0) + (if is_bd e s then BD s else 0)) (visited_slots e cells)).
    { apply lsum_ext. intros s _. unfold face_part, is_interior, is_bd, A. destruct (classify e (snd (snd s))); destruct (own (inn s)) eqn:O1; cbn [andb]; try lra.
      rewrite (HBD s) by congruence. lra. }
    rewrite lsum_plus, <- lsum_filter. fold (interior_slots e cells). rewrite interior_sum.
    unfold interior_slots. rewrite lsum_filter, <- lsum_plus. apply lsum_ext. intros s _. unfold face_complete, is_interior, is_bd.
    destruct (classify e (snd (snd s))); lra.
  Qed.

  Lemma complete_sum c : distinct_cells cells -> In c cells -> cid c = o -> skip_entity e c = false ->
    lsum (fun c => CELL c + lsum (fun q => face_part (c, q)) (numbered e c)) (fast_cells e p cells) =
    CELL c + lsum (fun q => face_complete (c, q)) (numbered e c).
  Proof.
    intros D I E SK.
    assert (FC : fast_cells e p cells = filter (fun c => own (cid c)) (filter (fun c => negb (skip_entity e c)) cells)).
    { unfold fast_cells. change (fun c : cell => negb (interior_border p) || own_cell p (cid c)) with (fun c : cell => own (cid c)).
      generalize cells. induction cells0 as [|b k IH]; auto. cbn [filter].
      destruct (negb (skip_entity e b)) eqn:S1; cbn [filter]; destruct (own (cid b)); cbn [filter]; rewrite ?S1; now rewrite ?IH. }
    rewrite FC, lsum_plus. set (cs := filter (fun c => negb (skip_entity e c)) cells) in *.
    assert (NC : NoDup cs) by (apply NoDup_filter, cells_nodup, D).
    assert (IC : In c cs) by (apply filter_In; rewrite SK; auto).
    assert (OC : forall b, In b cs -> b <> c -> cid b <> o).
    { intros b Hb N Q. apply N. apply filter_In in Hb as [Hb _]. apply (same_cell cells b c); auto. congruence. }
    f_equal.
    - apply (lsum_one CELL).
      + now apply NoDup_filter.
      + apply filter_In. rewrite E. auto.
      + intros b Hb N. apply filter_In in Hb as [Hb _]. apply HC. now apply OC.
    - rewrite lsum_filter.
      transitivity (lsum (fun s => if own (inn s) then face_part s else 0) (visited_slots e cells)).
      { unfold visited_slots. rewrite lsum_flat_map. apply lsum_ext. intros b _. rewrite lsum_map. cbn [inn fst]. unfold inn. cbn [fst].
        destruct (own (cid b)); auto. symmetry. apply lsum_zero. auto. }
      rewrite slots_sum. unfold visited_slots. rewrite lsum_flat_map. fold cs.
      rewrite (lsum_one _ cs c NC IC).
      + now rewrite lsum_map.
      + intros b Hb N. rewrite lsum_map. apply lsum_zero. intros q _. unfold face_complete. cbn [fst snd].
        assert (cid b <> o) by now apply OC. rewrite (HN (b, q)), (HBD (b, q)) by assumption. now destruct (classify _ _).
  Qed.
End Complete.

Lemma scatter_owner G own c v g : dg_space G own -> own g <> c -> scatter (lfsv G c) v g = 0.
Proof. intros D N. apply scatter_absent. intros I. apply N. apply (D c g). now right. Qed.
Lemma mscatter_owner G own c cols b g h : dg_space G own -> own g <> c -> mscatter (lfsv G c) cols b g h = 0.
Proof. intros D N. apply mscatter_absent_row. intros I. apply N. apply (D c g). now right. Qed.

Definition counted (p : part) (c : nat) : bool := negb (interior_border p) || own_cell p c.

Lemma fast_complete {X} (x0 : X) G own e L t x p cells m c g :
  dg_space G own -> distinct_cells cells -> mirrored_in (inner_slots (counted p) e cells) m ->
  sides_fit x0 G L t x (inner_slots (counted p) e cells) m ->
  In c cells -> skip_entity e c = false -> cid c = own g -> counted p (cid c) = true ->
  fast_value x0 G e L t x p cells g = complete_value x0 G e L t x c g.
Proof.
  intros D DC M S I SE E O. unfold fast_value, complete_value.
  apply (complete_sum e cells p (res_flags L) m (own g) (fun c => cell_value x0 G L t x c g)
           (fun s => near_value x0 G L t x (fst s) (snd s) g) (fun s => far_value x0 G L t x (fst s) (snd s) g)
           (fun s => boundary_value x0 G L t x (fst s) (snd s) g)); auto.
  - now rewrite <- E.
  - intros b N. unfold cell_value. rewrite !(scatter_owner G own) by auto. lra.
  - intros (b, (i, f)) N. cbn [fst snd] in *. unfold near_value. rewrite !(scatter_owner G own) by auto. lra.
  - intros (b, (i, f)) N. cbn [fst snd] in *. unfold far_value. rewrite !(scatter_owner G own) by auto. lra.
  - intros (b, (i, f)) N. cbn [fst snd] in *. unfold boundary_value. rewrite !(scatter_owner G own) by auto. lra.
  - unfold sides_fit in S. cbn [res_flags two_sided]. destruct (do_two_sided L); auto.
    intros s H. specialize (S s H). destruct M as [_ M]. destruct (M s H) as (_ & _ & A & B & _). destruct s as (b, (i, f)). destruct (m (b, (i, f))) as (b', (i', f')).
    cbn [fst snd] in *. destruct S as [SA SL]. unfold near_value, far_value. rewrite A, B.
    destruct (do_alpha_skeleton L), (do_lambda_skeleton L); cbn [opt2 fst snd]; rewrite ?SA, ?SL by auto; reflexivity.
Qed.

Lemma fast_complete_jac G own e L J t x p cells m c g h :
  dg_space G own -> distinct_cells cells -> mirrored_in (inner_slots (counted p) e cells) m ->
  sides_fit_jac G L J t x (inner_slots (counted p) e cells) m ->
  In c cells -> skip_entity e c = false -> cid c = own g -> counted p (cid c) = true ->
  fast_jac_value G e L J t x p cells g h = complete_jac G e L J t x c g h.
Proof.
  intros D DC M S I SE E O. unfold fast_jac_value, complete_jac.
  apply (complete_sum e cells p (jac_flags L) m (own g) (fun c => cell_jac G L J t x c g h)
           (fun s => near_jac G L J t x (fst s) (snd s) g h) (fun s => far_jac G L J t x (fst s) (snd s) g h)
           (fun s => boundary_jac G L J t x (fst s) (snd s) g h)); auto.
  - now rewrite <- E.
  - intros b N. unfold cell_jac. rewrite !(mscatter_owner G own) by auto. lra.
  - intros (b, (i, f)) N. cbn [fst snd] in *. unfold near_jac. rewrite !(mscatter_owner G own) by auto. destruct (do_alpha_skeleton L); lra.
  - intros (b, (i, f)) N. cbn [fst snd] in *. unfold far_jac. rewrite !(mscatter_owner G own) by auto. destruct (do_alpha_skeleton L); lra.
  - intros (b, (i, f)) N. cbn [fst snd] in *. unfold boundary_jac. now rewrite !(mscatter_owner G own) by auto.
  - unfold sides_fit_jac in S. cbn [jac_flags two_sided]. destruct (do_two_sided L); auto.
    intros s H. specialize (fun y z => S s y z H). destruct M as [_ M]. destruct (M s H) as (_ & _ & A & B & _). destruct s as (b, (i, f)). destruct (m (b, (i, f))) as (b', (i', f')).
    cbn [fst snd] in *. unfold near_jac, far_jac. rewrite A, B, S. destruct (do_alpha_skeleton L); auto.
    unfold flip. cbn [fst snd]. lra.
Qed.

(** Without ghost and overlap cells the fast sweep visits what the default one visits. *)
Lemma fast_operator_value {X} (x0 : X) G e L t x p cells g : interior_border p = false \/ all_interior p ->
  fast_value x0 G e L t x p cells g = operator_value x0 G e L t x cells g.
Proof.
  intros H. unfold fast_value, operator_value.
  replace (fast_cells e p cells) with (filter (fun c => negb (skip_entity e c)) cells).
  2:{ unfold fast_cells. rewrite (filter_true (fun c => negb (interior_border p) || own_cell p (cid c))); auto.
      intros c. destruct H as [-> | H]; auto. rewrite H. apply orb_true_r. }
  apply lsum_ext. intros c _. f_equal. apply lsum_ext. intros (i, f) _. unfold fast_face_value, face_value. cbn [snd].
  assert (V : fast_visit p (res_flags L) c f = (outside f <? cid c)%nat || do_two_sided L).
  { unfold fast_visit. cbn [res_flags two_sided]. destruct H as [-> | H]; cbn [andb]; [|rewrite H; cbn [negb]; rewrite andb_false_r]; now rewrite orb_false_r. }
  rewrite V. unfold near_value, far_value, boundary_value. destruct (classify e f); auto; destruct (_ || _); lra.
Qed.
Lemma fast_jacobian_value G e L J t x p cells g h : interior_border p = false \/ all_interior p ->
  fast_jac_value G e L J t x p cells g h = jacobian_value G e L J t x cells g h.
Proof.
  intros H. unfold fast_jac_value, jacobian_value.
  replace (fast_cells e p cells) with (filter (fun c => negb (skip_entity e c)) cells).
  2:{ unfold fast_cells. rewrite (filter_true (fun c => negb (interior_border p) || own_cell p (cid c))); auto.
      intros c. destruct H as [-> | H]; auto. rewrite H. apply orb_true_r. }
  apply lsum_ext. intros c _. f_equal. apply lsum_ext. intros (i, f) _. unfold fast_face_jac, face_jac. cbn [snd].
  assert (V : fast_visit p (jac_flags L) c f = (outside f <? cid c)%nat || do_two_sided L).
  { unfold fast_visit. cbn [jac_flags two_sided]. destruct H as [-> | H]; cbn [andb]; [|rewrite H; cbn [negb]; rewrite andb_false_r]; now rewrite orb_false_r. }
  rewrite V. unfold near_jac, far_jac, boundary_jac. destruct (classify e f); auto; destruct (_ || _); cbn [andb]; auto; destruct (do_alpha_skeleton L); try lra;
  destruct (j_skeleton J c f i t _ _) as ((ss, sn), (ns, nn)); cbn [fst snd]; lra.
Qed.
