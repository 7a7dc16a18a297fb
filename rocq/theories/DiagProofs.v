(** Proofs about the diagonal and off-diagonal wrappers. *)
From Coq Require Import FunctionalExtensionality Lra.
From Verif Require Import CommonFacts DiagModel EngineSpec EngineProofs EngineProofs2 EngineProofs3 ConsProofs2 ConsProofs3 DiagSpec.
Local Open Scope R_scope.

Lemma lsum_filter_split {A} (f : A -> R) p l : lsum f l = lsum f (filter p l) + lsum f (filter (fun a => negb (p a)) l).
Proof.
  induction l as [|a l IH]; [cbn [filter]; rewrite !lsum_nil; ring|]. cbn [filter]. rewrite lsum_cons, IH. destruct (p a); cbn [negb]; rewrite lsum_cons; ring.
Qed.
Lemma lsum_filter {A} (f : A -> R) p l : lsum f (filter p l) = lsum (fun a => if p a then f a else 0) l.
Proof.
  induction l as [|a l IH]; [reflexivity|]. cbn [filter]. rewrite lsum_cons, <- IH. destruct (p a); [now rewrite lsum_cons|ring].
Qed.
Lemma scatter_absent ds v g : ~ In g ds -> scatter ds v g = 0.
Proof.
  unfold scatter. generalize 0%nat. induction ds as [|d ds IH]; intros i H; cbn [scatter_from]; [reflexivity|].
  rewrite IH by (intro; apply H; now right). destruct (Nat.eqb_spec d g) as [->|]; [exfalso; apply H; now left|ring].
Qed.
Lemma mscatter_absent_row rows cols a g h : ~ In g rows -> mscatter rows cols a g h = 0.
Proof. intros H. unfold mscatter. now apply scatter_absent. Qed.
Lemma mscatter_absent_col rows cols a g h : ~ In h cols -> mscatter rows cols a g h = 0.
Proof.
  intros H. unfold mscatter. rewrite (scatter_ext _ _ vzero); [now rewrite scatter_zero|]. intros i. now apply scatter_absent.
Qed.

Section Split.
  Variables (G : space) (e : env) (t : R) (x : vec) (cells : list cell) (m : slot -> slot) (J : jterms).
  Hypothesis HM : mirrored e cells m.
  Hypothesis HS : side_independent e cells m J.
  Let co (n : nat) := gather 0 x (lfsu G n).
  Notation SK := (interior_slots e cells).

  Definition blocks (s : slot) := let '(c, (i, f)) := s in j_skeleton J c f i t (co (cid c)) (co (outside f)).
  Definition inn (s : slot) := cid (fst s).
  Definition out (s : slot) := outside (snd (snd s)).
  Definition b_ss (g h : nat) (s : slot) := mscatter (lfsv G (inn s)) (lfsu G (inn s)) (fst (fst (blocks s))) g h.
  Definition b_sn (g h : nat) (s : slot) := mscatter (lfsv G (inn s)) (lfsu G (out s)) (snd (fst (blocks s))) g h.
  Definition b_ns (g h : nat) (s : slot) := mscatter (lfsv G (out s)) (lfsu G (inn s)) (fst (snd (blocks s))) g h.
  Definition b_nn (g h : nat) (s : slot) := mscatter (lfsv G (out s)) (lfsu G (out s)) (snd (snd (blocks s))) g h.

  Lemma mirror_sides s : In s SK -> inn (m s) = out s /\ out (m s) = inn s.
  Proof. intros H. destruct HM as [_ M]. destruct (M s H) as (_ & _ & A & B & _). split; assumption. Qed.
  Lemma mirror_blocks s : In s SK -> blocks (m s) = flip (blocks s).
  Proof.
    intros H. destruct (mirror_sides s H) as [A B]. pose proof (HS s t (co (inn s)) (co (out s)) H) as Q.
    unfold blocks. destruct s as (c, (i, f)). destruct (m (c, (i, f))) as (c', (i', f')).
    unfold inn, out in *. cbn [fst snd] in *. rewrite A, B. exact Q.
  Qed.
  Lemma mirror_b s g h : In s SK -> b_ss g h (m s) = b_nn g h s /\ b_sn g h (m s) = b_ns g h s /\ b_ns g h (m s) = b_sn g h s.
  Proof.
    intros H. unfold b_ss, b_sn, b_ns, b_nn. destruct (mirror_sides s H) as [-> ->]. rewrite (mirror_blocks s H).
    unfold flip. cbn [fst snd]. auto.
  Qed.

  (** the slot from which a one-sided operator sees the face *)
  Definition first_side (s : slot) : bool := (out s <? inn s)%nat.
  Lemma mirror_first s : In s SK -> first_side (m s) = negb (first_side s).
  Proof.
    intros H. unfold first_side. destruct (mirror_sides s H) as [-> ->]. destruct HM as [_ M]. destruct (M s H) as (_ & _ & _ & _ & N).
    fold (inn s) (out s) in N. destruct (Nat.ltb_spec (inn s) (out s)), (Nat.ltb_spec (out s) (inn s)); reflexivity || lia.
  Qed.
  Lemma mirror_nodup l : (forall s, In s l -> In s SK) -> NoDup l -> NoDup (map m l).
  Proof.
    intros I N. induction N as [|a l N1 N2 IH]; [constructor|]. cbn [map]. constructor.
    - intros K. apply in_map_iff in K as (b & E & Hb). destruct HM as [_ M].
      assert (a = b); [|subst; contradiction].
      destruct (M a) as (_ & A & _); [apply I; now left|]. destruct (M b) as (_ & B & _); [apply I; now right|]. congruence.
    - apply IH. intros; apply I; now right.
  Qed.
  Lemma mirror_perm : Permutation (map m (filter first_side SK)) (filter (fun s => negb (first_side s)) SK).
  Proof.
    destruct HM as [ND M]. apply NoDup_Permutation.
    - apply mirror_nodup; [intros s H; now apply filter_In in H|now apply NoDup_filter].
    - now apply NoDup_filter.
    - intros s. rewrite in_map_iff, filter_In. split.
      + intros (a & <- & H). apply filter_In in H as [H F]. split; [apply (M a H)|]. rewrite mirror_first by assumption. now rewrite F.
      + intros [H F]. exists (m s). split; [apply (M s H)|]. apply filter_In. split; [apply (M s H)|]. now rewrite mirror_first.
  Qed.
  Lemma mirror_perm_all : Permutation (map m SK) SK.
  Proof.
    destruct HM as [ND M]. apply NoDup_Permutation; [apply mirror_nodup; auto|assumption|].
    intros s. rewrite in_map_iff. split; [intros (a & <- & H); apply (M a H)|].
    intros H. exists (m s). split; apply (M s H).
  Qed.

  Lemma two_sided_sum (F F' : slot -> R) : (forall s, In s SK -> F (m s) = F' s) ->
    lsum F SK = lsum (fun s => F s + F' s) (filter first_side SK).
  Proof.
    intros H. rewrite (lsum_filter_split F first_side), <- (lsum_perm F _ _ mirror_perm), lsum_map, <- lsum_plus.
    apply lsum_ext. intros s Hs. apply filter_In in Hs as [Hs _]. now rewrite H.
  Qed.
  Lemma sum_mirror (F F' : slot -> R) : (forall s, In s SK -> F (m s) = F' s) -> lsum F SK = lsum F' SK.
  Proof. intros H. rewrite <- (lsum_perm F _ _ mirror_perm_all), lsum_map. apply lsum_ext. exact H. Qed.

  (** a matrix value as a sum over cells and a sum over slots *)
  Lemma jacobian_slots (L : terms R) (J' : jterms) g h :
    jacobian_value G e L J' t x cells g h =
    lsum (fun c => cell_jac G L J' t x c g h) (filter (fun c => negb (skip_entity e c)) cells) +
    lsum (fun s => face_jac G e L J' t x (fst s) (snd s) g h) (visited_slots e cells).
  Proof.
    unfold jacobian_value, visited_slots. rewrite lsum_flat_map, lsum_plus. f_equal. apply lsum_ext. intros c _. now rewrite lsum_map.
  Qed.

  (** the boundary part *)
  Definition b_bd (on : bool) (g h : nat) (s : slot) : R := let '(c, (i, f)) := s in
    mscatter (lfsv G (cid c)) (lfsu G (cid c)) (mopt on (j_boundary J c f i t (co (cid c)))) g h.
  Definition is_bd (s : slot) : bool := match classify e (snd (snd s)) with Boundary => true | _ => false end.
  Definition bd_sum on g h := lsum (b_bd on g h) (filter is_bd (visited_slots e cells)).

  Lemma slots_split (F : slot -> R) : (forall s, classify e (snd (snd s)) = Processor -> F s = 0) ->
    lsum F (visited_slots e cells) = lsum F SK + lsum F (filter is_bd (visited_slots e cells)).
  Proof.
    intros HP. unfold interior_slots. rewrite !lsum_filter, <- lsum_plus. apply lsum_ext. intros s _. unfold is_interior, is_bd.
    pose proof (HP s). destruct (classify e (snd (snd s))); try ring. rewrite H by reflexivity. ring.
  Qed.
  Lemma interior_class s : In s SK -> classify e (snd (snd s)) = Skeleton \/ classify e (snd (snd s)) = Periodic.
  Proof. intros H. apply filter_In in H as [_ H]. unfold is_interior in H. destruct (classify e (snd (snd s))); auto; discriminate. Qed.
  Lemma bd_class s : In s (filter is_bd (visited_slots e cells)) -> classify e (snd (snd s)) = Boundary.
  Proof. intros H. apply filter_In in H as [_ H]. unfold is_bd in H. destruct (classify e (snd (snd s))); auto; discriminate. Qed.

  Definition volume_sum (L : terms R) g h :=
    lsum (fun c => mscatter (lfsv G (cid c)) (lfsu G (cid c)) (mopt (do_alpha_volume L) (j_volume J c t (co (cid c)))) g h)
         (filter (fun c => negb (skip_entity e c)) cells).
  Definition skel (L : terms R) (F : slot -> R) : R := if do_alpha_skeleton L then lsum F (filter first_side SK) else 0.

  Lemma full_value L g h : do_two_sided L = false -> do_alpha_post L = false ->
    jacobian_value G e L J t x cells g h = volume_sum L g h + bd_sum (do_alpha_boundary L) g h +
      skel L (fun s => b_ss g h s + b_sn g h s + b_ns g h s + b_nn g h s).
  Proof.
    intros T P. rewrite jacobian_slots. rewrite Rplus_assoc. f_equal.
    - apply lsum_ext. intros c _. unfold cell_jac. rewrite P. cbn [mopt]. rewrite mscatter_zero. unfold co. ring.
    - rewrite slots_split. 2: { intros (c, (i, f)) H. cbn in *. now rewrite H. }
      rewrite Rplus_comm. f_equal.
      + apply lsum_ext. intros s Hs. apply bd_class in Hs. destruct s as (c, (i, f)). cbn in *. now rewrite Hs.
      + unfold skel. destruct (do_alpha_skeleton L) eqn:D.
        * rewrite lsum_filter. apply lsum_ext. intros s Hs. apply interior_class in Hs. unfold face_jac, first_side, b_ss, b_sn, b_ns, b_nn, blocks.
          destruct s as (c, (i, f)). cbn [fst snd inn out] in *. unfold inn, out. cbn [fst snd]. rewrite T, D, orb_false_r, andb_true_r. fold (co (cid c)) (co (outside f)).
          destruct (j_skeleton J c f i t (co (cid c)) (co (outside f))) as ((ss, sn), (ns, nn)). cbn [fst snd].
          destruct Hs as [-> | ->]; reflexivity.
        * apply lsum_zero. intros s Hs. apply interior_class in Hs. destruct s as (c, (i, f)). cbn in *. rewrite D, andb_false_r.
          destruct Hs as [-> | ->]; reflexivity.
  Qed.
  Lemma diag_value L g h :
    jacobian_value G e (diag_terms L) (diag_jterms J) t x cells g h = volume_sum L g h + bd_sum (do_alpha_boundary L) g h +
      skel L (fun s => b_ss g h s + b_nn g h s).
  Proof.
    rewrite jacobian_slots. rewrite Rplus_assoc. f_equal.
    - apply lsum_ext. intros c _. unfold cell_jac. cbn [diag_terms diag_flags do_alpha_volume do_alpha_post diag_jterms j_volume j_post mopt].
      rewrite mscatter_zero. unfold co. ring.
    - rewrite slots_split. 2: { intros (c, (i, f)) H. cbn in *. now rewrite H. }
      rewrite Rplus_comm. f_equal.
      + apply lsum_ext. intros s Hs. apply bd_class in Hs. destruct s as (c, (i, f)). cbn in *. now rewrite Hs.
      + unfold skel. destruct (do_alpha_skeleton L) eqn:D.
        * rewrite <- (two_sided_sum (b_ss g h) (b_nn g h)) by (intros s Hs; apply (mirror_b s g h Hs)).
          apply lsum_ext. intros s Hs. apply interior_class in Hs. unfold face_jac, b_ss, blocks.
          destruct s as (c, (i, f)). unfold inn, out. cbn [fst snd] in *.
          cbn [diag_terms diag_flags do_two_sided do_alpha_skeleton diag_jterms j_skeleton]. rewrite D, orb_true_r. cbn [andb]. rewrite !mscatter_zero. unfold co.
          destruct Hs as [-> | ->]; ring.
        * apply lsum_zero. intros s Hs. apply interior_class in Hs. destruct s as (c, (i, f)). cbn in *. rewrite D, andb_false_r.
          destruct Hs as [-> | ->]; reflexivity.
  Qed.
  Lemma off_value L g h :
    jacobian_value G e (off_terms L) (off_jterms J) t x cells g h = skel L (fun s => b_sn g h s + b_ns g h s).
  Proof.
    rewrite jacobian_slots. rewrite lsum_zero. 2: { intros c _. unfold cell_jac. cbn. rewrite !mscatter_zero. ring. }
    rewrite Rplus_0_l. rewrite slots_split. 2: { intros (c, (i, f)) H. cbn in *. now rewrite H. }
    rewrite (lsum_zero _ (filter is_bd _)).
    2: { intros s Hs. apply bd_class in Hs. destruct s as (c, (i, f)). cbn in *. rewrite Hs. apply mscatter_zero. }
    rewrite Rplus_0_r. unfold skel. destruct (do_alpha_skeleton L) eqn:D.
    - transitivity (lsum (b_ns g h) SK).
      + apply lsum_ext. intros s Hs. apply interior_class in Hs. unfold face_jac, b_ns, blocks.
        destruct s as (c, (i, f)). unfold inn, out. cbn [fst snd] in *.
        cbn [off_terms off_flags do_two_sided do_alpha_skeleton off_jterms j_skeleton]. rewrite D, orb_true_r. cbn [andb]. rewrite !mscatter_zero. unfold co.
        destruct Hs as [-> | ->]; ring.
      + rewrite (two_sided_sum (b_ns g h) (b_sn g h)) by (intros s Hs; apply (mirror_b s g h Hs)). apply lsum_ext. intros. ring.
    - apply lsum_zero. intros s Hs. apply interior_class in Hs. destruct s as (c, (i, f)). cbn in *. rewrite D, andb_false_r.
      destruct Hs as [-> | ->]; reflexivity.
  Qed.

  (** discontinuous spaces *)
  Variable owner : nat -> nat.
  Hypothesis HG : dg_space G owner.
  Lemma dg_absent rows cols c c' a g h : rows = lfsv G c -> cols = lfsu G c' -> (owner g <> c \/ owner h <> c') -> mscatter rows cols a g h = 0.
  Proof.
    intros -> -> [H|H].
    - apply mscatter_absent_row. intros I. apply H. apply HG. auto.
    - apply mscatter_absent_col. intros I. apply H. apply HG. auto.
  Qed.
  Lemma lsum_all_zero {A} (f : A -> R) l : (forall a, In a l -> f a = 0) -> lsum f l = 0. Proof. apply lsum_zero. Qed.

  Lemma diag_zero L g h : owner g <> owner h ->
    volume_sum L g h = 0 /\ bd_sum (do_alpha_boundary L) g h = 0 /\ skel L (fun s => b_ss g h s + b_nn g h s) = 0.
  Proof.
    intros N. assert (K : forall c, owner g <> c \/ owner h <> c).
    { intros c. destruct (Nat.eq_dec (owner g) c); [right; congruence|now left]. }
    split; [|split].
    - apply lsum_zero. intros c _. eapply dg_absent; auto.
    - apply lsum_zero. intros (c, (i, f)) _. cbn. eapply dg_absent; auto.
    - unfold skel. destruct (do_alpha_skeleton L); [|reflexivity]. apply lsum_zero. intros s _. unfold b_ss, b_nn.
      rewrite !(dg_absent _ _ _ _ _ _ _ eq_refl eq_refl (K _)). ring.
  Qed.
  Lemma off_zero L g h : owner g = owner h -> skel L (fun s => b_sn g h s + b_ns g h s) = 0.
  Proof.
    intros E. unfold skel. destruct (do_alpha_skeleton L); [|reflexivity]. apply lsum_zero. intros s Hs. apply filter_In in Hs as [Hs _].
    destruct HM as [_ M]. destruct (M s Hs) as (_ & _ & _ & _ & N). fold (inn s) (out s) in N. unfold b_sn, b_ns.
    rewrite !(dg_absent _ _ _ _ _ g h eq_refl eq_refl) by (destruct (Nat.eq_dec (owner g) (inn s)), (Nat.eq_dec (owner g) (out s)); lia). ring.
  Qed.

  Theorem diag_is_block L g h : do_two_sided L = false -> do_alpha_post L = false ->
    jacobian_value G e (diag_terms L) (diag_jterms J) t x cells g h =
    if (owner g =? owner h)%nat then jacobian_value G e L J t x cells g h else 0.
  Proof.
    intros T P. rewrite diag_value. destruct (Nat.eqb_spec (owner g) (owner h)) as [E|N].
    - rewrite full_value by assumption. pose proof (off_zero L g h E) as Z. revert Z. unfold skel.
      destruct (do_alpha_skeleton L); [|intros; ring]. rewrite !lsum_plus. intros Z.
      replace (lsum (b_sn g h) (filter first_side SK)) with (- lsum (b_ns g h) (filter first_side SK)) by lra. ring.
    - destruct (diag_zero L g h N) as (-> & -> & ->). ring.
  Qed.
  Theorem off_is_block L g h : do_two_sided L = false -> do_alpha_post L = false ->
    jacobian_value G e (off_terms L) (off_jterms J) t x cells g h =
    if (owner g =? owner h)%nat then 0 else jacobian_value G e L J t x cells g h.
  Proof.
    intros T P. rewrite off_value. destruct (Nat.eqb_spec (owner g) (owner h)) as [E|N].
    - now apply off_zero.
    - rewrite full_value by assumption. destruct (diag_zero L g h N) as (V & B & Z). rewrite V, B. revert Z. unfold skel.
      destruct (do_alpha_skeleton L); [|intros; ring]. rewrite !lsum_plus. lra.
  Qed.
End Split.
