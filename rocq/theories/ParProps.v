(** Properties C39, C40, C41 and C43 of the parallel exchange. *)
From Coq Require Import Reals Lra.
From Verif Require Import Common CommonFacts ParModel ParSpec ParProofs ParProofs2 ParProofs3.

(** ** C39: ownership *)

(** In every order of arrival every copy of every DOF ends up with the smallest rank on which its entity is interior or
    border. *)
Theorem c39_partition W only order :
  grid_ok W only -> Permutation order (ib_all_messages W only) ->
  exists part, rank_partition W order = Ok part /\
    forall q e, q < nranks W -> In e (held W q) ->
      exists r, smallest_ib W e r /\ part q e = repeat r (ndofs W e).
Proof. apply partition_spec. Qed.
Print Assumptions c39_partition.

(** Exactly one rank sees a stored DOF as its own. *)
Theorem c39_unique_owner W only order part x :
  grid_ok W only -> Permutation order (ib_all_messages W only) -> rank_partition W order = Ok part ->
  (exists q, has_dof W q x) ->
  exists r, has_dof W r x /\ at_dof 0 (part r) x = r /\
    forall q, has_dof W q x -> at_dof 0 (part q) x = q -> q = r.
Proof.
  intros G P E (q & Q & H & K). destruct (partition_spec W only order G P) as (part' & E' & F).
  rewrite E in E'. injection E' as <-.
  destruct (F q (fst x) Q H) as (r & R & _). exists r.
  pose proof R as ((R1 & R2 & R3) & R4).
  split; [repeat split; auto|]. split.
  - destruct (F r (fst x) R1 R2) as (r' & R' & V). unfold at_dof. rewrite V, at_repeat by auto. eapply smallest_unique; eauto.
  - intros q' (Q' & H' & K') O. destruct (F q' (fst x) Q' H') as (r' & R' & V). unfold at_dof in O.
    rewrite V, at_repeat in O by auto. subst. eapply smallest_unique; eauto.
Qed.
Print Assumptions c39_unique_owner.

(** The result does not depend on the order of arrival. *)
Theorem c39_schedule_independent W only o o' part part' q x :
  grid_ok W only -> Permutation o (ib_all_messages W only) -> Permutation o' (ib_all_messages W only) ->
  rank_partition W o = Ok part -> rank_partition W o' = Ok part' -> has_dof W q x ->
  at_dof 0 (part q) x = at_dof 0 (part' q) x.
Proof.
  intros G P P' E E' (Q & H & K).
  destruct (partition_spec W only o G P) as (p1 & E1 & F1). destruct (partition_spec W only o' G P') as (p2 & E2 & F2).
  rewrite E in E1. injection E1 as <-. rewrite E' in E2. injection E2 as <-.
  destruct (F1 q _ Q H) as (r1 & R1 & V1). destruct (F2 q _ Q H) as (r2 & R2 & V2).
  unfold at_dof. rewrite V1, V2, !at_repeat by auto. eapply smallest_unique; eauto.
Qed.
Print Assumptions c39_schedule_independent.

(** isGhost() holds exactly for the DOFs of entities that are neither interior nor border on the rank. *)
Theorem c39_ghosts W only order :
  grid_ok W only -> Permutation order (ib_all_messages W only) ->
  exists g, ghosts W order = Ok g /\
    forall q e, q < nranks W -> In e (held W q) -> g q e = repeat (negb (ib W q e)) (ndofs W e).
Proof. apply ghosts_spec. Qed.
Print Assumptions c39_ghosts.

(** getNeighborRanks() lists exactly the other ranks that own a DOF stored here ... *)
Theorem c39_neighbor_ranks W only order part q r :
  grid_ok W only -> Permutation order (ib_all_messages W only) -> rank_partition W order = Ok part -> q < nranks W ->
  (In r (neighbor_ranks W part q) <-> r <> q /\ exists x, has_dof W q x /\ smallest_ib W (fst x) r).
Proof.
  intros G P E Q. destruct (partition_spec W only order G P) as (part' & E' & F).
  rewrite E in E'. injection E' as <-.
  unfold neighbor_ranks. rewrite filter_In, in_seq, andb_true_iff, negb_true_iff, Nat.eqb_neq, existsb_exists.
  split.
  - intros (_ & D & e & H & B). split; auto. apply existsb_exists in B as (r' & B & X). apply Nat.eqb_eq in X. subst r'.
    destruct (F q e Q H) as (r' & R' & V). rewrite V in B. pose proof B as B'. apply repeat_spec in B. subst r'.
    destruct (ndofs W e) as [|n] eqn:Z; [destruct B'|].
    exists (e, 0). split; auto. unfold has_dof. cbn [fst snd]. rewrite Z. repeat split; auto. lia.
  - intros (D & [e k] & (_ & H & K) & R). cbn in *. split; [destruct R as ((R & _) & _); lia|]. split; auto.
    exists e. split; auto. apply existsb_exists. exists r. rewrite Nat.eqb_refl. split; auto.
    destruct (F q e Q H) as (r' & R' & V). rewrite V. rewrite (smallest_unique _ _ _ _ R R').
    destruct (ndofs W e); [lia|]. now left.
Qed.
Print Assumptions c39_neighbor_ranks.

(** ... which is not the list "of all neighboring processes" its documentation promises: two ranks can share a DOF
    while only one of them lists the other. *)
Definition two_ranks : world := World 2 (fun _ => [0]) (fun _ _ => true) (fun _ => 1).
Theorem c39_neighbor_ranks_refuted :
  exists W order part, grid_ok W false /\ Permutation order (ib_all_messages W false) /\
    rank_partition W order = Ok part /\ is_shared W (0, 0) /\
    neighbor_ranks W part 1 = [0] /\ neighbor_ranks W part 0 = [].
Proof.
  exists two_ranks, (ib_all_messages two_ranks false).
  eexists. split; [|split; [reflexivity|split; [reflexivity|]]].
  - split; [intros q _; repeat constructor; intros []|]. split; [|discriminate].
    intros q e _ I. exists 0. cbn. repeat split; auto.
  - split; [|split; reflexivity]. exists 0, 1. unfold has_dof. cbn. repeat split; auto.
Qed.
Print Assumptions c39_neighbor_ranks_refuted.

(** Three ranks: entity 0 is interior on rank 1 and overlap on rank 0, entity 1 is border on all three (two DOFs),
    entity 2 is interior on rank 2 and overlap on rank 1, entity 3 is stored on rank 2 only. *)
Definition three_ranks : world :=
  World 3 (fun q => match q with 0 => [0; 1] | 1 => [0; 1; 2] | _ => [1; 2; 3] end)
        (fun q e => match e with 0 => q =? 1 | 1 => true | 2 => q =? 2 | _ => true end)
        (fun e => match e with 1 => 2 | _ => 1 end).

Lemma three_ranks_ok : grid_ok three_ranks false.
Proof.
  split.
  - intros q Q. destruct q as [|[|[|q]]]; cbn in *; try lia; repeat constructor; cbn; intuition discriminate.
  - split; [|discriminate]. intros q e Q I.
    destruct q as [|[|[|q]]]; cbn in *; try lia.
    + destruct I as [<-|[<-|[]]]; [exists 1|exists 0]; cbn; auto 10.
    + destruct I as [<-|[<-|[<-|[]]]]; [exists 1|exists 0|exists 2]; cbn; auto 10.
    + destruct I as [<-|[<-|[<-|[]]]]; [exists 0|exists 2|exists 2]; cbn; auto 10.
Qed.

Example c39_meets :
  grid_ok three_ranks false /\
  length (ib_all_messages three_ranks false) = 8 /\
  exists part g, rank_partition three_ranks (rev (ib_all_messages three_ranks false)) = Ok part /\
    ghosts three_ranks (rev (ib_all_messages three_ranks false)) = Ok g /\
    part 0 0 = [1] /\ part 1 0 = [1] /\ part 2 1 = [0; 0] /\ part 1 2 = [2] /\ part 2 3 = [2] /\
    g 0 0 = [true] /\ g 1 0 = [false].
Proof.
  split; [apply three_ranks_ok|]. split; [reflexivity|].
  eexists _, _. split; [reflexivity|]. split; [reflexivity|]. vm_compute. auto 10.
Qed.

(** ** C40: scalar products *)

(** The sum over the ranks of disjointDot() counts every DOF once, with the values its owner stores. *)
Theorem c40_disjoint_dot W only order part (shape : nat -> blocks dof) (x y : nat -> dof -> R) all (owner : dof -> nat) :
  grid_ok W only -> Permutation order (ib_all_messages W only) -> rank_partition W order = Ok part ->
  (forall q, q < nranks W -> arranges W q (flatten (shape q))) -> all_dofs W all ->
  (forall d, In d all -> smallest_ib W (fst d) (owner d)) ->
  rsum (fun q => disjoint_dot q (bmap (x q) (shape q)) (bmap (y q) (shape q)) (bmap (at_dof 0 (part q)) (shape q)))
       (seq 0 (nranks W)) =
  rsum (fun d => x (owner d) d * y (owner d) d)%R all.
Proof.
  intros G P E SH A OW. destruct (partition_spec W only order G P) as (part' & E' & F).
  rewrite E in E'. injection E' as <-.
  rewrite <- (sum_owned W only (fun q => at_dof 0 (part q)) (fun q => flatten (shape q)) all (fun q d => x q d * y q d)%R G A SH); auto.
  - apply rsum_ext. intros q _. apply ddot_flat.
  - intros q d (Q & H & K). destruct (F q _ Q H) as (r & R1 & V). unfold at_dof. now rewrite V, at_repeat.
Qed.
Print Assumptions c40_disjoint_dot.

(** For consistent vectors (all copies of a DOF equal) it is the scalar product of the global vectors. *)
Theorem c40_global_product W only order part (shape : nat -> blocks dof) (x y : nat -> dof -> R) all (X Y : dof -> R) :
  grid_ok W only -> Permutation order (ib_all_messages W only) -> rank_partition W order = Ok part ->
  (forall q, q < nranks W -> arranges W q (flatten (shape q))) -> all_dofs W all ->
  (forall q d, has_dof W q d -> x q d = X d /\ y q d = Y d) ->
  rsum (fun q => disjoint_dot q (bmap (x q) (shape q)) (bmap (y q) (shape q)) (bmap (at_dof 0 (part q)) (shape q)))
       (seq 0 (nranks W)) =
  rsum (fun d => X d * Y d)%R all.
Proof.
  intros G P E SH A C.
  destruct (partition_spec W only order G P) as (part' & E' & F). rewrite E in E'. injection E' as <-.
  set (first := fun d : dof => match filter (fun q => has_dofb W q d) (seq 0 (nranks W)) with q :: _ => at_dof 0 (part q) d | [] => 0 end).
  assert (FO : forall d, In d all -> smallest_ib W (fst d) (first d)).
  { intros d D. apply A in D as (q & D). unfold first.
    assert (I : In q (filter (fun q => has_dofb W q d) (seq 0 (nranks W)))).
    { apply filter_In. split; [apply in_seq; destruct D; lia|now apply has_dofb_iff]. }
    destruct (filter (fun q0 => has_dofb W q0 d) (seq 0 (nranks W))) as [|q0 l] eqn:L; [destruct I|].
    assert (I0 : In q0 (q0 :: l)) by now left. rewrite <- L in I0. apply filter_In in I0 as (_ & I0).
    apply has_dofb_iff in I0 as (Q & H & K). destruct (F q0 _ Q H) as (r & R1 & V). unfold at_dof. now rewrite V, at_repeat. }
  rewrite (c40_disjoint_dot W only order part shape x y all first G P E SH A FO).
  apply rsum_ext. intros d D. pose proof (FO d D) as ((O1 & O2 & O3) & _).
  assert (HD : has_dof W (first d) d).
  { apply A in D as (q & _ & _ & K). repeat split; auto. }
  destruct (C _ _ HD) as (-> & ->). reflexivity.
Qed.
Print Assumptions c40_global_product.

(** maskForeignDOFs() keeps exactly the owned entries, so that a plain product with a masked vector is disjointDot(). *)
Theorem c40_mask rank (shape : blocks dof) (x : dof -> R) (part : dof -> nat) :
  mask_foreign rank (bmap x shape) (bmap part shape) = bmap (fun d => if part d =? rank then x d else 0%R) shape.
Proof. apply mask_flat. Qed.
Print Assumptions c40_mask.

(** The masked copies of a vector add up to its owners' values: a consistent vector becomes an additive one. *)
Theorem c40_masked_sum W only order part (x : nat -> dof -> R) d r :
  grid_ok W only -> Permutation order (ib_all_messages W only) -> rank_partition W order = Ok part ->
  smallest_ib W (fst d) r -> has_dof W r d ->
  rsum (fun q => if has_dofb W q d then if at_dof 0 (part q) d =? q then x q d else 0%R else 0%R) (seq 0 (nranks W)) = x r d.
Proof.
  intros G P E R1 HR. destruct (partition_spec W only order G P) as (part' & E' & F).
  rewrite E in E'. injection E' as <-.
  assert (V : forall q, has_dof W q d -> at_dof 0 (part q) d = r).
  { intros q (Q & H & K). destruct (F q _ Q H) as (r' & R' & V). unfold at_dof. rewrite V, at_repeat by auto. eapply smallest_unique; eauto. }
  rewrite (rsum_one _ r).
  - rewrite (proj2 (has_dofb_iff _ _ _) HR), V, Nat.eqb_refl by auto. reflexivity.
  - apply seq_NoDup.
  - apply in_seq. destruct HR. lia.
  - intros q _ D. destruct (has_dofb W q d) eqn:B; auto. apply has_dofb_iff in B. rewrite V by auto.
    destruct (Nat.eqb_spec r q); [congruence|auto].
Qed.
Print Assumptions c40_masked_sum.

(** Nested blocks, three ranks: hypotheses and result. *)
Definition three_shape (q : nat) : blocks dof :=
  match q with
  | 0 => Block [Field [(0, 0)]; Field [(1, 0); (1, 1)]]
  | 1 => Block [Block [Field [(1, 0); (1, 1)]]; Field [(0, 0); (2, 0)]]
  | _ => Field [(3, 0); (2, 0); (1, 1); (1, 0)]
  end.
Example c40_meets :
  grid_ok three_ranks false /\ (forall q, q < nranks three_ranks -> arranges three_ranks q (flatten (three_shape q))) /\
  all_dofs three_ranks [(0, 0); (1, 0); (1, 1); (2, 0); (3, 0)] /\
  exists part, rank_partition three_ranks (rev (ib_all_messages three_ranks false)) = Ok part /\
    (rsum (fun q => disjoint_dot q (bmap (fun d => INR (snd d + 1)) (three_shape q)) (bmap (fun _ => 1) (three_shape q))
        (bmap (at_dof 0%nat (part q)) (three_shape q))) (seq 0 3) = 6)%R.
Proof.
  split; [apply three_ranks_ok|].
  assert (T : forall q x, has_dof three_ranks q x ->
     (q = 0 /\ In x [(0, 0); (1, 0); (1, 1)]) \/ (q = 1 /\ In x [(0, 0); (1, 0); (1, 1); (2, 0)]) \/
     (q = 2 /\ In x [(1, 0); (1, 1); (2, 0); (3, 0)])).
  { intros q [e k] (Q & H & K). cbn [fst snd] in *. destruct q as [|[|[|q]]]; cbn in *; try lia.
    - left. split; auto. destruct H as [<-|[<-|[]]]; cbn in K; destruct k as [|[|k]]; try lia; auto.
    - right; left. split; auto. destruct H as [<-|[<-|[<-|[]]]]; cbn in K; destruct k as [|[|k]]; try lia; auto.
    - right; right. split; auto. destruct H as [<-|[<-|[<-|[]]]]; cbn in K; destruct k as [|[|k]]; try lia; auto. }
  split.
  { intros q Q. split.
    - destruct q as [|[|[|q]]]; cbn in *; try lia; repeat constructor; cbn; intuition congruence.
    - intros x. split.
      + intros I. destruct q as [|[|[|q]]]; cbn in *; try lia; repeat (destruct I as [<-|I]; [unfold has_dof; cbn; intuition lia|]); destruct I.
      + intros H. apply T in H as [(-> & H)|[(-> & H)|(-> & H)]]; cbn in *; tauto. }
  split.
  { split; [repeat constructor; cbn; intuition congruence|]. intros x. split.
    - intros I. cbn in I. destruct I as [<-|[<-|[<-|[<-|[<-|[]]]]]]; [exists 0|exists 0|exists 0|exists 1|exists 2]; unfold has_dof; cbn; intuition lia.
    - intros (q & H). apply T in H as [(-> & H)|[(-> & H)|(-> & H)]]; cbn in *; tauto. }
  eexists. split; [reflexivity|]. cbn. lra.
Qed.

(** ** C41: combining values *)

(** Add: every receiving copy ends up with the sum over itself and all senders; other copies keep their value. *)
Theorem c41_add W snd rcv order st :
  (forall q, q < nranks W -> NoDup (held W q)) -> Permutation order (messages W snd rcv) -> sized W st ->
  exists st', add_handle order st = Ok st' /\ sized W st' /\
    forall q e k, q < nranks W -> In e (held W q) -> k < ndofs W e ->
      (rcv q e = true -> forall cs, contributors W snd q e cs ->
         nth k (st' q e) 0%R = rsum (fun s => nth k (st s e) 0%R) cs) /\
      (rcv q e = false -> nth k (st' q e) 0%R = nth k (st q e) 0%R).
Proof. intros N P. now apply add_spec. Qed.
Print Assumptions c41_add.

(** Over the interface of all copies: every copy holds the sum over all copies. *)
Theorem c41_add_all W order st st' q e k cs :
  (forall q, q < nranks W -> NoDup (held W q)) -> Permutation order (all_all W) -> sized W st ->
  add_handle order st = Ok st' -> q < nranks W -> In e (held W q) -> k < ndofs W e ->
  NoDup cs -> (forall s, In s cs <-> s < nranks W /\ In e (held W s)) ->
  nth k (st' q e) 0%R = rsum (fun s => nth k (st s e) 0%R) cs.
Proof.
  intros N P SZ E Q H K NC C. destruct (add_spec W everywhere everywhere order N P st SZ) as (st2 & E2 & _ & F).
  rewrite E in E2. injection E2 as <-. apply (F q e k Q H K); auto. split; auto.
  intros s. rewrite C. unfold contributes, everywhere. tauto.
Qed.
Print Assumptions c41_add_all.

(** Min and Max: the extreme value over itself and all senders. *)
Theorem c41_min W snd rcv order st :
  (forall q, q < nranks W -> NoDup (held W q)) -> Permutation order (messages W snd rcv) -> sized W st ->
  exists st', min_handle order st = Ok st' /\ sized W st' /\
    forall q e k, q < nranks W -> In e (held W q) -> k < ndofs W e ->
      (rcv q e = true ->
         (exists s, contributes W snd q e s /\ nth k (st' q e) 0%R = nth k (st s e) 0%R) /\
         (forall s, contributes W snd q e s -> (nth k (st' q e) 0 <= nth k (st s e) 0)%R)) /\
      (rcv q e = false -> nth k (st' q e) 0%R = nth k (st q e) 0%R).
Proof.
  intros N P SZ. apply (select_spec W snd rcv order N P op_min Rle); auto.
  - intros a b. unfold op_min. destruct (Rlt_dec b a); auto.
  - intros a b. unfold op_min. destruct (Rlt_dec b a); lra.
  - intros a b. unfold op_min. destruct (Rlt_dec b a); lra.
  - intros a. lra.
  - intros a b c. lra.
Qed.
Print Assumptions c41_min.

Theorem c41_max W snd rcv order st :
  (forall q, q < nranks W -> NoDup (held W q)) -> Permutation order (messages W snd rcv) -> sized W st ->
  exists st', max_handle order st = Ok st' /\ sized W st' /\
    forall q e k, q < nranks W -> In e (held W q) -> k < ndofs W e ->
      (rcv q e = true ->
         (exists s, contributes W snd q e s /\ nth k (st' q e) 0%R = nth k (st s e) 0%R) /\
         (forall s, contributes W snd q e s -> (nth k (st' q e) 0 >= nth k (st s e) 0)%R)) /\
      (rcv q e = false -> nth k (st' q e) 0%R = nth k (st q e) 0%R).
Proof.
  intros N P SZ. apply (select_spec W snd rcv order N P op_max Rge); auto.
  - intros a b. unfold op_max. destruct (Rlt_dec a b); auto.
  - intros a b. unfold op_max. destruct (Rlt_dec a b); lra.
  - intros a b. unfold op_max. destruct (Rlt_dec a b); lra.
  - intros a. lra.
  - intros a b c. lra.
Qed.
Print Assumptions c41_max.

(** The three handles do not depend on the order of arrival. *)
Theorem c41_schedule_independent W snd rcv o o' st :
  (forall q, q < nranks W -> NoDup (held W q)) ->
  Permutation o (messages W snd rcv) -> Permutation o' (messages W snd rcv) -> sized W st ->
  forall h, h = add_handle \/ h = min_handle \/ h = max_handle ->
  exists st1 st2, h o st = Ok st1 /\ h o' st = Ok st2 /\
    forall q e k, q < nranks W -> In e (held W q) -> k < ndofs W e -> nth k (st1 q e) 0%R = nth k (st2 q e) 0%R.
Proof.
  intros N P P' SZ h Hh.
  assert (G : forall op, (forall a x y, op (op a x) y = op (op a y) x) ->
    exists st1 st2, communicate gather_dofs (scatter_dofs op) o st = Ok st1 /\ communicate gather_dofs (scatter_dofs op) o' st = Ok st2 /\
    forall q e k, q < nranks W -> In e (held W q) -> k < ndofs W e -> nth k (st1 q e) 0%R = nth k (st2 q e) 0%R).
  { intros op C. destruct (dofs_at op 0%R W snd rcv o st SZ P) as (st1 & E1 & _ & F1).
    destruct (dofs_at op 0%R W snd rcv o' st SZ P') as (st2 & E2 & _ & F2).
    exists st1, st2. split; auto. split; auto. intros q e k Q H K.
    rewrite (proj2 (F1 q e Q H) k K), (proj2 (F2 q e Q H) k K). apply fold_perm; auto.
    apply Permutation_map, from_perm. now transitivity (messages W snd rcv). }
  destruct Hh as [->|[->| ->]]; apply G; intros a x y.
  - unfold op_add. lra.
  - rewrite !op_min_Rmin. unfold Rmin. repeat destruct (Rle_dec _ _); lra.
  - rewrite !op_max_Rmax. unfold Rmax. repeat destruct (Rle_dec _ _); lra.
Qed.
Print Assumptions c41_schedule_independent.

(** Copy: a receiving copy holds the values of one of the senders, and its own values if there is none. *)
Theorem c41_copy {A} W snd rcv order (st : dvec A) :
  (forall q, q < nranks W -> NoDup (held W q)) -> Permutation order (messages W snd rcv) -> sized W st ->
  exists st', copy_handle order st = Ok st' /\ sized W st' /\
    forall q e, q < nranks W -> In e (held W q) ->
      (exists s, s <> q /\ contributes W snd q e s /\ rcv q e = true /\ st' q e = st s e) \/
      (st' q e = st q e /\ (rcv q e = false \/ forall s, contributes W snd q e s -> s = q)).
Proof. intros N P. now apply copy_spec. Qed.
Print Assumptions c41_copy.

(** With senders that agree (for instance the owner only) the result of Copy is determined; otherwise it depends on the
    order of arrival. *)
Theorem c41_copy_agreeing {A} W snd rcv order (st st' : dvec A) q e s :
  (forall q, q < nranks W -> NoDup (held W q)) -> Permutation order (messages W snd rcv) -> sized W st ->
  copy_handle order st = Ok st' -> q < nranks W -> In e (held W q) -> rcv q e = true ->
  s <> q -> contributes W snd q e s ->
  (forall s', s' <> q -> contributes W snd q e s' -> st s' e = st s e) ->
  st' q e = st s e.
Proof.
  intros N P SZ E Q H RC D C AG. destruct (copy_spec W snd rcv order N P st SZ) as (st2 & E2 & _ & F).
  rewrite E in E2. injection E2 as <-. destruct (F q e Q H) as [(s' & D' & C' & _ & V)|(V & [X|X])].
  - rewrite V. auto.
  - congruence.
  - destruct D. auto.
Qed.
Print Assumptions c41_copy_agreeing.

Theorem c41_copy_order_refuted :
  exists W (st : dvec nat) o o' st1 st2,
    (forall q, q < nranks W -> NoDup (held W q)) /\ sized W st /\
    Permutation o (all_all W) /\ Permutation o' (all_all W) /\
    copy_handle o st = Ok st1 /\ copy_handle o' st = Ok st2 /\ st1 0 0 = [2] /\ st2 0 0 = [1].
Proof.
  set (W := World 3 (fun _ => [0]) (fun _ _ => true) (fun _ => 1)).
  exists W, (fun q _ => [q]), (all_all W), (rev (all_all W)). eexists _, _.
  split; [intros q _; repeat constructor; intros []|].
  split; [intros q e _ [<-|[]]; reflexivity|].
  split; [reflexivity|]. split; [symmetry; apply Permutation_rev|].
  split; [reflexivity|]. split; [reflexivity|]. split; reflexivity.
Qed.
Print Assumptions c41_copy_order_refuted.

Example c41_meets :
  (forall q, q < nranks three_ranks -> NoDup (held three_ranks q)) /\
  sized three_ranks (fun q e => repeat (INR q) (ndofs three_ranks e)) /\
  contributors three_ranks everywhere 2 1 [2; 0; 1] /\
  exists st', add_handle (rev (all_all three_ranks)) (fun q e => repeat (INR q) (ndofs three_ranks e)) = Ok st' /\
    (nth 1 (st' 2%nat 1%nat) 0 = 3)%R.
Proof.
  split; [apply three_ranks_ok|]. split; [intros q e _ _; apply repeat_length|]. split.
  - split; [repeat constructor; cbn; intuition discriminate|].
    intros s. unfold contributes, everywhere. cbn. split.
    + intros [<-|[<-|[<-|[]]]]; cbn; auto 10.
    + intros (S1 & _). destruct s as [|[|[|s]]]; auto; lia.
  - eexists. split; [reflexivity|]. cbn. unfold op_add. lra.
Qed.

(** ** C43: global indices for AMG *)

(** There is one enumeration [L] of the shared DOFs, rank by rank, such that the index set of every rank contains exactly
    its shared DOFs, each with its position in [L], and marks as owned exactly those it owns.  Positions make the global
    indices consecutive, unique and identical on all ranks. *)
Theorem c43_index_sets W only layout max_index o1 o2 o3 :
  grid_ok W only ->
  (forall q, q < nranks W -> arranges W q (layout q)) ->
  (forall l, NoDup l -> (forall x, In x l -> is_shared W x) -> length l <= max_index) ->
  Permutation o1 (ib_all_messages W only) -> Permutation o2 (all_all_messages W only) ->
  Permutation o3 (ib_all_messages W only) ->
  exists sets L, amg_index_sets W layout max_index o1 o2 o3 = Ok sets /\
    NoDup L /\ (forall x, In x L <-> is_shared W x) /\
    (forall g g' x x' r r', nth_error L g = Some x -> nth_error L g' = Some x' -> g <= g' ->
       smallest_ib W (fst x) r -> smallest_ib W (fst x') r' -> r <= r') /\
    (forall q g i b, q < nranks W ->
       (In (g, i, b) (sets q) <->
        exists x, nth_error (layout q) i = Some x /\ nth_error L g = Some x /\ (b = true <-> smallest_ib W (fst x) q))).
Proof. apply amg_spec. Qed.
Print Assumptions c43_index_sets.

(** The same in terms of the index sets alone. *)
Theorem c43_unique_consecutive W only layout max_index o1 o2 o3 sets :
  grid_ok W only ->
  (forall q, q < nranks W -> arranges W q (layout q)) ->
  (forall l, NoDup l -> (forall x, In x l -> is_shared W x) -> length l <= max_index) ->
  Permutation o1 (ib_all_messages W only) -> Permutation o2 (all_all_messages W only) ->
  Permutation o3 (ib_all_messages W only) ->
  amg_index_sets W layout max_index o1 o2 o3 = Ok sets ->
  (* the same index on two ranks (or twice on one) means the same DOF, and conversely *)
  (forall q q' g g' i i' b b' x x', q < nranks W -> q' < nranks W ->
     In (g, i, b) (sets q) -> In (g', i', b') (sets q') ->
     nth_error (layout q) i = Some x -> nth_error (layout q') i' = Some x' -> (g = g' <-> x = x')) /\
  (* every shared DOF of a rank is in its index set, other DOFs are not *)
  (forall q i x, q < nranks W -> nth_error (layout q) i = Some x ->
     ((exists g b, In (g, i, b) (sets q)) <-> is_shared W x)) /\
  (* every index below a used one is owned by exactly one rank *)
  (forall q g i b g', q < nranks W -> In (g, i, b) (sets q) -> g' <= g ->
     exists r, r < nranks W /\ (exists i', In (g', i', true) (sets r)) /\
       forall r' i', r' < nranks W -> In (g', i', true) (sets r') -> r' = r).
Proof.
  intros G LA MX P1 P2 P3 E. destruct (amg_spec W only layout max_index o1 o2 o3 G LA MX P1 P2 P3) as (sets' & L & E' & ND & INL & _ & S).
  rewrite E in E'. injection E' as <-.
  assert (OE : forall x, is_shared W x -> exists r, smallest_ib W (fst x) r /\ has_dof W r x).
  { intros x (q & _ & _ & (Q & H & K) & _).
    destruct (partition_spec W only o1 G P1) as (part & _ & F). destruct (F q _ Q H) as (r & R1 & _).
    exists r. split; auto. destruct R1 as ((A & B & _) & _). repeat split; auto. }
  split; [|split].
  - intros q q' g g' i i' b b' x x' Q Q' H1 H2 H3 H4.
    apply S in H1 as (y & A & B & _); auto. apply S in H2 as (y' & A' & B' & _); auto. split; intros ->; [congruence|].
    apply (proj1 (NoDup_nth_error L) ND); [apply nth_error_Some; congruence|congruence].
  - intros q i x Q H. split.
    + intros (g & b & I). apply S in I as (y & A & B & _); auto. apply INL. apply nth_error_In in B. congruence.
    + intros SX. apply INL in SX as IX. apply In_nth_error in IX as (g & IX).
      destruct (OE x SX) as (r & R1 & _).
      exists g, (if Nat.eq_dec r q then true else false). apply S; auto. exists x. split; auto. split; auto. split.
      * destruct (Nat.eq_dec r q); [intros _; congruence|discriminate].
      * intros R2. destruct (Nat.eq_dec r q) as [|D]; auto. destruct D. eapply smallest_unique; eauto.
  - intros q g i b g' Q I LE. apply S in I as (y & A & B & _); auto.
    assert (LT : g' < length L) by (assert (g < length L) by (apply nth_error_Some; congruence); lia).
    apply nth_error_Some in LT. destruct (nth_error L g') as [x|] eqn:X; [|congruence].
    assert (SX : is_shared W x) by (apply INL; eapply nth_error_In; eauto).
    destruct (OE x SX) as (r & R1 & HR). exists r. split; [apply HR|]. split.
    + assert (IX : In x (layout r)) by (apply LA; auto; apply HR).
      apply In_nth_error in IX as (i' & IX). exists i'. apply S; [apply HR|]. exists x. split; auto. split; auto. tauto.
    + intros r' i' R' I'. apply S in I' as (x' & A' & B' & C'); auto.
      assert (x' = x) by congruence. subst. eapply smallest_unique; [apply C'; auto|auto].
Qed.
Print Assumptions c43_unique_consecutive.

(** The neighbours given to the remote indices are exactly the ranks that share an entity. *)
Theorem c43_neighbors W only order q r :
  grid_ok W only -> Permutation order (all_all_messages W only) -> q < nranks W ->
  (In r (amg_neighbors W order q) <-> r <> q /\ r < nranks W /\ exists e, In e (held W q) /\ In e (held W r)).
Proof. apply neighbors_spec. Qed.
Print Assumptions c43_neighbors.

Example c43_meets :
  (forall l, NoDup l -> (forall x, In x l -> is_shared three_ranks x) -> length l <= 9) /\
  exists sets, amg_index_sets three_ranks (fun q => flatten (three_shape q)) 9
      (rev (ib_all_messages three_ranks false)) (all_all_messages three_ranks false) (ib_all_messages three_ranks false) = Ok sets /\
    sets 0 = [(2, 0, false); (0, 1, true); (1, 2, true)] /\
    sets 1 = [(0, 0, false); (1, 1, false); (2, 2, true); (3, 3, false)] /\
    sets 2 = [(3, 1, true); (1, 2, false); (0, 3, false)].
Proof.
  split.
  - intros l ND H.
    apply (Nat.le_trans _ (length [(0, 0); (1, 0); (1, 1); (2, 0); (3, 0)])); [|cbn; lia].
    apply NoDup_incl_length; auto. intros x Hx. apply H in Hx as (q & _ & _ & HD & _).
    pose proof c40_meets as (_ & _ & (_ & A) & _). apply A. eauto.
  - assert (H : match amg_index_sets three_ranks (fun q => flatten (three_shape q)) 9
        (rev (ib_all_messages three_ranks false)) (all_all_messages three_ranks false) (ib_all_messages three_ranks false) with
      | Ok sets => [sets 0; sets 1; sets 2] | _ => [] end =
      [[(2, 0, false); (0, 1, true); (1, 2, true)];
       [(0, 0, false); (1, 1, false); (2, 2, true); (3, 3, false)];
       [(3, 1, true); (1, 2, false); (0, 3, false)]]) by (vm_compute; reflexivity).
    destruct (amg_index_sets _ _ _ _ _ _) as [sets| |]; [|discriminate|discriminate].
    injection H as H0 H1 H2. exists sets. auto.
Qed.
