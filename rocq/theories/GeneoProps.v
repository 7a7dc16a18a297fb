(** Properties C71-C74: partition of unity, coarse system, two-level Schwarz preconditioner, local basis. *)
From Coq Require Import Reals Lra.
From Verif Require Import Common CommonFacts ParModel ParSpec ParProofs ParProofs2 ParProps.
From Verif Require Import GeneoModel GeneoSpec GeneoProofs GeneoProofs2 GeneoProofs3 GeneoProofs4.

(** * C71: partition of unity *)

(** The standard partition of unity: on every rank the value is one over the number of ranks that store the DOF without
    constraining it, zero where the rank constrains it; the values of all ranks add up to one unless all constrain it. *)
Theorem c71_standard W cons order :
  (forall q, q < nranks W -> NoDup (held W q)) -> Permutation order (all_all W) ->
  exists v, standard_partition W cons order = Ok v /\ sized W v /\
    forall e k l, k < ndofs W e -> holders W e l ->
      (forall q, In q l -> nth k (v q e) 0%R =
         if cons q e k then 0%R else (1 / INR (length (filter (fun r => negb (cons r e k)) l)))%R) /\
      (forall q, In q l -> (0 <= nth k (v q e) 0 <= 1)%R) /\
      ((exists q, In q l /\ cons q e k = false) -> rsum (fun q => nth k (v q e) 0%R) l = 1%R) /\
      ((forall q, In q l -> cons q e k = true) -> rsum (fun q => nth k (v q e) 0%R) l = 0%R).
Proof.
  intros N P. destruct (standard_spec W cons order N P) as (v & E & SV & F). exists v. split; auto. split; auto.
  intros e k l K H. specialize (F e k l K H). split; [auto|].
  set (f := filter (fun r => negb (cons r e k)) l) in *.
  assert (FP : forall q, In q l -> cons q e k = false -> (1 <= INR (length f))%R).
  { intros q I C. assert (X : In q f) by (apply filter_In; rewrite C; auto).
    replace 1%R with (INR 1) by reflexivity. apply le_INR. destruct f; [destruct X|cbn; lia]. }
  repeat split.
  - rewrite F by auto. destruct (cons q e k) eqn:C; [lra|]. specialize (FP q H0 C).
    apply Rmult_le_pos; [lra|]. left. apply Rinv_0_lt_compat. lra.
  - rewrite F by auto. destruct (cons q e k) eqn:C; [lra|]. specialize (FP q H0 C).
    apply Rmult_le_reg_r with (INR (length f)); [lra|]. unfold Rdiv. rewrite Rmult_assoc, Rinv_l by lra. lra.
  - intros (q & I & C). specialize (FP q I C).
    rewrite (rsum_ext _ (fun q => if negb (cons q e k) then (1 / INR (length f))%R else 0%R)).
    + rewrite <- (rsum_filter (fun _ => (1 / INR (length f))%R)). fold f. rewrite rsum_const. field. lra.
    + intros r R1. rewrite F by auto. now destruct (cons r e k).
  - intros C. apply rsum_zero. intros q I. rewrite F, C; auto.
Qed.
Print Assumptions c71_standard.

(** The partition of unity of Sarkis on YaspGrid's arrangement, with overlap: values in [0,1], zero where the rank
    constrains the vertex and on the outer edge of its subdomain, positive otherwise; if no rank constrains the vertex
    inside its subdomain, the values of all ranks add up to one. *)
Theorem c71_sarkis W L grid nx ny cons order :
  yasp W L grid nx ny -> 0 < overlap L ->
  (forall q, q < nranks W -> NoDup (held W q)) -> Permutation order (all_all W) ->
  exists v, sarkis_partition W L (vertex_position L grid) cons order = Ok v /\ sized W v /\
    forall e l, holders W e l ->
      (forall q, In q l -> (0 <= nth 0 (v q e) 0 <= 1)%R) /\
      (forall q, In q l -> (nth 0 (v q e) 0%R = 0%R <-> cons q e 0 = true \/ outer L grid nx ny q e)) /\
      (l <> [] -> (forall q, In q l -> cons q e 0 = true -> outer L grid nx ny q e) ->
         rsum (fun q => nth 0 (v q e) 0%R) l = 1%R).
Proof.
  intros Y HO N P. destruct (sarkis_spec W L grid nx ny Y cons order N P) as (v & E & SV & F).
  exists v. split; auto. split; auto. intros e l H. specialize (F e l H).
  set (d := fun q => sarkis_distance L q (vertex_position L grid e)) in *.
  assert (DC : forall q, In q l -> (0 <= d q)%R /\ (outer L grid nx ny q e -> d q = 0%R) /\ (~ outer L grid nx ny q e -> (0 < d q)%R)).
  { intros q I. apply (proj2 H) in I. now apply (distance_cases W). }
  assert (DS : l <> [] -> (0 < rsum d l)%R) by (intros NE; now apply (sarkis_sum W L grid nx ny Y)).
  assert (LE : forall q, In q l -> (d q <= rsum d l)%R).
  { assert (X : forall l, (forall q, In q l -> (0 <= d q)%R) -> forall q, In q l -> (d q <= rsum d l)%R).
    { induction l0 as [|x l0 IH]; intros D q I; [destruct I|]. rewrite rsum_cons.
      assert (0 <= d x)%R by (apply D; now left). assert (0 <= rsum d l0)%R by (apply rsum_nonneg; intros; apply D; now right).
      destruct I as [->|I]; [lra|]. assert (d q <= rsum d l0)%R by (apply IH; auto; intros; apply D; now right). lra. }
    apply X. intros q I. now apply DC. }
  assert (V : forall q, In q l -> nth 0 (v q e) 0%R = if cons q e 0 then 0%R else (d q / rsum d l)%R).
  { intros q I. rewrite F by auto. destruct (cons q e 0); auto. unfold weigh. fold (d q). destruct (Rlt_dec 0 (d q)); [unfold Rdiv; lra|].
    assert (Z : d q = 0%R) by (destruct (DC q I); lra). rewrite Z. unfold Rdiv. lra. }
  assert (NE : forall q, In q l -> l <> []) by (intros q I ->; destruct I).
  split; [|split].
  - intros q I. rewrite V by auto. specialize (DS (NE q I)). specialize (LE q I). destruct (DC q I) as (D0 & _).
    destruct (cons q e 0); [lra|]. split.
    + apply Rmult_le_pos; auto. left. now apply Rinv_0_lt_compat.
    + apply Rmult_le_reg_r with (rsum d l); auto. unfold Rdiv. rewrite Rmult_assoc, Rinv_l by lra. lra.
  - intros q I. rewrite V by auto. specialize (DS (NE q I)). destruct (DC q I) as (_ & D1 & D2).
    destruct (cons q e 0); [split; auto|]. split.
    + intros Z. right. destruct (outer_dec L grid nx ny q e) as [O|NO]; auto. specialize (D2 NO).
      pose proof (Rdiv_lt_0_compat _ _ D2 DS). lra.
    + intros [C|O]; [discriminate|]. rewrite (D1 O). unfold Rdiv. lra.
  - intros NL C. specialize (DS NL). rewrite (rsum_ext _ (fun q => (d q * / rsum d l)%R)).
    + rewrite rsum_scale_r. field. lra.
    + intros q I. rewrite V by auto. destruct (cons q e 0) eqn:CQ; auto. destruct (DC q I) as (_ & D1 & _).
      rewrite (D1 (C q I CQ)). lra.
Qed.
Print Assumptions c71_sarkis.

(** Two subdomains of 2 x 1 cells with overlap 1. *)
Definition yasp_layout := Layout 4 1 1 2 1.
Definition yasp_grid (e : nat) : nat * nat := (e mod 5, e / 5).
Definition in_rangeb (c n ov N i : nat) : bool := (c * n <=? i + ov) && (i <=? (c + 1) * n + ov) && (i <=? N).
Definition yasp_world : world :=
  World 2 (fun q => filter (fun e => in_rangeb q 2 1 4 (e mod 5) && in_rangeb 0 1 1 1 (e / 5)) (seq 0 10)) (fun _ _ => true) (fun _ => 1).
Example c71_meets : yasp yasp_world yasp_layout yasp_grid 2 1 /\ 0 < overlap yasp_layout /\
  (forall q, q < nranks yasp_world -> NoDup (held yasp_world q)) /\
  holders yasp_world 2 [0; 1] /\ ~ outer yasp_layout yasp_grid 2 1 0 2 /\ outer yasp_layout yasp_grid 2 1 0 3 /\
  (exists v, sarkis_partition yasp_world yasp_layout (vertex_position yasp_layout yasp_grid) (fun _ _ _ => false) (all_all yasp_world) = Ok v /\
     (nth 0 (v 0%nat 2%nat) 0 + nth 0 (v 1%nat 2%nat) 0 = 1)%R).
Proof.
  assert (Y : yasp yasp_world yasp_layout yasp_grid 2 1).
  { repeat split; try (cbn; lia).
    - cbn [yasp_world held] in H1. apply filter_In in H1 as (_ & H1). apply andb_true_iff in H1 as (H1 & _).
      unfold in_rangeb in H1. rewrite !andb_true_iff, !Nat.leb_le in H1. cbn in H, H0. cbn [yasp_layout partition_x yasp_grid fst overlap] in *. lia.
    - cbn [yasp_world held] in H1. apply filter_In in H1 as (_ & H1). apply andb_true_iff in H1 as (H1 & _).
      unfold in_rangeb in H1. rewrite !andb_true_iff, !Nat.leb_le in H1. cbn in H, H0. cbn [yasp_layout partition_x yasp_grid fst overlap] in *. lia.
    - cbn [yasp_world held] in H1. apply filter_In in H1 as (_ & H1). apply andb_true_iff in H1 as (H1 & _).
      unfold in_rangeb in H1. rewrite !andb_true_iff, !Nat.leb_le in H1. cbn [yasp_layout cells_x yasp_grid fst overlap] in *. lia.
    - cbn in H0. assert (row = 0) by lia. subst. cbn. lia.
    - cbn [yasp_world held] in H1. apply filter_In in H1 as (_ & H1). apply andb_true_iff in H1 as (_ & H1).
      unfold in_rangeb in H1. rewrite !andb_true_iff, !Nat.leb_le in H1. cbn in H0. cbn [yasp_layout cells_y yasp_grid snd overlap] in *. lia.
    - cbn [yasp_world held] in H1. apply filter_In in H1 as (_ & H1). apply andb_true_iff in H1 as (_ & H1).
      unfold in_rangeb in H1. rewrite !andb_true_iff, !Nat.leb_le in H1. cbn [yasp_layout cells_y yasp_grid snd overlap] in *. lia.
    - intros (A & B). cbn in H0. assert (row = 0) by lia. subst row. cbn [yasp_world held]. apply filter_In.
      destruct A as (A1 & A2 & A3). destruct B as (B1 & B2 & B3). cbn [yasp_layout cells_x cells_y overlap yasp_grid fst snd] in *.
      split.
      + apply in_seq. pose proof (Nat.div_mod e 5 ltac:(lia)). lia.
      + unfold in_rangeb. rewrite !andb_true_iff, !Nat.leb_le. cbn [plus mult]. repeat split; lia. }
  split; [exact Y|]. split; [cbn; lia|].
  assert (ND : forall q, q < nranks yasp_world -> NoDup (held yasp_world q)) by (intros q _; apply NoDup_filter, seq_NoDup).
  split; [exact ND|].
  assert (H : holders yasp_world 2 [0; 1]).
  { split; [repeat constructor; cbn; intuition discriminate|]. intros q. cbn [In]. split.
    - intros [<-|[<-|[]]]; (split; [cbn; lia|]); vm_compute; tauto.
    - intros (Q & _). cbn in Q. lia. }
  split; [exact H|]. split.
  { unfold outer, edge. cbn. lia. }
  split. { left. left. cbn. lia. }
  destruct (c71_sarkis yasp_world yasp_layout yasp_grid 2 1 (fun _ _ _ => false) (all_all yasp_world) Y ltac:(cbn; lia) ND (Permutation_refl _))
    as (v & E & _ & F).
  exists v. split; auto. destruct (F 2 [0; 1] H) as (_ & _ & F3). specialize (F3 ltac:(discriminate) ltac:(discriminate)).
  unfold rsum in F3. cbn in F3. lra.
Qed.

(** * C72: coarse system *)

(** If every rank knows all ranks it shares entities with, the coarse matrix is the Galerkin product: entry by entry the
    product of two basis vectors, extended by zero, with the global matrix, in whatever order the messages arrive. *)
Theorem c72_galerkin W nb size phi Aq A all orders :
  (forall q, q < nranks W -> NoDup (held W q)) -> neighbours W nb -> basis_sized W size phi ->
  all_dofs W all -> rows_complete W size phi Aq A -> (forall r, Permutation (orders r) (all_all W)) ->
  exists M, coarse_system W nb size phi Aq orders = Ok M /\ length M = sum_nat (map size (seq 0 (nranks W))) /\
    forall q i s j, q < nranks W -> i < size q -> s < nranks W -> j < size s ->
      entry M (coarse_index size q i) (coarse_index size s j) =
      form all A (extended W q (phi q i)) (extended W s (phi s j)).
Proof.
  intros N NB BS ALL RC P. eexists. split; [apply coarse_system_ok; auto|]. split.
  - rewrite <- offset_sum. generalize (nranks W). induction n as [|n IH]; auto.
    rewrite seq_S, flat_map_app, app_length, IH, offset_S. cbn. now rewrite app_nil_r, map_length, seq_length.
  - intros q i s j Q I S1 J. unfold coarse_index. rewrite <- !offset_sum.
    destruct (galerkin W nb size phi Aq N NB BS A all ALL RC q i s j orders (fun r _ => P r) Q I S1 J) as (M & E & _ & F).
    rewrite coarse_system_ok in E by auto. injection E as E. rewrite E. exact F.
Qed.
Print Assumptions c72_galerkin.

(** Restriction: the product of the defect with every basis vector, at the basis vector's index. *)
Theorem c72_restrict W size phi fine q i :
  q < nranks W -> i < size q -> NoDup (held W q) ->
  length (restrict W size phi fine) = sum_nat (map size (seq 0 (nranks W))) /\
  nth (coarse_index size q i) (restrict W size phi fine) 0%R =
    rsum (fun x => at_dof 0 (phi q i) x * at_dof 0 (fine q) x)%R (dofs_of W q) /\
  arranges W q (dofs_of W q).
Proof.
  intros Q I N. unfold coarse_index. rewrite <- !offset_sum. destruct (restrict_ok W size phi fine) as (A & B). split; auto.
  split; [rewrite B by auto; apply dot_rsum|now apply dofs_arranged].
Qed.
Print Assumptions c72_restrict.

(** Prolongation: on every rank the combination of its basis vectors. *)
Theorem c72_prolongate W size phi coarse q x :
  basis_sized W size phi -> has_dof W q x ->
  at_dof 0%R (prolongate W size phi coarse q) x =
  rsum (fun i => nth (coarse_index size q i) coarse 0 * at_dof 0 (phi q i) x)%R (seq 0 (size q)).
Proof.
  intros BS H. unfold coarse_index. rewrite <- offset_sum. apply prolongate_ok; auto. apply H.
Qed.
Print Assumptions c72_prolongate.

(** The neighbour list of the parallel helper serves if of two ranks that share an entity each owns a DOF of the other. *)
Theorem c72_neighbors W only order part :
  grid_ok W only -> Permutation order (ib_all_messages W only) -> rank_partition W order = Ok part ->
  (forall q r e, q < nranks W -> r < nranks W -> q <> r -> In e (held W q) -> In e (held W r) ->
     exists x, has_dof W q x /\ smallest_ib W (fst x) r) ->
  neighbours W (neighbor_ranks W part).
Proof.
  intros G P E H q Q. split.
  - apply NoDup_filter, seq_NoDup.
  - intros r. rewrite (c39_neighbor_ranks W only order part q r G P E Q). split.
    + intros (D & x & (X1 & X2 & X3) & ((R1 & R2 & R3) & _)). repeat split; auto. eauto.
    + intros (R1 & D & e & E1 & E2). split; auto. apply (H q r e); auto.
Qed.
Print Assumptions c72_neighbors.

(** It does not serve in general: on a strip of three subdomains of one cell each with overlap one, the last rank is not
    in the list of the first although both store two vertices, and the set-up throws. *)
Definition strip : world :=
  World 3 (fun q => match q with 0 => [0; 1; 2] | 1 => [0; 1; 2; 3] | _ => [1; 2; 3] end)
        (fun q e => (q =? e) || (q + 1 =? e)) (fun _ => 1).
Theorem c72_neighbors_refuted :
  exists W order part, grid_ok W false /\ Permutation order (ib_all_messages W false) /\ rank_partition W order = Ok part /\
    In 1 (held W 0) /\ In 1 (held W 2) /\
    forall Aq, coarse_system W (neighbor_ranks W part) (fun _ => 1) (fun _ _ _ => [1%R]) Aq (fun _ => all_all W) = Throw.
Proof.
  exists strip, (ib_all_messages strip false). eexists. split; [|split; [reflexivity|split; [reflexivity|]]].
  - split.
    + intros q Q. destruct q as [|[|[|q]]]; cbn in *; try lia; repeat constructor; cbn; intuition discriminate.
    + split; [|discriminate]. intros q e Q I.
      destruct q as [|[|[|q]]]; cbn in *; try lia.
      * destruct I as [<-|[<-|[<-|[]]]]; [exists 0|exists 0|exists 1]; cbn; auto 10.
      * destruct I as [<-|[<-|[<-|[<-|[]]]]]; [exists 0|exists 0|exists 1|exists 2]; cbn; auto 10.
      * destruct I as [<-|[<-|[<-|[]]]]; [exists 0|exists 1|exists 2]; cbn; auto 10.
  - split; [cbn; auto|]. split; [cbn; auto|]. intros Aq. reflexivity.
Qed.
Print Assumptions c72_neighbors_refuted.

(** * C73: preconditioner *)

(** The result is the same on all ranks: at every DOF the sum, over the ranks that store it, of the rank's subdomain
    solution and, with the coarse space, of its basis vectors weighted by the coarse solution. *)
Theorem c73_apply W size phi Al local_solve coarse_solve active order d :
  (forall q, q < nranks W -> NoDup (held W q)) -> basis_sized W size phi -> Permutation order (all_all W) ->
  solves_locally W Al (dofs_of W) local_solve ->
  exists v, schwarz_apply W size phi local_solve coarse_solve active order d = Ok v /\ sized W v /\
    forall q x l, has_dof W q x -> holders W (fst x) l ->
      at_dof 0%R (v q) x =
      rsum (fun s => at_dof 0 (local_solve s (d s)) x +
              (if active then
                 rsum (fun i => nth (coarse_index size s i) (coarse_solve (restrict W size phi d)) 0 * at_dof 0 (phi s i) x)
                      (seq 0 (size s))
               else 0))%R l.
Proof.
  intros N BS P LS. destruct (apply_ok W size phi order local_solve coarse_solve Al N BS P LS active d) as (v & E & SV & F).
  exists v. split; auto. split; auto. intros q x l (Q & X1 & X2) H. unfold at_dof at 1.
  rewrite (F q (fst x) (snd x) l Q X1 X2 H). apply rsum_ext. intros s _. unfold part. rewrite <- surjective_pairing.
  f_equal. destruct active; auto. apply rsum_ext. intros i _. unfold coarse_index. rewrite <- offset_sum. reflexivity.
Qed.
Print Assumptions c73_apply.

(** With symmetric matrices (subdomain matrices symmetric between unconstrained DOFs), applying the two-level
    preconditioner is a symmetric operation on defects. *)
Theorem c73_symmetric W nb size phi Aq A Al local_solve coarse_solve order orders M all cons D E d e v w V U :
  (forall q, q < nranks W -> NoDup (held W q)) -> neighbours W nb -> basis_sized W size phi -> all_dofs W all ->
  Permutation order (all_all W) -> (forall r, Permutation (orders r) (all_all W)) ->
  rows_complete W size phi Aq A -> coarse_system W nb size phi Aq orders = Ok M ->
  solves_locally W Al (dofs_of W) local_solve ->
  solves_coarse (sum_nat (map size (seq 0 (nranks W)))) (entry M) coarse_solve ->
  dirichlet_rows W cons Al ->
  (forall q i x, q < nranks W -> i < size q -> has_dof W q x -> cons q x = true -> at_dof 0%R (phi q i) x = 0%R) ->
  symmetric all A ->
  (forall q, q < nranks W -> symmetric (filter (fun x => negb (cons q x)) (dofs_of W q)) (Al q)) ->
  defect W cons D d -> defect W cons E e ->
  schwarz_apply W size phi local_solve coarse_solve true order d = Ok v -> consistent W v V ->
  schwarz_apply W size phi local_solve coarse_solve true order e = Ok w -> consistent W w U ->
  rsum (fun x => V x * E x)%R all = rsum (fun x => U x * D x)%R all.
Proof.
  intros N NB BS ALL P PS RC CM LS CS DR PZ SA SL HD HE EV CV EW CW.
  rewrite <- offset_sum in CS.
  rewrite (total W size phi order local_solve coarse_solve Al N BS P LS all cons ALL DR PZ nb Aq A M orders NB RC (fun r _ => PS r) CM CS D E d e v V HD HE EV CV).
  rewrite (total W size phi order local_solve coarse_solve Al N BS P LS all cons ALL DR PZ nb Aq A M orders NB RC (fun r _ => PS r) CM CS E D e d w U HE HD EW CW).
  f_equal; [|apply form_sym; auto]. apply rsum_ext. intros q Q. apply in_seq in Q. apply form_sym. apply SL. lia.
Qed.
Print Assumptions c73_symmetric.

(** With positive definite subdomain matrices it is positive: the product of the result with the defect is positive
    unless the defect vanishes at all unconstrained DOFs of all ranks. *)
Theorem c73_positive W nb size phi Aq A Al local_solve coarse_solve order orders M all cons D d v V q x :
  (forall q, q < nranks W -> NoDup (held W q)) -> neighbours W nb -> basis_sized W size phi -> all_dofs W all ->
  Permutation order (all_all W) -> (forall r, Permutation (orders r) (all_all W)) ->
  rows_complete W size phi Aq A -> coarse_system W nb size phi Aq orders = Ok M ->
  solves_locally W Al (dofs_of W) local_solve ->
  solves_coarse (sum_nat (map size (seq 0 (nranks W)))) (entry M) coarse_solve ->
  dirichlet_rows W cons Al ->
  (forall q i x, q < nranks W -> i < size q -> has_dof W q x -> cons q x = true -> at_dof 0%R (phi q i) x = 0%R) ->
  semidefinite all A ->
  (forall q, q < nranks W -> definite (filter (fun x => negb (cons q x)) (dofs_of W q)) (Al q)) ->
  defect W cons D d ->
  schwarz_apply W size phi local_solve coarse_solve true order d = Ok v -> consistent W v V ->
  has_dof W q x -> cons q x = false -> D x <> 0%R ->
  (0 < rsum (fun x => V x * D x) all)%R.
Proof.
  intros N NB BS ALL P PS RC CM LS CS DR PZ SA SL HD EV CV HX CX DX. rewrite <- offset_sum in CS.
  rewrite (total W size phi order local_solve coarse_solve Al N BS P LS all cons ALL DR PZ nb Aq A M orders NB RC (fun r _ => PS r) CM CS D D d d v V HD HD EV CV).
  match goal with |- (0 < ?a + form all A ?u ?u)%R => assert (0 <= form all A u u)%R by apply SA; assert (0 < a)%R end; [|lra].
  pose proof HX as (Q & _).
  assert (NNEG : forall r, r < nranks W -> (0 <= form (free W cons r) (Al r) (sol local_solve d r) (sol local_solve d r))%R).
  { intros r R1. destruct (Forall_Exists_dec (fun y => sol local_solve d r y = 0%R) (fun y => Req_EM_T _ _) (free W cons r)) as [Z|NZ].
    - rewrite Forall_forall in Z. right. symmetry. apply rsum_zero. intros y Y. apply rsum_zero. intros z _. rewrite (Z y Y). lra.
    - apply Exists_exists in NZ as (y & Y1 & Y2). left. apply (SL r R1). exists y. auto. }
  apply (rsum_pos _ _ q).
  - intros r R1. apply in_seq in R1. apply NNEG. lia.
  - apply in_seq. lia.
  - apply (SL q Q).
    destruct (Forall_Exists_dec (fun y => sol local_solve d q y = 0%R) (fun y => Req_EM_T _ _) (free W cons q)) as [Z|NZ].
    + exfalso. rewrite Forall_forall in Z. apply DX. pose proof (proj2 (LS q (d q) Q) x HX) as S1.
      rewrite (HD q x HX), CX in S1. rewrite <- S1. apply rsum_zero. intros y Y.
      change (at_dof 0%R (local_solve q (d q)) y) with (sol local_solve d q y).
      destruct (cons q y) eqn:CY.
      * rewrite (sol_constrained W local_solve Al N LS cons DR D d q y); auto; [lra|]. now apply (dofs_arranged W q Q (N q Q)).
      * rewrite Z; [lra|]. apply filter_In. rewrite CY. auto.
    + apply Exists_exists in NZ as (y & Y1 & Y2). exists y. auto.
Qed.
Print Assumptions c73_positive.

(** A chain of four DOFs with the matrix (-1, 2, -1) on two ranks that store three each; each rank constrains the DOF at
    the end of its part and contributes one basis vector. *)
Definition chain : world := World 2 (fun q => match q with 0 => [0; 1; 2] | _ => [1; 2; 3] end) (fun _ _ => true) (fun _ => 1).
Definition chain_nb (q : nat) : list nat := [1 - q].
Definition chain_phi (q i e : nat) : list R :=
  match q, e with 0, 0 => [1%R] | 0, 1 => [(1/2)%R] | 1, 2 => [(1/2)%R] | 1, 3 => [1%R] | _, _ => [0%R] end.
Definition chain_A (x y : dof) : R :=
  if fst x =? fst y then 2%R else if (fst x + 1 =? fst y) || (fst y + 1 =? fst x) then (-1)%R else 0%R.
Definition chain_cons (q : nat) (x : dof) : bool := match q with 0 => fst x =? 2 | _ => fst x =? 1 end.
Definition chain_Al (q : nat) (x y : dof) : R :=
  if chain_cons q x then if fst x =? fst y then 1%R else 0%R else chain_A x y.
Definition chain_local (q : nat) (b : nat -> list R) (e : nat) : list R :=
  let b e := nth 0 (b e) 0%R in
  match q, e with
  | 0, 0 => [((2 * b 0%nat + (b 1%nat + b 2%nat)) / 3)%R] | 0, 1 => [((b 0%nat + 2 * (b 1%nat + b 2%nat)) / 3)%R] | 0, _ => [b 2]
  | _, 1 => [b 1] | _, 2 => [((2 * (b 2%nat + b 1%nat) + b 3%nat) / 3)%R] | _, _ => [((b 2%nat + b 1%nat + 2 * b 3%nat) / 3)%R]
  end.
Definition chain_coarse (b : list R) : list R :=
  let b0 := nth 0 b 0%R in let b1 := nth 1 b 0%R in
  [((3/2 * b0 + 1/4 * b1) * 16 / 35)%R; ((1/4 * b0 + 3/2 * b1) * 16 / 35)%R].
Definition chain_all : list dof := [(0, 0); (1, 0); (2, 0); (3, 0)].

Lemma chain_dof q x : has_dof chain q x ->
  (q = 0 /\ (x = (0, 0) \/ x = (1, 0) \/ x = (2, 0))) \/ (q = 1 /\ (x = (1, 0) \/ x = (2, 0) \/ x = (3, 0))).
Proof.
  destruct x as [e i]. intros (Q & H & K). cbn in Q, K. assert (i = 0) by lia. subst i.
  destruct q as [|[|q]]; [left|right|lia]; (split; [reflexivity|]); cbn in H; intuition (subst; auto).
Qed.
Lemma chain_form u v : form chain_all chain_A u v =
  (2 * (u (0, 0)%nat * v (0, 0)%nat + u (1, 0)%nat * v (1, 0)%nat + u (2, 0)%nat * v (2, 0)%nat + u (3, 0)%nat * v (3, 0)%nat)
   - u (0, 0)%nat * v (1, 0)%nat - u (1, 0)%nat * v (0, 0)%nat - u (1, 0)%nat * v (2, 0)%nat - u (2, 0)%nat * v (1, 0)%nat
   - u (2, 0)%nat * v (3, 0)%nat - u (3, 0)%nat * v (2, 0)%nat)%R.
Proof. unfold form, chain_all, rsum, chain_A. cbn. lra. Qed.

Example c73_meets :
  (forall q, q < nranks chain -> NoDup (held chain q)) /\ neighbours chain chain_nb /\ basis_sized chain (fun _ => 1) chain_phi /\
  all_dofs chain chain_all /\ rows_complete chain (fun _ => 1) chain_phi (fun _ => chain_A) chain_A /\
  solves_locally chain chain_Al (dofs_of chain) chain_local /\
  (exists M, coarse_system chain chain_nb (fun _ => 1) chain_phi (fun _ => chain_A) (fun _ => all_all chain) = Ok M /\
     entry M 0 1 = (-1/4)%R /\ solves_coarse 2 (entry M) chain_coarse) /\
  dirichlet_rows chain chain_cons chain_Al /\
  (forall q i x, q < nranks chain -> i < 1 -> has_dof chain q x -> chain_cons q x = true -> at_dof 0%R (chain_phi q i) x = 0%R) /\
  symmetric chain_all chain_A /\ semidefinite chain_all chain_A /\
  (forall q, q < nranks chain -> symmetric (filter (fun x => negb (chain_cons q x)) (dofs_of chain q)) (chain_Al q) /\
                                  definite (filter (fun x => negb (chain_cons q x)) (dofs_of chain q)) (chain_Al q)).
Proof.
  assert (N : forall q, q < nranks chain -> NoDup (held chain q)).
  { intros q Q. destruct q as [|[|q]]; cbn in *; try lia; repeat constructor; cbn; intuition discriminate. }
  assert (NB : neighbours chain chain_nb).
  { intros q Q. cbn in Q. split; [repeat constructor; intros []|]. intros r. unfold chain_nb. cbn [In]. split.
    - intros [<-|[]]. split; [change (nranks chain) with 2; lia|]. split; [lia|]. exists 1. destruct q as [|[|q]]; try lia; cbn; auto.
    - intros (R1 & D & _). cbn in R1. left. lia. }
  assert (BS : basis_sized chain (fun _ => 1) chain_phi).
  { intros q i e _ _ _. destruct q as [|[|q]], e as [|[|[|[|e]]]]; reflexivity. }
  assert (ALL : all_dofs chain chain_all).
  { split; [repeat constructor; cbn; intuition discriminate|]. intros x. split.
    - intros [<-|[<-|[<-|[<-|[]]]]]; [exists 0|exists 0|exists 1|exists 1]; unfold has_dof; cbn; intuition.
    - intros (q & H). apply chain_dof in H. cbn. intuition (subst; auto). }
  assert (RC : rows_complete chain (fun _ => 1) chain_phi (fun _ => chain_A) chain_A).
  { intros q i x Q I H NZ y. split; auto. intros NH (r & HR).
    assert (Y : forall q y, has_dof chain q y <-> q < 2 /\ In (fst y) (held chain q) /\ snd y < 1) by reflexivity.
    apply chain_dof in H. apply chain_dof in HR.
    destruct H as [(-> & [->|[->| ->]])|(-> & [->|[->| ->]])]; try (exfalso; apply NZ; reflexivity);
    destruct HR as [(-> & [->|[->| ->]])|(-> & [->|[->| ->]])]; try reflexivity;
      exfalso; apply NH; apply Y; cbn; auto 10. }
  split; [exact N|]. split; [exact NB|]. split; [exact BS|]. split; [exact ALL|]. split; [exact RC|].
  split.
  { intros q b Q. split.
    - intros e E. destruct q as [|[|q]], e as [|[|[|[|e]]]]; reflexivity.
    - intros x H. apply chain_dof in H. unfold rsum, chain_Al, chain_A, at_dof.
      destruct H as [(-> & [->|[->| ->]])|(-> & [->|[->| ->]])]; cbn; lra. }
  split.
  { destruct (c72_galerkin chain chain_nb (fun _ => 1) chain_phi (fun _ => chain_A) chain_A chain_all (fun _ => all_all chain)
      N NB BS ALL RC (fun _ => Permutation_refl _)) as (M & E & _ & F).
    exists M. split; [exact E|].
    assert (C : forall q s, q < 2 -> s < 2 -> entry M q s =
      form chain_all chain_A (extended chain q (chain_phi q 0)) (extended chain s (chain_phi s 0))).
    { intros q s Q S1. rewrite <- (F q 0 s 0) by (auto; cbn; lia). unfold coarse_index.
      destruct q as [|[|q]], s as [|[|s]]; cbn; reflexivity || lia. }
    assert (S00 : stored chain 0 (0, 0) = true) by reflexivity.
    assert (S01 : stored chain 0 (1, 0) = true) by reflexivity.
    assert (S02 : stored chain 0 (2, 0) = true) by reflexivity.
    assert (S03 : stored chain 0 (3, 0) = false) by reflexivity.
    assert (S10 : stored chain 1 (0, 0) = false) by reflexivity.
    assert (S11 : stored chain 1 (1, 0) = true) by reflexivity.
    assert (S12 : stored chain 1 (2, 0) = true) by reflexivity.
    assert (S13 : stored chain 1 (3, 0) = true) by reflexivity.
    assert (EV : forall q e, extended chain q (chain_phi q 0) (e, 0) = if stored chain q (e, 0) then nth 0 (chain_phi q 0 e) 0%R else 0%R) by reflexivity.
    assert (C00 : entry M 0 0 = (3/2)%R) by (rewrite C, chain_form by lia; rewrite !EV, ?S00, ?S01, ?S02, ?S03, ?S10, ?S11, ?S12, ?S13; cbn [nth chain_phi]; lra).
    assert (C01 : entry M 0 1 = (-1/4)%R) by (rewrite C, chain_form by lia; rewrite !EV, ?S00, ?S01, ?S02, ?S03, ?S10, ?S11, ?S12, ?S13; cbn [nth chain_phi]; lra).
    assert (C10 : entry M 1 0 = (-1/4)%R) by (rewrite C, chain_form by lia; rewrite !EV, ?S00, ?S01, ?S02, ?S03, ?S10, ?S11, ?S12, ?S13; cbn [nth chain_phi]; lra).
    assert (C11 : entry M 1 1 = (3/2)%R) by (rewrite C, chain_form by lia; rewrite !EV, ?S00, ?S01, ?S02, ?S03, ?S10, ?S11, ?S12, ?S13; cbn [nth chain_phi]; lra).
    split; [exact C01|]. intros b r R1.
    destruct r as [|[|r]]; try lia; unfold rsum; cbn [seq fold_right]; rewrite ?C00, ?C01, ?C10, ?C11; unfold chain_coarse; cbn [nth]; lra. }
  split.
  { intros q x y HX HY C. unfold chain_Al. rewrite C.
    assert (Z : snd x = 0 /\ snd y = 0) by (destruct HX as (_ & _ & X); destruct HY as (_ & _ & Y); cbn in X, Y; lia).
    destruct Z as (-> & ->). cbn [Nat.eqb]. now rewrite andb_true_r. }
  split.
  { intros q i x Q I H C. apply chain_dof in H.
    destruct H as [(-> & [->|[->| ->]])|(-> & [->|[->| ->]])]; cbn in C; try discriminate; reflexivity. }
  split.
  { intros x y X Y. cbn in X, Y. unfold chain_A.
    repeat destruct X as [<-|X]; try destruct X; repeat destruct Y as [<-|Y]; try destruct Y; reflexivity. }
  split.
  { intros u. rewrite chain_form.
    generalize (u (0, 0)%nat), (u (1, 0)%nat), (u (2, 0)%nat), (u (3, 0)%nat). intros a b c d.
    pose proof (Rle_0_sqr a). pose proof (Rle_0_sqr (a - b)). pose proof (Rle_0_sqr (b - c)). pose proof (Rle_0_sqr (c - d)). pose proof (Rle_0_sqr d).
    unfold Rsqr in *. lra. }
  intros q Q. split.
  { intros x y X Y. unfold chain_Al. apply filter_In in X as (X & CX). apply filter_In in Y as (Y & CY).
    apply negb_true_iff in CX. apply negb_true_iff in CY. rewrite CX, CY. unfold chain_A.
    rewrite (Nat.eqb_sym (fst y)), (orb_comm (fst y + 1 =? fst x)). reflexivity. }
  intros u (x & X & NZ). cbn in Q.
  assert (SQ : forall a b : R, (a <> 0 \/ b <> 0 -> 0 < 2 * a * a - 2 * a * b + 2 * b * b)%R).
  { intros a b H. assert (0 < a * a \/ 0 < b * b)%R.
    { destruct H as [H|H]; [left|right]; apply Rsqr_pos_lt in H; exact H. }
    pose proof (Rle_0_sqr a). pose proof (Rle_0_sqr b). pose proof (Rle_0_sqr (a - b)). unfold Rsqr in *. lra. }
  destruct q as [|[|q]]; [| |lia]; unfold form, rsum, chain_Al, chain_A; cbn in *.
  - specialize (SQ (u (0, 0)%nat) (u (1, 0)%nat)). destruct X as [<-|[<-|[]]]; lra.
  - specialize (SQ (u (2, 0)%nat) (u (3, 0)%nat)). destruct X as [<-|[<-|[]]]; lra.
Qed.

(** * C74: local basis *)

(** How many eigenvectors enter the basis: those before the first eigenvalue above the threshold; an exception if there is
    none among the first nev. *)
Theorem c74_count threshold nev vals :
  (0 <= threshold)%R ->
  (exists i, i < nev /\ (threshold < nth i vals 0)%R /\ (forall j, j < i -> (nth j vals 0 <= threshold)%R) /\
     picked threshold nev vals = Ok i) \/
  ((forall j, j < nev -> (nth j vals 0 <= threshold)%R) /\ picked threshold nev vals = Throw).
Proof.
  intros T. unfold picked. destruct (Rle_dec 0 threshold); [|contradiction].
  set (f := fun i => if Rlt_dec threshold (nth i vals 0%R) then true else false).
  assert (G : forall n a, (exists i, a <= i < a + n /\ f i = true /\ (forall j, a <= j < i -> f j = false) /\ find f (seq a n) = Some i) \/
     ((forall j, a <= j < a + n -> f j = false) /\ find f (seq a n) = None)).
  { induction n as [|n IH]; intros a; [right; split; [lia|reflexivity]|]. cbn [seq find].
    destruct (f a) eqn:F; [left; exists a; repeat split; auto; lia|].
    destruct (IH (S a)) as [(i & A & B & C & D)|(A & B)].
    - left. exists i. repeat split; auto; try lia. intros j J. destruct (Nat.eq_dec j a) as [->|]; auto. apply C. lia.
    - right. split; auto. intros j J. destruct (Nat.eq_dec j a) as [->|]; auto. apply A. lia. }
  assert (FT : forall i, f i = true -> (threshold < nth i vals 0)%R) by (intros i; unfold f; destruct (Rlt_dec _ _); [auto|discriminate]).
  assert (FF : forall i, f i = false -> (nth i vals 0 <= threshold)%R) by (intros i; unfold f; destruct (Rlt_dec _ _); [discriminate|lra]).
  destruct (G nev 0) as [(i & A & B & C & D)|(A & B)]; [left|right].
  - exists i. rewrite D. repeat split; auto; try lia. intros j J. apply FF, C. lia.
  - rewrite B. split; auto. intros j J. apply FF, A. lia.
Qed.
Print Assumptions c74_count.

(** The vectors of the basis: the chosen eigenvectors times the partition of unity, divided by the square of their norm. *)
Theorem c74_vectors eigen threshold pu nev arpack n vals vecs cnt :
  n = match arpack with None => Nat.max nev 2 | Some n => n end -> nev <= n -> eigen n = (vals, vecs) ->
  (forall i, i < nev -> length (nth i vecs []) = length pu) -> picked threshold nev vals = Ok cnt -> cnt <= nev ->
  exists basis, geneo_basis eigen threshold pu nev arpack false = Ok (basis, nev) /\ length basis = cnt /\
    forall i k, i < cnt -> k < length pu ->
      nth k (nth i basis []) 0%R =
      (nth k pu 0 * nth k (nth i vecs []) 0 /
       rsum (fun m => (nth m pu 0 * nth m (nth i vecs []) 0) * (nth m pu 0 * nth m (nth i vecs []) 0)) (seq 0 (length pu)))%R.
Proof.
  intros -> LE E LV PC CN. unfold geneo_basis.
  destruct (Nat.ltb_spec (match arpack with Some n => n | None => Nat.max nev 2 end) nev) as [L|_]; [lia|].
  rewrite E, PC. cbn [bind andb]. eexists. split; [reflexivity|]. split; [now rewrite !map_length, seq_length|].
  intros i k I K. rewrite map_map.
  rewrite (nth_indep _ [] ((fun i => map (fun x => (x * (1 / two_norm2 (zip Rmult pu (nth i vecs []))))%R) (zip Rmult pu (nth i vecs []))) 0))
    by (rewrite map_length, seq_length; auto).
  rewrite (map_nth (fun i => map (fun x => (x * (1 / two_norm2 (zip Rmult pu (nth i vecs []))))%R) (zip Rmult pu (nth i vecs [])))).
  rewrite seq_nth by auto. cbn [plus]. set (w := nth i vecs []) in *.
  assert (LW : length w = length pu) by (apply LV; lia).
  assert (LZ : length (zip Rmult pu w) = length pu) by (apply zip_length; auto).
  rewrite (nth_indep _ 0%R ((fun x => (x * (1 / two_norm2 (zip Rmult pu w)))%R) 0%R)) by (rewrite map_length; lia).
  rewrite (map_nth (fun x => (x * (1 / two_norm2 (zip Rmult pu w)))%R)). rewrite (zip_nth Rmult _ 0%R 0%R) by lia.
  unfold Rdiv. rewrite Rmult_1_l. f_equal. f_equal. unfold two_norm2. rewrite (fold_rsum (fun x => x * x)%R), Rplus_0_l.
  clear - LW LZ. assert (S : forall l : list R, rsum (fun x => x * x)%R l = rsum (fun m => nth m l 0 * nth m l 0)%R (seq 0 (length l))).
  { induction l as [|x l IH]; auto. cbn [length seq]. rewrite !rsum_cons, IH, <- seq_shift, rsum_map. reflexivity. }
  rewrite S, LZ. apply rsum_ext. intros m M. apply in_seq in M. rewrite (zip_nth Rmult _ 0%R 0%R) by lia. reflexivity.
Qed.
Print Assumptions c74_vectors.

(** With add_part_unity and a first eigenvalue above 1e-10 the partition of unity takes the place of the last vector. *)
Theorem c74_added eigen threshold pu nev arpack n vals vecs basis :
  n = match arpack with None => Nat.max nev 2 | Some n => n end -> eigen n = (vals, vecs) ->
  geneo_basis eigen threshold pu nev arpack false = Ok (basis, nev) -> (1 / 10000000000 < nth 0 vals 0)%R ->
  geneo_basis eigen threshold pu nev arpack true = Ok (removelast (pu :: basis), nev).
Proof.
  intros -> E. unfold geneo_basis. destruct (_ <? nev); [discriminate|]. rewrite E.
  destruct (picked threshold nev vals) as [cnt| |]; cbn [bind]; try discriminate. cbn [andb]. intros H L. injection H as <-.
  destruct (Rlt_dec _ _); [reflexivity|contradiction].
Qed.
Print Assumptions c74_added.

(** The vectors announced as normalised do not have norm one: dividing by the square of the norm inverts it. *)
Theorem c74_normalised_refuted :
  exists eigen pu, exists basis, geneo_basis eigen (-1) pu 1 None false = Ok (basis, 1) /\
    nth 0 basis [] = [(1 / 2)%R] /\ two_norm2 (nth 0 basis []) <> 1%R.
Proof.
  exists (fun _ => ([0%R; 0%R], [[2%R]; [2%R]])), [1%R]. eexists. split.
  - unfold geneo_basis. cbn [Nat.max Nat.ltb Nat.leb]. unfold picked. destruct (Rle_dec 0 (-1)) as [H|_]; [lra|]. cbn. reflexivity.
  - assert (H : (1 * 2 * (1 / (0 + 1 * 2 * (1 * 2))) = 1 / 2)%R) by field. cbn. rewrite H. split; auto. unfold two_norm2. cbn. lra.
Qed.
Print Assumptions c74_normalised_refuted.

(** The reference argument nev, documented to return the number of eigenvectors below the threshold, keeps its value. *)
Theorem c74_nev_refuted :
  exists eigen pu basis, geneo_basis eigen 1 pu 2 None false = Ok (basis, 2) /\ length basis = 1.
Proof.
  exists (fun _ => ([0%R; 2%R], [[1%R]; [1%R]])), [1%R]. eexists. split.
  - unfold geneo_basis. cbn [Nat.max Nat.ltb Nat.leb]. unfold picked. destruct (Rle_dec 0 1) as [_|H]; [|lra]. cbn [seq find nth].
    destruct (Rlt_dec 1 0); [lra|]. destruct (Rlt_dec 1 2); [|lra]. cbn. reflexivity.
  - reflexivity.
Qed.
Print Assumptions c74_nev_refuted.

(** Asked to add the partition of unity, the constructor leaves the basis empty if all eigenvalues are above the threshold. *)
Theorem c74_added_refuted :
  exists eigen pu, geneo_basis eigen 1 pu 2 None true = Ok ([], 2).
Proof.
  exists (fun _ => ([2%R; 2%R], [[1%R]; [1%R]])), [1%R].
  unfold geneo_basis. cbn [Nat.max Nat.ltb Nat.leb]. unfold picked. destruct (Rle_dec 0 1) as [_|H]; [|lra]. cbn [seq find nth].
  destruct (Rlt_dec 1 2); [|lra]. cbn [bind andb]. destruct (Rlt_dec _ 2) as [_|H]; [reflexivity|lra].
Qed.
Print Assumptions c74_added_refuted.

Example c74_meets : exists basis, geneo_basis (fun _ => ([0%R; 2%R], [[1%R; 3%R]; [1%R; 0%R]])) 1 [1%R; (1/3)%R] 2 None false = Ok (basis, 2) /\
  length basis = 1 /\ nth 1 (nth 0 basis []) 0%R = (1/2)%R.
Proof.
  destruct (c74_vectors (fun _ => ([0%R; 2%R], [[1%R; 3%R]; [1%R; 0%R]])) 1 [1%R; (1/3)%R] 2 None 2 [0%R; 2%R] [[1%R; 3%R]; [1%R; 0%R]] 1)
    as (basis & E & L & V); auto.
  - intros [|[|i]] I; try lia; reflexivity.
  - unfold picked. destruct (Rle_dec 0 1) as [_|H]; [|lra]. cbn [seq find nth].
    destruct (Rlt_dec 1 0); [lra|]. destruct (Rlt_dec 1 2); [reflexivity|lra].
  - exists basis. repeat split; auto. rewrite V by (cbn; lia). unfold rsum. cbn. field.
Qed.
