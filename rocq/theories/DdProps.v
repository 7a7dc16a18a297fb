(** Properties C92 - C95 of the parallel operators, scalar products and preconditioners. *)
From Coq Require Import Reals Lra.
From Verif Require Import Common CommonFacts ParModel ParSpec ParProofs ParProofs2 DdModel DdSpec DdProofs DdProofs2.

Local Arguments rsum : simpl never.

(** ** C92: the operator and the norm of nonoverlapping decompositions *)

(** Applied to a consistent vector, the operator gives on every interior or border DOF of every rank the value of the
    global product, in every order of arrival. *)
Theorem c92_apply W shape all A G order x X :
  (forall q, q < nranks W -> NoDup (held W q)) -> containers W shape -> all_dofs W all -> matrix_additive W A G ->
  Permutation order (interior_border_interior_border W) -> consistent W x X ->
  exists y, novlp_apply W shape A order x = Ok y /\ sized W y /\ consistent_ib W y (product G all X).
Proof.
  intros N C D M P CX. unfold novlp_apply.
  destruct (ib_sum W order N (mv W shape A x) P (tabulate_sized W _)) as (y & E & S & F).
  exists y. split; auto. split; auto. intros q d H I. rewrite (F q d (conj H I)).
  rewrite <- (global_row W shape all C D A G x X d M CX (ex_intro _ q (conj H I))).
  apply rsum_ext. intros s S1. destruct (actives_spec W d) as (_ & FA). apply FA in S1 as (S1 & _).
  unfold mv. now rewrite (tabulate_val W _ s d S1).
Qed.
Print Assumptions c92_apply.

(** y += alpha A x: with an additive y the result is consistent. *)
Theorem c92_applyscaleadd W shape all A G order alpha x X y Y :
  (forall q, q < nranks W -> NoDup (held W q)) -> containers W shape -> all_dofs W all -> matrix_additive W A G ->
  Permutation order (interior_border_interior_border W) -> consistent W x X -> additive W y Y ->
  exists y', novlp_applyscaleadd W shape alpha A order x y = Ok y' /\ sized W y' /\
    consistent_ib W y' (fun i => Y i + alpha * product G all X i)%R.
Proof.
  intros N C D M P CX AY. unfold novlp_applyscaleadd.
  destruct (ib_sum W order N (usmv W shape alpha A x y) P (tabulate_sized W _)) as (y' & E & S & F).
  exists y'. split; auto. split; auto. intros q d H I. rewrite (F q d (conj H I)).
  rewrite <- (global_row W shape all C D A G x X d M CX (ex_intro _ q (conj H I))).
  rewrite (additive_sum W y Y q d AY (conj H I)), <- rsum_scale, <- rsum_plus.
  apply rsum_ext. intros s S1. destruct (actives_spec W d) as (_ & FA). apply FA in S1 as (S1 & _).
  now apply usmv_row.
Qed.
Print Assumptions c92_applyscaleadd.

(** The scalar product of vectors that agree on interior and border is the global one, hence the energy of a vector is
    the global quadratic form. *)
Theorem c92_energy W only porder part shape all A G order x X y Y :
  grid_ok W only -> Permutation porder (ib_all_messages W only) -> rank_partition W porder = Ok part ->
  containers W shape -> all_dofs W all -> matrix_additive W A G ->
  Permutation order (interior_border_interior_border W) -> consistent W x X -> consistent_ib W y Y ->
  exists ax, novlp_apply W shape A order x = Ok ax /\
    par_dot W shape part y x = rsum (fun d => Y d * X d)%R all /\
    par_dot W shape part y ax = rsum (fun i => Y i * product G all X i)%R all.
Proof.
  intros GO P E C D M PO CX CY.
  destruct (c92_apply W shape all A G order x X (proj1 GO) C D M PO CX) as (ax & EA & _ & CA).
  exists ax. split; auto.
  split; [apply (dot_ib W only porder part shape all GO P E C D)|apply (dot_ib W only porder part shape all GO P E C D)]; auto.
  intros q d H _. now apply CX.
Qed.
Print Assumptions c92_energy.

(** norm() of the backends: the Euclidean norm of the global vector an additive vector stands for; no value of the
    argument is counted twice. *)
Theorem c92_norm W only porder part shape all order v V :
  grid_ok W only -> Permutation porder (ib_all_messages W only) -> rank_partition W porder = Ok part ->
  containers W shape -> all_dofs W all -> sized W v ->
  Permutation order (interior_border_interior_border W) -> additive W v V ->
  backend_norm W shape part order v = Ok (sqrt (rsum (fun d => V d * V d)%R all)).
Proof.
  intros GO P E C D SZ PO AV. unfold backend_norm, make_consistent.
  destruct (ib_sum W order (proj1 GO) v PO SZ) as (x & EX & _ & F). rewrite EX. cbn [bind].
  assert (CX : consistent_ib W x V).
  { intros q d H I. rewrite (F q d (conj H I)). symmetry. now apply (additive_sum W v V q d AV). }
  unfold par_norm. do 2 f_equal. now apply (dot_ib W only porder part shape all GO P E C D).
Qed.
Print Assumptions c92_norm.

(** Two ranks that share one DOF; it is on the border of both. *)
Definition w92 : world := World 2 (fun _ => [0]) (fun _ _ => true) (fun _ => 1).
Definition shape92 : nat -> blocks dof := fun _ => Field [(0, 0)].
Definition vec92 (a b : R) : dvec R := fun q _ => [if q =? 0 then a else b].

Lemma grid92 : grid_ok w92 true.
Proof.
  split; [|split].
  - intros q _. repeat constructor; auto.
  - intros q e Q H. exists q. cbn. auto.
  - auto.
Qed.
Lemma containers92 : containers w92 shape92.
Proof.
  intros q Q. split; [repeat constructor; cbn; tauto|]. intros (e & k). cbn. unfold has_dof. cbn. split.
  - intros [X|[]]. injection X as <- <-. repeat split; auto.
  - intros (_ & [<-|[]] & K). left. f_equal. lia.
Qed.
Lemma has92 q d : has_dof w92 q d <-> q < 2 /\ d = (0, 0).
Proof.
  destruct d as (e & k). unfold has_dof. cbn. split.
  - intros (Q & [<-|[]] & K). split; auto. f_equal. lia.
  - intros (Q & X). injection X as -> ->. auto.
Qed.
Lemma all92 : all_dofs w92 [(0, 0)].
Proof.
  split; [repeat constructor; cbn; tauto|]. intros d. cbn. split.
  - intros [<-|[]]. exists 0. apply has92. auto.
  - intros (q & H). apply has92 in H as (_ & ->). auto.
Qed.
Lemma active92 q : active w92 q (0, 0) <-> q < 2.
Proof. unfold active. rewrite has92. cbn. tauto. Qed.
Lemma ranks92 P l : (forall s, P s <-> s < 2) -> ranks_with P l -> Permutation l [0; 1].
Proof.
  intros H L. apply (ranks_perm P); auto. split; [repeat constructor; cbn; intuition lia|].
  intros s. rewrite H. cbn. lia.
Qed.
Lemma additive92 a b : additive w92 (vec92 a b) (fun _ => a + b)%R.
Proof.
  intros d l L NE. destruct l as [|s l]; [congruence|].
  assert (A : active w92 s d) by (apply L; now left). destruct A as (A & _). apply has92 in A as (_ & ->).
  rewrite (rsum_perm _ _ _ (ranks92 _ (s :: l) active92 L)), !rsum_cons. unfold rsum, val, at_dof, vec92. cbn. lra.
Qed.
Lemma matrix92 a b : matrix_additive w92 (fun q _ _ => if q =? 0 then a else b) (fun i j => if (fst j =? 0) && (snd j =? 0) then (a + b)%R else 0%R).
Proof.
  intros i j l (q & (A & _)) L. apply has92 in A as (_ & ->).
  destruct ((fst j =? 0) && (snd j =? 0)) eqn:J.
  - apply andb_true_iff in J as (J1 & J2). apply Nat.eqb_eq in J1, J2. destruct j as (e & k). cbn in *. subst.
    assert (B : forall s, active w92 s (0, 0) /\ has_dof w92 s (0, 0) <-> s < 2) by (intros s; rewrite active92, has92; tauto).
    rewrite (rsum_perm _ _ _ (ranks92 _ l B L)).
    rewrite !rsum_cons. unfold rsum. cbn. lra.
  - destruct l as [|s l]; [reflexivity|]. destruct L as (_ & L).
    assert (X : active w92 s (0, 0) /\ has_dof w92 s j) by (apply L; now left). destruct X as (_ & X).
    apply has92 in X as (_ & ->). discriminate.
Qed.
Definition order92 : order_t := interior_border_interior_border w92.

Example c92_case : exists y y',
  novlp_apply w92 shape92 (fun q _ _ => if q =? 0 then 2%R else 3%R) order92 (vec92 7%R 7%R) = Ok y /\
  val (y 0) (0, 0) = 35%R /\ val (y 1) (0, 0) = 35%R /\
  novlp_applyscaleadd w92 shape92 (-1) (fun q _ _ => if q =? 0 then 2%R else 3%R) order92 (vec92 7%R 7%R) (vec92 10 30) = Ok y' /\
  val (y' 0) (0, 0) = 5%R /\ val (y' 1) (0, 0) = 5%R.
Proof.
  assert (CX : consistent w92 (vec92 7%R 7%R) (fun _ => 7%R)).
  { intros q d H. apply has92 in H as (_ & ->). unfold val, at_dof, vec92. cbn. now destruct (q =? 0). }
  destruct (c92_apply w92 shape92 [(0, 0)] _ _ order92 (vec92 7%R 7%R) (fun _ => 7%R) (proj1 grid92) containers92 all92
              (matrix92 2%R 3%R) (Permutation_refl _) CX) as (y & E & _ & F).
  destruct (c92_applyscaleadd w92 shape92 [(0, 0)] _ _ order92 (-1) (vec92 7%R 7%R) (fun _ => 7%R) (vec92 10 30) _ (proj1 grid92) containers92 all92
              (matrix92 2%R 3%R) (Permutation_refl _) CX (additive92 10 30)) as (y' & E' & _ & F').
  assert (V : forall q, q < 2 -> val (y q) (0, 0) = 35%R).
  { intros q Q. rewrite F; [|now apply has92|reflexivity]. unfold product. rewrite rsum_cons. unfold rsum. cbn. lra. }
  assert (V' : forall q, q < 2 -> val (y' q) (0, 0) = 5%R).
  { intros q Q. rewrite F'; [|now apply has92|reflexivity]. unfold product. rewrite rsum_cons. unfold rsum. cbn. lra. }
  exists y, y'. rewrite !V, !V' by lia. repeat split; auto.
Qed.

(** A consistent y is not updated to y + alpha A x: its border values are counted once per copy. *)
Theorem c92_applyscaleadd_refuted : exists W shape all A G order x X y Y y',
  grid_ok W true /\ containers W shape /\ all_dofs W all /\ matrix_additive W A G /\
  Permutation order (interior_border_interior_border W) /\ consistent W x X /\ consistent W y Y /\
  novlp_applyscaleadd W shape 1 A order x y = Ok y' /\
  exists q d, active W q d /\ val (y' q) d <> (Y d + 1 * product G all X d)%R.
Proof.
  set (A := (fun q _ _ => if q =? 0 then 1%R else 1%R) : dmat).
  assert (K : forall a, consistent w92 (vec92 a a) (fun _ => a)).
  { intros a q d H. apply has92 in H as (_ & ->). unfold val, at_dof, vec92. cbn. now destruct (q =? 0). }
  destruct (c92_applyscaleadd w92 shape92 [(0, 0)] A _ order92 1 (vec92 1 1) (fun _ => 1%R) (vec92 5 5) _ (proj1 grid92) containers92 all92
              (matrix92 1%R 1%R) (Permutation_refl _) (K 1%R) (additive92 5 5)) as (y' & E & _ & F).
  exists w92, shape92, [(0, 0)], A. eexists. exists order92, (vec92 1 1), (fun _ => 1%R), (vec92 5 5), (fun _ => 5%R), y'.
  split; [apply grid92|]. split; [apply containers92|]. split; [apply all92|]. split; [apply (matrix92 1%R 1%R)|].
  split; [apply Permutation_refl|]. split; [apply K|]. split; [apply K|]. split; [exact E|].
  exists 0, (0, 0). split; [apply active92; lia|]. rewrite F; [|apply has92; auto|reflexivity]. lra.
Qed.
Print Assumptions c92_applyscaleadd_refuted.

(** ** C93: the diagonal preconditioner and the diagonal solvers *)

(** NonoverlappingJacobi divides by the diagonal of the global matrix, on every rank and in every order of arrival. *)
Theorem c93_jacobi W A G order :
  (forall q, q < nranks W -> NoDup (held W q)) -> matrix_additive W A G ->
  Permutation order (interior_border_interior_border W) ->
  exists inv, jacobi_setup W A order = Ok inv /\
    forall d q i, active W q i -> val (jacobi_apply W inv d q) i = (val (d q) i / G i i)%R.
Proof.
  intros N M P. unfold jacobi_setup.
  destruct (add_spec W (ib W) (ib W) order N P (fun q => tabulate W (fun d => A q d d)) (tabulate_sized W _)) as (y & E & _ & F).
  rewrite E. cbn [bind]. eexists. split; [reflexivity|].
  intros d q i ((Q & H & K) & I). unfold jacobi_apply. rewrite !(tabulate_val W _ q i) by (repeat split; auto).
  assert (V : val (y q) i = G i i).
  { unfold val, at_dof. rewrite (proj1 (F q (fst i) (snd i) Q H K) I (actives W i)).
    - destruct (actives_spec W i) as (A1 & A2).
      rewrite (M i i (actives W i)); [|exists q; repeat split; auto|split; auto; intros s; rewrite A2; unfold active; tauto].
      apply rsum_ext. intros s S. apply A2 in S as (S & _). exact (tabulate_val W _ s i S).
    - destruct (actives_spec W i) as (A1 & A2). split; auto. intros s. rewrite A2.
      unfold active, has_dof, contributes. split; [tauto|]. intros (S1 & S2 & [->|S3]); auto. }
  rewrite V. unfold Rdiv. apply Rmult_comm.
Qed.
Print Assumptions c93_jacobi.

(** It keeps consistent vectors consistent and additive vectors additive, and both stand for the same global vector. *)
Theorem c93_jacobi_kind W A G order inv d D :
  (forall q, q < nranks W -> NoDup (held W q)) -> matrix_additive W A G ->
  Permutation order (interior_border_interior_border W) -> jacobi_setup W A order = Ok inv ->
  (consistent_ib W d D -> consistent_ib W (jacobi_apply W inv d) (fun i => D i / G i i)%R) /\
  (additive W d D -> additive W (jacobi_apply W inv d) (fun i => D i / G i i)%R).
Proof.
  intros N M P E. destruct (c93_jacobi W A G order N M P) as (inv' & E' & F). rewrite E in E'. injection E' as <-.
  split.
  - intros C q i H I. now rewrite (F d q i (conj H I)), (C q i H I).
  - intros AD i l L NE. rewrite (AD i l L NE). unfold Rdiv. rewrite Rmult_comm, <- rsum_scale.
    apply rsum_ext. intros s S. apply L in S. rewrite (F d s i S). unfold Rdiv. lra.
Qed.
Print Assumptions c93_jacobi_kind.

(** The nonoverlapping diagonal solver solves D z = r for an additive right hand side when every rank has the global
    diagonal, for instance when no DOF is on two interior or border entities. *)
Theorem c93_explicit W shape A D order z r Rg :
  (forall q, q < nranks W -> NoDup (held W q)) -> containers W shape -> diagonal W A ->
  (forall q i, active W q i -> A q i i = D i) ->
  Permutation order (interior_border_interior_border W) -> additive W r Rg ->
  exists z', novlp_explicit_diagonal W shape A order z r = Ok z' /\ consistent_ib W z' (fun i => Rg i / D i)%R.
Proof.
  intros N C DA CD P AR. unfold novlp_explicit_diagonal.
  destruct (ib_sum W order N (seq_jac W shape A z r) P (tabulate_sized W _)) as (z' & E & _ & F).
  exists z'. split; auto. intros q i H I. rewrite (F q i (conj H I)), (additive_sum W r Rg q i AR (conj H I)).
  unfold Rdiv. rewrite Rmult_comm, <- rsum_scale. apply rsum_ext. intros s S.
  destruct (actives_spec W i) as (_ & FA). apply FA in S.
  rewrite (seq_jac_diagonal W shape A z r s i C DA (proj1 S)), (CD s i S). unfold Rdiv. lra.
Qed.
Print Assumptions c93_explicit.

(** With the matrices the ranks assemble (which add up to the global diagonal) it does not: each border copy divides by
    its own part of the diagonal, and the quotients are added. *)
Theorem c93_explicit_refuted : exists W shape all A G order z r Rg z',
  grid_ok W true /\ containers W shape /\ all_dofs W all /\ diagonal W A /\ matrix_additive W A G /\
  Permutation order (interior_border_interior_border W) /\ additive W r Rg /\
  novlp_explicit_diagonal W shape A order z r = Ok z' /\
  exists q i, active W q i /\ (G i i * val (z' q) i = 2 * Rg i)%R /\ Rg i <> 0%R.
Proof.
  set (A := (fun q _ _ => if q =? 0 then 1%R else 1%R) : dmat).
  assert (DA : diagonal w92 A).
  { split; [intros q i _; unfold A; destruct (q =? 0); lra|]. intros q i j H H' NE.
    apply has92 in H as (_ & ->). apply has92 in H' as (_ & ->). congruence. }
  assert (CD : forall q i, active w92 q i -> A q i i = 1%R) by (intros q i _; unfold A; now destruct (q =? 0)).
  destruct (c93_explicit w92 shape92 A (fun _ => 1%R) order92 (vec92 0 0) (vec92 3 4) _ (proj1 grid92) containers92 DA
              CD (Permutation_refl _) (additive92 3 4)) as (z' & E & F).
  exists w92, shape92, [(0, 0)], A. eexists. exists order92, (vec92 0 0), (vec92 3 4). eexists. exists z'.
  split; [apply grid92|]. split; [apply containers92|]. split; [apply all92|]. split; [exact DA|]. split; [apply (matrix92 1%R 1%R)|].
  split; [apply Permutation_refl|]. split; [apply (additive92 3 4)|]. split; [exact E|].
  exists 0, (0, 0). split; [apply active92; lia|]. rewrite F; [|apply has92; auto|reflexivity]. cbn. split; lra.
Qed.
Print Assumptions c93_explicit_refuted.

Example c93_case : exists inv,
  jacobi_setup w92 (fun q _ _ => if q =? 0 then 2%R else 3%R) order92 = Ok inv /\
  val (jacobi_apply w92 inv (vec92 10 10) 1) (0, 0) = 2%R.
Proof.
  destruct (c93_jacobi w92 _ _ order92 (proj1 grid92) (matrix92 2%R 3%R) (Permutation_refl _)) as (inv & E & F).
  exists inv. split; auto. rewrite F by (apply active92; lia). unfold val, at_dof, vec92. cbn. field.
Qed.

(** The overlapping diagonal solver: when matrix and right hand side agree on interior and border, every copy of the
    result, overlap included, is the quotient. *)
Theorem c93_explicit_overlap W shape A D order z r Rg :
  grid_ok W false -> containers W shape -> diagonal W A ->
  (forall q i, active W q i -> A q i i = D i) -> consistent_ib W r Rg ->
  Permutation order (interior_border_all W) ->
  exists z', ovlp_explicit_diagonal W shape A order z r = Ok z' /\ consistent W z' (fun i => Rg i / D i)%R.
Proof.
  intros G C DA CD CR P. unfold ovlp_explicit_diagonal.
  assert (J : forall s i, active W s i -> val (seq_jac W shape A z r s) i = (Rg i / D i)%R).
  { intros s i S. rewrite (seq_jac_diagonal W shape A z r s i C DA (proj1 S)), (CD s i S).
    now rewrite (CR s i (proj1 S) (proj2 S)). }
  assert (O : forall q i, has_dof W q i -> exists s, active W s i).
  { intros q i H. destruct (owner_exists W false q i G H) as (s & _ & S). eauto. }
  destruct (Nat.ltb_spec 1 (nranks W)) as [L|L].
  - destruct (copy_spec W (ib W) everywhere order (proj1 G) P (seq_jac W shape A z r) (tabulate_sized W _)) as (z' & E & _ & F).
    exists z'. split; auto. intros q i H. pose proof H as (Q & HE & K).
    destruct (F q (fst i) Q HE) as [(s & D1 & (S1 & S2 & [->|S3]) & _ & V)|(V & [X|X])].
    + congruence.
    + unfold val, at_dof. rewrite V. apply (J s i). repeat split; auto.
    + discriminate.
    + destruct (O q i H) as (s & S). assert (s = q) as ->.
      { apply X. destruct S as ((S1 & S2 & _) & S3). repeat split; auto. }
      unfold val, at_dof. rewrite V. now apply (J q i).
  - eexists. split; [reflexivity|]. intros q i H. destruct (O q i H) as (s & S).
    assert (s = q) as -> by (destruct H as (H & _), S as ((S & _) & _); lia). now apply J.
Qed.
Print Assumptions c93_explicit_overlap.

(** ** C94: the operator of overlapping decompositions *)

(** Applied to a consistent vector it gives zero at the DOFs the rank constrains and the global product at the others. *)
Theorem c94_apply W shape all cc A G x X q i :
  containers W shape -> all_dofs W all -> consistent W x X -> has_dof W q i ->
  (cc q i = false -> full_row W A G q i) ->
  val (ovlp_apply W shape cc A x q) i = if cc q i then 0%R else product G all X i.
Proof.
  intros C D CX H F. unfold ovlp_apply, set_constrained. rewrite (tabulate_val W _ q i H). destruct (cc q i); auto.
  unfold mv. rewrite (tabulate_val W _ q i H). apply (full_row_product W shape all A G x X); auto. apply H.
Qed.
Print Assumptions c94_apply.

Theorem c94_applyscaleadd W shape all cc alpha A G x X y q i :
  containers W shape -> all_dofs W all -> consistent W x X -> has_dof W q i ->
  (cc q i = false -> full_row W A G q i) ->
  val (ovlp_applyscaleadd W shape cc alpha A x y q) i =
  if cc q i then 0%R else (val (y q) i + alpha * product G all X i)%R.
Proof.
  intros C D CX H F. unfold ovlp_applyscaleadd, set_constrained. rewrite (tabulate_val W _ q i H). destruct (cc q i); auto.
  rewrite usmv_row by auto. do 2 f_equal. apply (full_row_product W shape all A G x X); auto. apply H.
Qed.
Print Assumptions c94_applyscaleadd.

(** The parallel scalar product with a vector that agrees on interior and border is the global form, although the result
    of the operator is not consistent: only owners count, and owners constrain only the global Dirichlet DOFs. *)
Theorem c94_energy W only porder part shape all cc (dirichlet : dof -> bool) A G x X y Y :
  grid_ok W only -> Permutation porder (ib_all_messages W only) -> rank_partition W porder = Ok part ->
  containers W shape -> all_dofs W all -> consistent W x X -> consistent_ib W y Y ->
  (forall r d, smallest_ib W (fst d) r -> cc r d = dirichlet d) ->
  (forall q i, has_dof W q i -> cc q i = false -> full_row W A G q i) ->
  par_dot W shape part y (ovlp_apply W shape cc A x) =
  rsum (fun i => Y i * (if dirichlet i then 0 else product G all X i))%R all.
Proof.
  intros GO P E C D CX CY CD F. rewrite (dot_owner W only porder part shape all GO P E C D).
  apply rsum_ext. intros d I. destruct (owner_spec W only porder part all GO P E D d I) as (O1 & (O2 & O3)).
  rewrite (CY _ d O2 O3). f_equal.
  rewrite (c94_apply W shape all cc A G x X _ d C D CX O2 (F _ d O2)). now rewrite (CD _ d O1).
Qed.
Print Assumptions c94_energy.

(** With a symmetric matrix the operator is symmetric on the vectors that vanish at the Dirichlet DOFs. *)
Theorem c94_symmetric W only porder part shape all cc (dirichlet : dof -> bool) A G x X y Y :
  grid_ok W only -> Permutation porder (ib_all_messages W only) -> rank_partition W porder = Ok part ->
  containers W shape -> all_dofs W all -> consistent W x X -> consistent W y Y ->
  (forall r d, smallest_ib W (fst d) r -> cc r d = dirichlet d) ->
  (forall q i, has_dof W q i -> cc q i = false -> full_row W A G q i) ->
  (forall i j, G i j = G j i) -> (forall d, dirichlet d = true -> X d = 0%R /\ Y d = 0%R) ->
  par_dot W shape part y (ovlp_apply W shape cc A x) = par_dot W shape part x (ovlp_apply W shape cc A y).
Proof.
  intros GO P E C D CX CY CD F SY Z.
  rewrite (c94_energy W only porder part shape all cc dirichlet A G x X y Y); auto; [|intros q d H _; now apply CY].
  rewrite (c94_energy W only porder part shape all cc dirichlet A G y Y x X); auto; [|intros q d H _; now apply CX].
  transitivity (rsum (fun i => rsum (fun j => Y i * (G i j * X j))%R all) all).
  - apply rsum_ext. intros i _. unfold product. destruct (dirichlet i) eqn:DI; [|now rewrite <- rsum_scale].
    destruct (Z i DI) as (_ & ->). rewrite Rmult_0_l. symmetry. apply rsum_zero. intros; lra.
  - rewrite rsum_swap. apply rsum_ext. intros j _. destruct (dirichlet j) eqn:DJ.
    + destruct (Z j DJ) as (-> & _). rewrite Rmult_0_l. apply rsum_zero. intros; lra.
    + unfold product. rewrite <- rsum_scale. apply rsum_ext. intros i _. rewrite (SY i j). lra.
Qed.
Print Assumptions c94_symmetric.

(** Three DOFs in a row, two ranks: rank 0 stores 0 and 1, rank 1 stores 1 and 2; DOF 1 is interior on rank 0 and in the
    overlap of rank 1, which constrains it. *)
Definition w94 : world :=
  World 2 (fun q => if q =? 0 then [0; 1] else [1; 2]) (fun q e => if q =? 0 then true else e =? 2) (fun _ => 1).
Definition shape94 : nat -> blocks dof := fun q => Block (map (fun e => Field [(e, 0)]) (held w94 q)).
Definition cc94 (q : nat) (d : dof) : bool := (q =? 1) && (fst d =? 1).
Definition g94 (i j : dof) : R :=
  if fst i =? fst j then 2%R else if (fst i + fst j =? 1) then (-1)%R else 0%R.

Lemma has94 q d : has_dof w94 q d <-> (q = 0 /\ (d = (0, 0) \/ d = (1, 0))) \/ (q = 1 /\ (d = (1, 0) \/ d = (2, 0))).
Proof.
  destruct d as (e & k). unfold has_dof. cbn. split.
  - intros (Q & H & K). destruct q as [|[|q]]; [| |lia]; cbn in H.
    + left. split; auto. destruct H as [<-|[<-|[]]]; [left|right]; f_equal; lia.
    + right. split; auto. destruct H as [<-|[<-|[]]]; [left|right]; f_equal; lia.
  - intros [(-> & [X|X])|(-> & [X|X])]; injection X as -> ->; cbn; repeat split; auto.
Qed.
Lemma grid94 : grid_ok w94 false.
Proof.
  split; [|split].
  - intros [|[|q]] Q; cbn in *; try lia; repeat constructor; cbn; intuition lia.
  - intros [|[|q]] e Q H; cbn in *; try lia.
    + exists 0. cbn. auto.
    + destruct H as [<-|[<-|[]]]; [exists 0|exists 1]; cbn; auto.
  - discriminate.
Qed.
Lemma containers94 : containers w94 shape94.
Proof.
  intros [|[|q]] Q; cbn in Q; [| |lia]; (split; [cbn; repeat constructor; cbn; intuition congruence|]);
  intros d; rewrite has94; cbn; intuition (subst; auto; try discriminate).
Qed.
Lemma all94 : all_dofs w94 [(0, 0); (1, 0); (2, 0)].
Proof.
  split; [repeat constructor; cbn; intuition congruence|]. intros d. split.
  - cbn. intros [<-|[<-|[<-|[]]]]; [exists 0|exists 0|exists 1]; apply has94; auto.
  - intros (q & H). apply has94 in H. cbn. intuition (subst; auto).
Qed.

(** The local matrices: rank 1 has no information about the row of DOF 1 beyond its own cells. *)
Definition a94 : dmat := fun q i j => if cc94 q i then (if fst i =? fst j then 1%R else 0%R) else g94 i j.
Lemma full94 q i : has_dof w94 q i -> cc94 q i = false -> full_row w94 a94 g94 q i.
Proof.
  intros H CC. split.
  - intros j _. unfold a94. now rewrite CC.
  - intros j (s & S) NH. apply has94 in H. apply has94 in S. unfold g94.
    destruct H as [(-> & [-> | ->])|(-> & [-> | ->])]; cbn in CC; try discriminate;
    destruct S as [(-> & [-> | ->])|(-> & [-> | ->])]; cbn; auto; destruct NH; apply has94; auto.
Qed.
Definition x94 (a b c : R) : dvec R := fun _ e => [if e =? 0 then a else if e =? 1 then b else c].
Lemma consistent94 a b c : consistent w94 (x94 a b c) (fun d => if fst d =? 0 then a else if fst d =? 1 then b else c).
Proof. intros q d H. apply has94 in H. unfold val, at_dof, x94. intuition (subst; reflexivity). Qed.

Example c94_case :
  val (ovlp_apply w94 shape94 cc94 a94 (x94 1 2 3) 0) (1, 0) = 3%R /\
  val (ovlp_apply w94 shape94 cc94 a94 (x94 1 2 3) 1) (1, 0) = 0%R /\
  val (ovlp_apply w94 shape94 cc94 a94 (x94 1 2 3) 1) (2, 0) = 6%R.
Proof.
  assert (K : forall q i, has_dof w94 q i ->
    val (ovlp_apply w94 shape94 cc94 a94 (x94 1 2 3) q) i =
    if cc94 q i then 0%R else product g94 [(0, 0); (1, 0); (2, 0)] (fun d => if fst d =? 0 then 1%R else if fst d =? 1 then 2%R else 3%R) i).
  { intros q i H. apply (c94_apply w94 shape94 _ cc94 a94 g94 _ _ q i containers94 all94 (consistent94 1 2 3) H). now apply full94. }
  rewrite !K by (apply has94; auto). unfold product. rewrite !rsum_cons. unfold rsum, g94. cbn. repeat split; lra.
Qed.

(** ** C95: Schwarz preconditioners *)

(** A sequential preconditioner gives every stored entity its number of values. *)
Definition prec_sized (W : world) (prec : seq_prec) : Prop :=
  forall q v d e, length (prec q v d e) = ndofs W e.

(** The wrapped preconditioner: every copy of a DOF gets the sum over all ranks that store it, each applied to the
    defect without the values at its constrained DOFs. *)
Theorem c95_additive W cc prec order v d :
  (forall q, q < nranks W -> NoDup (held W q)) -> Permutation order (all_all W) -> prec_sized W prec ->
  exists z, wrapped_apply W cc prec order v d = Ok z /\
    forall q i l, has_dof W q i -> ranks_with (fun s => has_dof W s i) l ->
      val (z q) i = rsum (fun s => val (prec s (v s) (tabulate W (fun k => if cc s k then 0%R else val (d s) k))) i) l.
Proof.
  intros N P SZ. unfold wrapped_apply.
  destruct (all_sum W order N (fun q => prec q (v q) (set_constrained W cc d q)) P) as (z & E & _ & F).
  { intros q e _ _. apply SZ. }
  exists z. split; auto. intros q i l H L. rewrite (F q i H).
  apply rsum_perm. apply (ranks_perm (fun s => has_dof W s i)); auto. apply holding_spec.
Qed.
Print Assumptions c95_additive.

(** The exact subdomain solvers: the sum of the subdomain solutions, on every copy. *)
Theorem c95_subdomain W solver order v d :
  (forall q, q < nranks W -> NoDup (held W q)) -> Permutation order (all_all W) -> prec_sized W solver ->
  exists z, subdomain_apply W solver order v d = Ok z /\
    forall q i l, has_dof W q i -> ranks_with (fun s => has_dof W s i) l ->
      val (z q) i = rsum (fun s => val (solver s (v s) (d s)) i) l.
Proof.
  intros N P SZ. unfold subdomain_apply.
  destruct (all_sum W order N (fun q => solver q (v q) (d q)) P) as (z & E & _ & F).
  { intros q e _ _. apply SZ. }
  exists z. split; auto. intros q i l H L. rewrite (F q i H).
  apply rsum_perm. apply (ranks_perm (fun s => has_dof W s i)); auto. apply holding_spec.
Qed.
Print Assumptions c95_subdomain.

(** The restricted solver: on every copy the value the owner computed. *)
Theorem c95_restricted W porder part solver order v d :
  grid_ok W false -> Permutation porder (ib_all_messages W false) -> rank_partition W porder = Ok part ->
  Permutation order (interior_border_all W) -> prec_sized W solver ->
  exists z, restricted_apply W solver part order v d = Ok z /\
    forall q i r, has_dof W q i -> smallest_ib W (fst i) r -> val (z q) i = val (solver r (v r) (d r)) i.
Proof.
  intros G P E PO SZ. unfold restricted_apply. destruct (Nat.ltb_spec 1 (nranks W)) as [L|L].
  - destruct (ib_all_sum W order (proj1 G) (mask_foreign_dofs W part (fun q => solver q (v q) (d q))) PO (tabulate_sized W _)) as (z & EZ & _ & F).
    exists z. split; auto. intros q i r H R1. rewrite (F q i H).
    assert (M : forall s, has_dof W s i ->
      val (mask_foreign_dofs W part (fun q => solver q (v q) (d q)) s) i = if r =? s then val (solver s (v s) (d s)) i else 0%R).
    { intros s S. unfold mask_foreign_dofs. rewrite (tabulate_val W _ s i S).
      now rewrite (owner_part W false porder part s i r G P E S R1). }
    destruct (owner_exists W false q i G H) as (r' & R2 & RA).
    assert (r' = r) as -> by (eapply smallest_unique; eauto).
    destruct (actives_spec W i) as (A1 & A2).
    rewrite (rsum_one _ r); auto.
    + rewrite (M r (proj1 RA)), Nat.eqb_refl. destruct (ib W q (fst i)) eqn:B; [lra|].
      rewrite (M q H). destruct (Nat.eqb_spec r q) as [->|D]; [|lra]. destruct RA as (_ & RA). congruence.
    + now apply A2.
    + intros s S D. apply A2 in S as (S & _). rewrite (M s S). destruct (Nat.eqb_spec r s); [congruence|auto].
  - eexists. split; [reflexivity|]. intros q i r H R1.
    assert (r = q) as -> by (destruct H as (H & _), R1 as ((R1 & _) & _); lia). reflexivity.
Qed.
Print Assumptions c95_restricted.

(** The additive preconditioner is symmetric and nonnegative in the parallel scalar product, on residuals that agree
    where they are not constrained, if every local preconditioner is and keeps constrained values zero.  This is what
    the conjugate gradient method needs. *)
Theorem c95_symmetric W only porder part shape all cc prec order v r Rg s Sg zr zs :
  grid_ok W only -> Permutation porder (ib_all_messages W only) -> rank_partition W porder = Ok part ->
  containers W shape -> all_dofs W all -> Permutation order (all_all W) -> prec_sized W prec ->
  (forall q i o, smallest_ib W (fst i) o -> has_dof W q i -> cc o i = true -> cc q i = true) ->
  (forall q i, has_dof W q i -> cc q i = false -> val (r q) i = Rg i /\ val (s q) i = Sg i) ->
  let zero_at_constrained q (u : lvec) := forall i, has_dof W q i -> cc q i = true -> val u i = 0%R in
  let ldot q (u w : lvec) := rsum (fun i => val u i * val w i)%R (flatten (shape q)) in
  (forall q u, q < nranks W -> zero_at_constrained q u -> zero_at_constrained q (prec q (v q) u)) ->
  wrapped_apply W cc prec order v r = Ok zr -> wrapped_apply W cc prec order v s = Ok zs ->
  ((forall q u w, q < nranks W -> zero_at_constrained q u -> zero_at_constrained q w ->
      ldot q (prec q (v q) u) w = ldot q u (prec q (v q) w)) ->
   par_dot W shape part zr s = par_dot W shape part zs r) /\
  ((forall q u, q < nranks W -> zero_at_constrained q u -> (0 <= ldot q (prec q (v q) u) u)%R) ->
   (0 <= par_dot W shape part zr r)%R).
Proof.
  intros G P E C D PO SZ O CR zc ldot PZ EZR EZS.
  assert (K : forall d z, wrapped_apply W cc prec order v d = Ok z ->
    forall q i, has_dof W q i -> val (z q) i = rsum (fun p => val (prec p (v p) (set_constrained W cc d p)) i) (holding W i)).
  { intros d z EZ q i H. destruct (c95_additive W cc prec order v d (proj1 G) PO SZ) as (z' & EZ' & F).
    rewrite EZ in EZ'. injection EZ' as <-. apply (F q i _ H (holding_spec W i)). }
  assert (Z : forall d q, zc q (set_constrained W cc d q)).
  { intros d q i H CC. unfold set_constrained. rewrite (tabulate_val W _ q i H). now rewrite CC. }
  assert (DOT : forall d z t T, wrapped_apply W cc prec order v d = Ok z ->
    (forall q i, has_dof W q i -> cc q i = false -> val (t q) i = T i) ->
    par_dot W shape part z t =
    rsum (fun q => ldot q (prec q (v q) (set_constrained W cc d q)) (set_constrained W cc t q)) (seq 0 (nranks W))).
  { intros d z t T EZ CT.
    apply (schwarz_dot W only porder part shape all G P E C D cc (fun q => prec q (v q) (set_constrained W cc d q)) z t T); eauto.
    intros q i H CC. apply PZ; auto. apply H. }
  split.
  - intros SY. rewrite (DOT r zr s Sg EZR), (DOT s zs r Rg EZS) by (intros; now apply CR).
    apply rsum_ext. intros q Q. apply in_seq in Q. rewrite SY by (auto; lia).
    unfold ldot. apply rsum_ext. intros; lra.
  - intros NN. rewrite (DOT r zr r Rg EZR) by (intros; now apply CR).
    apply rsum_nonneg. intros q Q. apply in_seq in Q. apply NN; [lia|apply Z].
Qed.
Print Assumptions c95_symmetric.

(** Division by 2 as local preconditioner on the row of three DOFs. *)
Definition half94 : seq_prec := fun q _ d => tabulate w94 (fun i => val d i / 2)%R.
Example c95_case : exists z,
  wrapped_apply w94 cc94 half94 (all_all w94) (x94 0 0 0) (x94 2 4 6) = Ok z /\
  val (z 0) (1, 0) = 2%R /\ val (z 1) (1, 0) = 2%R /\ val (z 1) (2, 0) = 3%R.
Proof.
  destruct (c95_additive w94 cc94 half94 (all_all w94) (x94 0 0 0) (x94 2 4 6) (proj1 grid94) (Permutation_refl _)) as (z & E & F).
  { intros q v d e. apply tabulate_length. }
  exists z. split; auto.
  assert (R1 : ranks_with (fun s => has_dof w94 s (1, 0)) [0; 1]).
  { split; [repeat constructor; cbn; intuition lia|]. intros s. rewrite has94. cbn. intuition (subst; auto). }
  assert (R2 : ranks_with (fun s => has_dof w94 s (2, 0)) [1]).
  { split; [repeat constructor; cbn; intuition lia|]. intros s. rewrite has94. cbn. intuition (subst; auto; congruence). }
  rewrite (F 0 (1, 0) [0; 1]), (F 1 (1, 0) [0; 1]), (F 1 (2, 0) [1]); auto; try (apply has94; auto).
  rewrite !rsum_cons. unfold rsum, val, at_dof, half94, tabulate. cbn. repeat split; lra.
Qed.

(** The hypotheses of the symmetry theorem hold for this preconditioner. *)
Example c95_symmetric_case : exists part zr zs,
  rank_partition w94 (ib_all_messages w94 false) = Ok part /\
  wrapped_apply w94 cc94 half94 (all_all w94) (x94 0 0 0) (x94 2 4 6) = Ok zr /\
  wrapped_apply w94 cc94 half94 (all_all w94) (x94 0 0 0) (x94 1 0 5) = Ok zs /\
  par_dot w94 shape94 part zr (x94 1 0 5) = par_dot w94 shape94 part zs (x94 2 4 6).
Proof.
  destruct (partition_spec w94 false _ grid94 (Permutation_refl _)) as (part & EP & _).
  assert (SZ : prec_sized w94 half94) by (intros q v d e; apply tabulate_length).
  destruct (c95_additive w94 cc94 half94 (all_all w94) (x94 0 0 0) (x94 2 4 6) (proj1 grid94) (Permutation_refl _) SZ) as (zr & ER & _).
  destruct (c95_additive w94 cc94 half94 (all_all w94) (x94 0 0 0) (x94 1 0 5) (proj1 grid94) (Permutation_refl _) SZ) as (zs & ES & _).
  exists part, zr, zs. repeat split; auto.
  pose proof (c95_symmetric w94 false _ part shape94 _ cc94 half94 (all_all w94) (x94 0 0 0) (x94 2 4 6)
    (fun d => if fst d =? 0 then 2%R else if fst d =? 1 then 4%R else 6%R) (x94 1 0 5)
    (fun d => if fst d =? 0 then 1%R else if fst d =? 1 then 0%R else 5%R) zr zs
    grid94 (Permutation_refl _) EP containers94 all94 (Permutation_refl _) SZ) as T. cbv zeta in T.
  destruct T as (T & _); eauto.
  - intros q i o O H. apply has94 in H. destruct O as ((O1 & O2 & O3) & O4). unfold cc94.
    intros X. apply andb_true_iff in X as (X1 & X2). apply Nat.eqb_eq in X1, X2. subst.
    specialize (O4 0 ltac:(cbn; lia)). rewrite X2 in *. cbn in O4. specialize (O4 (or_intror (or_introl eq_refl)) eq_refl). lia.
  - intros q i H _. split; [apply (consistent94 2 4 6 q i H)|apply (consistent94 1 0 5 q i H)].
  - intros q u Q Z i H CC. unfold half94. rewrite (tabulate_val w94 _ q i H), (Z i H CC). lra.
  - apply T. intros q u w Q _ _. apply rsum_ext. intros i I.
    assert (H : has_dof w94 q i) by now apply (containers94 q Q).
    unfold half94. rewrite !(tabulate_val w94 _ q i H). lra.
Qed.
