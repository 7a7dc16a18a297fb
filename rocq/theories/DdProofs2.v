(** Scalar products, preconditioners and overlapping operators. *)
From Coq Require Import Reals Lra.
From Verif Require Import Common CommonFacts ParModel ParSpec ParProofs ParProofs2 DdModel DdSpec DdProofs.

Local Arguments rsum : simpl never.

Lemma at_repeat_d (r n : nat) (d : dof) (v : nat -> list nat) : v (fst d) = repeat r n -> snd d < n -> at_dof 0 v d = r.
Proof.
  intros E K. unfold at_dof. rewrite E. destruct d as (e & k). cbn in *. clear E.
  revert k K. induction n as [|n IH]; intros [|k] K; cbn; try lia; auto. apply IH. lia.
Qed.

Lemma owner_part W only porder part q d r :
  grid_ok W only -> Permutation porder (ib_all_messages W only) -> rank_partition W porder = Ok part ->
  has_dof W q d -> smallest_ib W (fst d) r -> at_dof 0 (part q) d = r.
Proof.
  intros G P E (Q & H & K) R1. destruct (partition_spec W only porder G P) as (part' & E' & F).
  rewrite E in E'. injection E' as <-. destruct (F q (fst d) Q H) as (r' & R2 & V).
  rewrite (at_repeat_d r' (ndofs W (fst d)) d (part q) V K). eapply smallest_unique; eauto.
Qed.

(** Every DOF has an owner. *)
Lemma owner_exists W only q d : grid_ok W only -> has_dof W q d ->
  exists r, smallest_ib W (fst d) r /\ active W r d.
Proof.
  intros G (Q & H & K).
  destruct (partition_spec W only (ib_all_messages W only) G (Permutation_refl _)) as (part & E & F).
  destruct (F q (fst d) Q H) as (r & R1 & _). exists r. split; auto.
  destruct R1 as ((A & B & C) & _). split; auto. split; auto.
Qed.

Section dot.
  Variables (W : world) (only : bool) (porder : order_t) (part : dvec nat) (shape : nat -> blocks dof) (all : list dof).
  Hypothesis G : grid_ok W only.
  Hypothesis P : Permutation porder (ib_all_messages W only).
  Hypothesis E : rank_partition W porder = Ok part.
  Hypothesis C : containers W shape.
  Hypothesis D : all_dofs W all.

  (** The owner of a DOF, as a function. *)
  Definition owner (d : dof) : nat := match holding W d with q :: _ => at_dof 0 (part q) d | [] => 0 end.

  Lemma owner_spec d : In d all -> smallest_ib W (fst d) (owner d) /\ active W (owner d) d.
  Proof.
    intros I. apply D in I as (q & H). destruct (owner_exists W only q d G H) as (r & R1 & R2).
    unfold owner. destruct (holding_spec W d) as (_ & F). destruct (holding W d) as [|p l] eqn:L.
    - apply F in H. destruct H.
    - assert (HP : has_dof W p d) by (apply F; now left).
      now rewrite (owner_part W only porder part p d r G P E HP R1).
  Qed.

  Lemma dot_owner x y : par_dot W shape part x y = rsum (fun d => val (x (owner d)) d * val (y (owner d)) d)%R all.
  Proof.
    unfold par_dot, comm_sum. rewrite (fold_rsum (fun q => disjoint_dot q _ _ _)), Rplus_0_l.
    rewrite <- (sum_owned W only (fun q => at_dof 0 (part q)) (fun q => flatten (shape q)) all
                  (fun q d => val (x q) d * val (y q) d)%R G D C).
    - apply rsum_ext. intros q _. apply ddot_flat.
    - intros q d H. destruct (owner_exists W only q d G H) as (r & R1 & _).
      now rewrite (owner_part W only porder part q d r G P E H R1).
    - intros d I. now apply owner_spec.
  Qed.

  Lemma dot_ib x y X Y : consistent_ib W x X -> consistent_ib W y Y ->
    par_dot W shape part x y = rsum (fun d => X d * Y d)%R all.
  Proof.
    intros CX CY. rewrite dot_owner. apply rsum_ext. intros d I. destruct (owner_spec d I) as (_ & (A1 & A2)).
    now rewrite (CX _ d A1 A2), (CY _ d A1 A2).
  Qed.

  (** ** Additive Schwarz *)

  (** The sum of the local products of vectors. *)
  Definition local_dot (q : nat) (u w : lvec) : R := rsum (fun d => val u d * val w d)%R (cols shape q).

  Variables (cc : nat -> dof -> bool).

  Lemma schwarz_dot (z : dvec R) (b s : dvec R) (S : dof -> R) :
    (forall q d, has_dof W q d -> val (b q) d = rsum (fun p => val (z p) d) (holding W d)) ->
    (forall q d, has_dof W q d -> cc q d = true -> val (z q) d = 0%R) ->
    (forall q d, has_dof W q d -> cc q d = false -> val (s q) d = S d) ->
    (forall q d r, smallest_ib W (fst d) r -> has_dof W q d -> cc r d = true -> cc q d = true) ->
    par_dot W shape part b s = rsum (fun q => local_dot q (z q) (set_constrained W cc s q)) (seq 0 (nranks W)).
  Proof.
    intros B Z CS O. rewrite dot_owner.
    transitivity (rsum (fun d => rsum (fun q => if has_dofb W q d then val (z q) d * val (set_constrained W cc s q) d else 0)%R
                                      (seq 0 (nranks W))) all).
    - apply rsum_ext. intros d I. destruct (owner_spec d I) as (O1 & (O2 & O3)).
      rewrite (B _ d O2), Rmult_comm, <- rsum_scale. unfold holding, ranks. rewrite rsum_filter.
      apply rsum_ext. intros q _. destruct (has_dofb W q d) eqn:H; auto. apply has_dofb_iff in H.
      unfold set_constrained. rewrite (tabulate_val W _ q d H). destruct (cc q d) eqn:CQ.
      + rewrite (Z q d H CQ). lra.
      + rewrite (CS q d H CQ). destruct (cc (owner d) d) eqn:CO.
        * rewrite (O q d (owner d) O1 H CO) in CQ. discriminate.
        * rewrite (CS _ d O2 CO). lra.
    - rewrite (rsum_swap (fun d q => if has_dofb W q d then val (z q) d * val (set_constrained W cc s q) d else 0)%R).
      apply rsum_ext. intros q Q. apply in_seq in Q. unfold local_dot.
      rewrite (cols_all W shape all C D q); [reflexivity|lia].
  Qed.
End dot.

(** ** The operator of overlapping decompositions *)

Lemma full_row_product W shape all A G x X q i :
  containers W shape -> all_dofs W all -> q < nranks W -> consistent W x X -> full_row W A G q i ->
  row_mv shape (A q) q (x q) i = product G all X i.
Proof.
  intros C D Q CX (F1 & F2). rewrite row_sum, (cols_all W shape all C D q _ Q). unfold product.
  apply rsum_ext. intros j I. destruct (has_dofb W q j) eqn:B.
  - apply has_dofb_iff in B. now rewrite F1, (CX q j B).
  - rewrite F2; [lra| |]; [now apply D|]. intros H. apply has_dofb_iff in H. congruence.
Qed.

Lemma usmv_row W shape alpha A x y q i : has_dof W q i ->
  val (usmv W shape alpha A x y q) i = (val (y q) i + alpha * row_mv shape (A q) q (x q) i)%R.
Proof.
  intros H. unfold usmv. rewrite (tabulate_val W _ q i H).
  rewrite (fold_rsum (fun j => alpha * A q i j * val (x q) j)%R), row_sum, <- rsum_scale.
  f_equal. apply rsum_ext. intros j _. lra.
Qed.

(** ** The diagonal solver *)
Lemma seq_jac_diagonal W shape A z r q i : containers W shape -> diagonal W A -> has_dof W q i ->
  val (seq_jac W shape A z r q) i = (val (r q) i / A q i i)%R.
Proof.
  intros C (D1 & D2) H. unfold seq_jac. rewrite (tabulate_val W _ q i H), row_sum.
  assert (V : rsum (fun j => A q i j * val (z q) j)%R (cols shape q) = (A q i i * val (z q) i)%R).
  { destruct H as (Q & H). destruct (C q Q) as (ND & M). unfold cols.
    assert (I : In i (flatten (shape q))) by (apply M; split; auto).
    assert (Z : forall j, In j (flatten (shape q)) -> j <> i -> (A q i j * val (z q) j = 0)%R).
    { intros j J N. rewrite (D2 q i j); [lra|split; auto|now apply M|auto]. }
    clear C. revert ND I Z. generalize (flatten (shape q)). clear M. intros l ND.
    induction ND as [|j l NI ND IH]; intros I Z; [destruct I|]. rewrite rsum_cons. destruct I as [->|I].
    - rewrite rsum_zero; [lra|]. intros j J. apply Z; [now right|]. intros ->. contradiction.
    - rewrite IH; auto; [|intros; apply Z; [now right|auto]].
      rewrite (Z j); [lra|now left|]. intros ->. contradiction. }
  rewrite V. field. now apply D1.
Qed.
