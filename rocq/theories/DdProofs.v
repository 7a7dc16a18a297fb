(** Sums over ranks and DOFs, and the border sum. *)
From Coq Require Import Reals Lra.
From Verif Require Import Common CommonFacts ParModel ParSpec ParProofs ParProofs2 DdModel DdSpec.

Local Arguments rsum : simpl never.

Lemma rsum_scale {A} (c : R) (f : A -> R) l : rsum (fun x => c * f x)%R l = (c * rsum f l)%R.
Proof. induction l as [|x l IH]; [unfold rsum; cbn; lra|]. rewrite !rsum_cons, IH. lra. Qed.
Lemma rsum_nonneg {A} (f : A -> R) l : (forall x, In x l -> (0 <= f x)%R) -> (0 <= rsum f l)%R.
Proof.
  induction l as [|x l IH]; intros H; [unfold rsum; cbn; lra|]. rewrite rsum_cons.
  assert (0 <= f x)%R by (apply H; now left). assert (0 <= rsum f l)%R by (apply IH; intros; apply H; now right). lra.
Qed.
Lemma fold_rsum {A} (f : A -> R) l : forall a, fold_left (fun s x => s + f x)%R l a = (a + rsum f l)%R.
Proof. induction l as [|x l IH]; intros a; cbn [fold_left]; [unfold rsum; cbn; lra|]. rewrite IH, rsum_cons. lra. Qed.

Lemma ranks_perm P l l' : ranks_with P l -> ranks_with P l' -> Permutation l l'.
Proof. intros (N & H) (N' & H'). apply NoDup_Permutation; auto. intros s. now rewrite H, H'. Qed.

Definition activeb (W : world) (q : nat) (d : dof) : bool := has_dofb W q d && ib W q (fst d).
Lemma activeb_iff W q d : activeb W q d = true <-> active W q d.
Proof. unfold activeb, active. rewrite andb_true_iff, has_dofb_iff. tauto. Qed.

(** The ranks a Boolean predicate selects. *)
Definition ranks (W : world) (p : nat -> bool) : list nat := filter p (seq 0 (nranks W)).
Lemma ranks_spec W p P : (forall s, p s = true <-> P s) -> (forall s, P s -> s < nranks W) -> ranks_with P (ranks W p).
Proof.
  intros E L. split; [apply NoDup_filter, seq_NoDup|]. intros s. unfold ranks. rewrite filter_In, in_seq, E.
  split; [tauto|]. intros H. split; auto. specialize (L s H). lia.
Qed.
Definition actives (W : world) (d : dof) : list nat := ranks W (fun s => activeb W s d).
Lemma actives_spec W d : ranks_with (fun s => active W s d) (actives W d).
Proof. apply ranks_spec; [intros s; apply activeb_iff|]. intros s ((H & _) & _). exact H. Qed.
Definition holding (W : world) (d : dof) : list nat := ranks W (fun s => has_dofb W s d).
Lemma holding_spec W d : ranks_with (fun s => has_dof W s d) (holding W d).
Proof. apply ranks_spec; [intros s; apply has_dofb_iff|]. intros s (H & _). exact H. Qed.

Lemma tabulate_length W f e : length (tabulate W f e) = ndofs W e.
Proof. unfold tabulate. now rewrite map_length, seq_length. Qed.
Lemma tabulate_val W f q d : has_dof W q d -> val (tabulate W f) d = f d.
Proof.
  intros (_ & _ & K). unfold val, at_dof, tabulate. destruct d as (e & k). cbn in *.
  rewrite (nth_indep _ 0%R (f (e, 0))) by now rewrite map_length, seq_length.
  rewrite (map_nth (fun k => f (e, k)) _ 0), seq_nth by auto. reflexivity.
Qed.
Lemma tabulate_sized W f : sized W (fun q => tabulate W (f q)).
Proof. intros q e _ _. apply tabulate_length. Qed.

(** ** The border sum *)
Section border.
  Variables (W : world) (order : order_t).
  Hypothesis N : forall q, q < nranks W -> NoDup (held W q).

  Lemma small_world q d : ~ 1 < nranks W -> has_dof W q d -> q = 0 /\ nranks W = 1.
  Proof. intros S (H & _). lia. Qed.

  Lemma ib_sum y : Permutation order (interior_border_interior_border W) -> sized W y ->
    exists y', add_if_parallel W order y = Ok y' /\ sized W y' /\
      forall q d, active W q d -> val (y' q) d = rsum (fun s => val (y s) d) (actives W d).
  Proof.
    intros P SZ. unfold add_if_parallel. destruct (Nat.ltb_spec 1 (nranks W)) as [L|L].
    - destruct (add_spec W (ib W) (ib W) order N P y SZ) as (y' & E & S' & F). exists y'. repeat split; auto.
      intros q d ((Q & H & K) & I). unfold val, at_dof. destruct (F q (fst d) (snd d) Q H K) as (F1 & _).
      apply F1; auto. destruct (actives_spec W d) as (A1 & A2). split; auto.
      intros s. rewrite A2. unfold active, has_dof, contributes. split; [tauto|].
      intros (S1 & S2 & [->|S3]); auto.
    - exists y. repeat split; auto. intros q d A.
      assert (NB : ~ 1 < nranks W) by lia.
      destruct (small_world q d NB (proj1 A)) as (-> & N1).
      assert (PA : Permutation (actives W d) [0]).
      { apply (ranks_perm (fun s => active W s d)); [apply actives_spec|]. split; [repeat constructor; auto|].
        intros s. cbn. split; [intros [<-|[]]; auto|]. intros ((S & _) & _). left. lia. }
      rewrite (rsum_perm _ _ _ PA), rsum_cons. unfold rsum. cbn. lra.
  Qed.

  Lemma all_sum y : Permutation order (all_all W) -> sized W y ->
    exists y', add_if_parallel W order y = Ok y' /\ sized W y' /\
      forall q d, has_dof W q d -> val (y' q) d = rsum (fun s => val (y s) d) (holding W d).
  Proof.
    intros P SZ. unfold add_if_parallel. destruct (Nat.ltb_spec 1 (nranks W)) as [L|L].
    - destruct (add_spec W everywhere everywhere order N P y SZ) as (y' & E & S' & F). exists y'. repeat split; auto.
      intros q d (Q & H & K). unfold val, at_dof. destruct (F q (fst d) (snd d) Q H K) as (F1 & _).
      apply F1; auto. destruct (holding_spec W d) as (A1 & A2). split; auto.
      intros s. rewrite A2. unfold has_dof, contributes, everywhere. tauto.
    - exists y. repeat split; auto. intros q d A.
      assert (NB : ~ 1 < nranks W) by lia.
      destruct (small_world q d NB A) as (-> & N1).
      assert (PA : Permutation (holding W d) [0]).
      { apply (ranks_perm (fun s => has_dof W s d)); [apply holding_spec|]. split; [repeat constructor; auto|].
        intros s. cbn. split; [intros [<-|[]]; auto|]. intros (S & _). left. lia. }
      rewrite (rsum_perm _ _ _ PA), rsum_cons. unfold rsum. cbn. lra.
  Qed.

  Lemma ib_all_sum y : Permutation order (interior_border_all W) -> sized W y ->
    exists y', add_handle order y = Ok y' /\ sized W y' /\
      forall q d, has_dof W q d ->
        val (y' q) d = ((if ib W q (fst d) then 0 else val (y q) d) + rsum (fun s => val (y s) d) (actives W d))%R.
  Proof.
    intros P SZ. destruct (add_spec W (ib W) everywhere order N P y SZ) as (y' & E & S' & F). exists y'. repeat split; auto.
    intros q d (Q & H & K). unfold val, at_dof. destruct (F q (fst d) (snd d) Q H K) as (F1 & _).
    specialize (F1 eq_refl). destruct (actives_spec W d) as (A1 & A2). destruct (ib W q (fst d)) eqn:B.
    - rewrite (F1 (actives W d)); [unfold val, at_dof; lra|]. split; auto.
      intros s. rewrite A2. unfold active, has_dof, contributes. split; [tauto|].
      intros (S1 & S2 & [->|S3]); auto.
    - rewrite (F1 (q :: actives W d)); [now rewrite rsum_cons|]. split.
      + constructor; auto. rewrite A2. intros (_ & X). congruence.
      + intros s. cbn. rewrite A2. unfold active, has_dof, contributes. split.
        * intros [<-|X]; [auto|tauto].
        * intros (S1 & S2 & [->|S3]); auto.
  Qed.
End border.

Lemma additive_sum W x X q d : additive W x X -> active W q d -> X d = rsum (fun s => val (x s) d) (actives W d).
Proof.
  intros A H. apply A; [apply actives_spec|]. intros E. destruct (actives_spec W d) as (_ & F).
  apply F in H. rewrite E in H. destruct H.
Qed.

(** ** Sums over the columns of a rank *)
Section columns.
  Variables (W : world) (shape : nat -> blocks dof) (all : list dof).
  Hypothesis C : containers W shape.
  Hypothesis D : all_dofs W all.

  Lemma cols_all q (f : dof -> R) : q < nranks W ->
    rsum f (cols shape q) = rsum (fun j => if has_dofb W q j then f j else 0%R) all.
  Proof.
    intros Q. unfold cols. rewrite (rsum_perm f _ _ (arranges_filter W q _ all D (C q Q))). apply rsum_filter.
  Qed.

  Lemma row_sum A x q i : row_mv shape A q x i = rsum (fun j => A i j * val x j)%R (cols shape q).
  Proof. unfold row_mv. rewrite (fold_rsum (fun j => A i j * val x j)%R). lra. Qed.

  Lemma global_row A G x X i : matrix_additive W A G -> consistent W x X -> (exists q, active W q i) ->
    rsum (fun s => row_mv shape (A s) s (x s) i) (actives W i) = product G all X i.
  Proof.
    intros M CX EA. unfold product.
    transitivity (rsum (fun s => rsum (fun j => if has_dofb W s j then A s i j * X j else 0)%R all) (actives W i)).
    - apply rsum_ext. intros s S. rewrite row_sum. destruct (actives_spec W i) as (_ & F). apply F in S as ((S & _) & _).
      rewrite (cols_all s _ S). apply rsum_ext. intros j _. destruct (has_dofb W s j) eqn:B; auto.
      apply has_dofb_iff in B. now rewrite (CX s j B).
    - rewrite (rsum_swap (fun s j => if has_dofb W s j then A s i j * X j else 0)%R). apply rsum_ext. intros j _.
      rewrite (M i j (filter (fun s => has_dofb W s j) (actives W i)) EA).
      + rewrite Rmult_comm, <- rsum_scale, rsum_filter. apply rsum_ext. intros s _.
        destruct (has_dofb W s j); lra.
      + destruct (actives_spec W i) as (N1 & F). split; [now apply NoDup_filter|].
        intros s. rewrite filter_In, F, has_dofb_iff. tauto.
  Qed.
End columns.
