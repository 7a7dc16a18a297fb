(** The parallel hybrid preconditioner refines the sequential one (C137). *)
From Coq Require Import Reals Lra ZArith.
From Verif Require Import Common CommonFacts ParModel ParSpec ParProofs ParProofs2 ParProofs3 DdModel DdSpec DdProofs DdProofs2
  AmgModel AmgSpec AmgProofs2 AmgParModel AmgParSpec.
Local Arguments rsum : simpl never.

Section refinement.
  Variables (W Wc : world) (only onlyc : bool) (shape shapec : nat -> blocks dof) (all allc : list dof).
  Hypothesis GW : grid_ok W only.
  Hypothesis GC : grid_ok Wc onlyc.
  Hypothesis RK : nranks W = nranks Wc.
  Hypothesis CW : containers W shape.
  Hypothesis CC : containers Wc shapec.
  Hypothesis DW : all_dofs W all.
  Hypothesis DC : all_dofs Wc allc.
  Variable p : ovlp_prec.
  Variables (porder o1 o2 o3 : order_t) (max_index : nat).
  Hypothesis PO : Permutation porder (ib_all_messages W only).
  Hypothesis EP : rank_partition W porder = Ok (dg_part p).
  Hypothesis MX : forall l, NoDup l -> (forall x, In x l -> is_shared Wc x) -> length l <= max_index.
  Hypothesis P1 : Permutation o1 (ib_all_messages Wc onlyc).
  Hypothesis P2 : Permutation o2 (all_all_messages Wc onlyc).
  Hypothesis P3 : Permutation o3 (ib_all_messages Wc onlyc).
  Hypothesis ES : amg_index_sets Wc (fun q => flatten (shapec q)) max_index o1 o2 o3 = Ok (cg_sets p).
  Variables (owner : dof -> nat) (G PG : dof -> dof -> R) (C : (dof -> R) -> (dof -> R)) (fixed : dof -> bool).
  Hypothesis OW : forall d, In d all -> smallest_ib W (fst d) (owner d).
  Hypothesis FC : foreign_constrained W (dg_cc p).
  Hypothesis OR : own_rows W (dg_matrix p) G.
  Hypothesis CO : cells_complete W Wc (transfer p) PG.
  Hypothesis LS : local_smoother W (dg_smoother p).
  Hypothesis CA : collective Wc (cg_amg p) C.
  Hypothesis CX : forall q k, has_dof Wc q k -> smallest_ib Wc (fst k) q -> cg_cc p q k = fixed k.

  Definition hs : hybrid dof dof := sequential W owner G PG (dg_smoother p) C fixed (steps1 p) (steps2 p).

  Lemma own q i : has_dof W q i -> (smallest_ib W (fst i) q <-> owner i = q).
  Proof.
    intros H. assert (I : In i all) by (apply DW; eauto). pose proof (OW i I) as O. split; [|now intros <-].
    intros S. eapply smallest_unique; eauto.
  Qed.

  Lemma owner_has i : In i all -> has_dof W (owner i) i.
  Proof.
    intros I. pose proof (OW i I) as ((A & B & _) & _). apply DW in I as (q & _ & _ & K). split; auto.
  Qed.

  Definition defect (d : dvec R) (D : dof -> R) : Prop :=
    forall q i, has_dof W q i -> val (d q) i = if owner i =? q then D i else 0%R.

  Lemma constrained_defect d D : (forall q i, has_dof W q i -> smallest_ib W (fst i) q -> val (d q) i = D i) ->
    defect (set_constrained W (dg_cc p) d) D.
  Proof.
    intros E q i H. unfold set_constrained. rewrite (tabulate_val W _ q i H).
    destruct (Nat.eqb_spec (owner i) q) as [Q|Q].
    - apply own in Q; auto. rewrite (proj2 (FC q i H) Q). auto.
    - destruct (dg_cc p q i) eqn:B; auto. apply (FC q i H) in B. apply own in B; auto. contradiction.
  Qed.

  Lemma new_defect d D v V : defect d D -> consistent W v V ->
    defect (set_constrained W (dg_cc p) (usmv W shape (-1) (dg_matrix p) v d)) (mmv all G V D).
  Proof.
    intros HD HV. apply constrained_defect. intros q i H S. rewrite usmv_row by auto.
    rewrite (full_row_product W shape all (dg_matrix p) G v V q i); auto; [|apply H].
    rewrite (HD q i H). apply own in S; auto. rewrite S, Nat.eqb_refl. rewrite (mmv_lin all hs). unfold product, lin. cbn [hs sequential dgmatrix]. lra.
  Qed.

  Lemma add_consistent x X v V : consistent W x X -> consistent W v V -> consistent W (plus W x v) (add X V).
  Proof. intros A B q i H. unfold plus, add. rewrite (tabulate_val W _ q i H). now rewrite (A q i H), (B q i H). Qed.

  Lemma smooth_refines x X d D order : Permutation order (all_all W) -> consistent W x X -> defect d D ->
    exists x' d', par_smooth W shape p (x, d) order = Ok (x', d') /\
      consistent W x' (fst (smooth_step all hs (X, D))) /\ defect d' (snd (smooth_step all hs (X, D))).
  Proof.
    intros PA HX HD. destruct LS as [L1 L2].
    destruct (all_sum W order (proj1 GW) (fun q => dg_smoother p q (zeros W q) (d q)) PA) as (v & E & _ & F).
    { intros q e Q I. apply L1; auto. }
    assert (HV : consistent W v (dgprec hs (fun _ => 0%R) D)).
    { intros q i H. rewrite (F q i H). unfold holding, ranks. rewrite rsum_filter. cbn [hs sequential dgprec]. unfold additive_smoother.
      apply rsum_ext. intros s Hs. apply in_seq in Hs.
      assert (B : has_dofb W s i = existsb (Nat.eqb (fst i)) (held W s)).
      { apply eq_true_iff_eq. rewrite has_dofb_iff, existsb_exists. destruct H as (_ & _ & K). split.
        - intros (_ & I & _). exists (fst i). split; auto. apply Nat.eqb_refl.
        - intros (e & I & Q). apply Nat.eqb_eq in Q. subst. repeat split; auto. lia. }
      rewrite B. destruct (existsb (Nat.eqb (fst i)) (held W s)); auto. apply has_dofb_iff in B; auto.
      apply L2; auto. intros y Hy. rewrite (HD s y Hy). unfold part_of. now rewrite (tabulate_val W _ s y Hy). }
    unfold par_smooth. rewrite E. cbn [bind]. eexists _, _. split; [reflexivity|]. cbn [smooth_step fst snd]. split.
    - now apply add_consistent.
    - apply new_defect; auto.
  Qed.

  Lemma masked_defect d D : defect d D -> defect (mask_foreign_dofs W (dg_part p) d) D.
  Proof.
    intros HD q i H. unfold mask_foreign_dofs. rewrite (tabulate_val W _ q i H).
    assert (I : In i all) by (apply DW; eauto).
    rewrite (owner_part W only porder (dg_part p) q i (owner i)); auto. rewrite (HD q i H). now destruct (owner i =? q).
  Qed.

  Lemma restricted d D order : defect d D -> Permutation order (all_all Wc) ->
    exists c, add_if_parallel Wc order (restrict Wc shape p d) = Ok c /\ consistent Wc c (mtv all PG D).
  Proof.
    intros HD PA.
    destruct (all_sum Wc order (proj1 GC) (restrict Wc shape p d) PA) as (c & E & _ & F).
    { intros q e Q I. apply tabulate_length. }
    exists c. split; auto. intros q k H. rewrite (F q k H). rewrite (mtv_lin all hs). cbn [hs sequential prol]. unfold holding, ranks. rewrite rsum_filter.
    assert (KE : exists s, has_dof Wc s k) by eauto.
    transitivity (rsum (fun s => rsum (fun i => if owner i =? s then PG i k * D i else 0)%R all) (seq 0 (nranks Wc))).
    - apply rsum_ext. intros s Hs. apply in_seq in Hs.
      assert (LHS : forall (g : dof -> R), (forall i, has_dof W s i -> g i = if owner i =? s then (PG i k * D i)%R else 0%R) ->
         rsum g (cols shape s) = rsum (fun i => if owner i =? s then PG i k * D i else 0)%R all).
      { intros g Hg. rewrite (cols_all W shape all CW DW s _) by lia. apply rsum_ext. intros i I.
        destruct (has_dofb W s i) eqn:B.
        - apply has_dofb_iff in B. auto.
        - destruct (Nat.eqb_spec (owner i) s) as [Q|Q]; auto. subst s. pose proof (owner_has i I) as Hi. apply has_dofb_iff in Hi. congruence. }
      destruct (has_dofb Wc s k) eqn:B.
      + apply has_dofb_iff in B. unfold restrict. rewrite (tabulate_val Wc _ s k B).
        rewrite (fold_rsum (fun i => transfer p s i k * val (d s) i)%R), Rplus_0_l. apply LHS. intros i Hi.
        rewrite (HD s i Hi). rewrite (proj1 CO s i k Hi B). destruct (owner i =? s); lra.
      + rewrite <- (LHS (fun _ => 0%R)); [symmetry; apply rsum_zero; auto|]. intros i Hi. destruct (owner i =? s); auto.
        rewrite (proj2 CO s i k Hi KE); [lra|]. intros X. apply has_dofb_iff in X. congruence.
    - rewrite rsum_swap. unfold lin, transposed. apply rsum_ext. intros i I.
      rewrite (rsum_one _ (owner i)).
      + now rewrite Nat.eqb_refl.
      + apply seq_NoDup.
      + apply in_seq. destruct (owner_has i I) as (Q & _). lia.
      + intros s _ N. destruct (Nat.eqb_spec (owner i) s); auto. congruence.
  Qed.

  Lemma copies q k : has_dof Wc q k -> (is_copy shapec p q k = true <-> ~ smallest_ib Wc (fst k) q).
  Proof.
    intros H. pose proof H as (Q & _). destruct (CC q Q) as (ND & AR).
    destruct (amg_spec Wc onlyc (fun q => flatten (shapec q)) max_index o1 o2 o3 GC CC MX P1 P2 P3) as (sets' & L & E' & NL & INL & _ & S).
    rewrite ES in E'. injection E' as <-. unfold is_copy. rewrite existsb_exists. split.
    - intros ([[g i] b] & I & T). cbn [fst snd] in T. apply S in I; auto. destruct I as (x & N1 & N2 & B).
      unfold cols in T. rewrite N1 in T. apply andb_true_iff in T as [T T3]. apply andb_true_iff in T as [T1 T2].
      apply Nat.eqb_eq in T1, T2. assert (x = k) as -> by (destruct x, k; cbn in *; congruence).
      destruct b; [discriminate|]. intros X. apply B in X. discriminate.
    - intros N. destruct (owner_exists Wc onlyc q k GC H) as (r & R1 & (R2 & _)).
      assert (SH : is_shared Wc k). { exists q, r. repeat split; auto; try apply H; try apply R2. intros ->. auto. }
      apply INL in SH. apply In_nth_error in SH as (g & Hg). assert (IK : In k (flatten (shapec q))) by now apply AR.
      apply In_nth_error in IK as (i & Hi). exists (g, i, false). split.
      + apply S; auto. exists k. split; [exact Hi|split; [exact Hg|]]. split; [discriminate|intros X; contradiction].
      + cbn [fst snd]. unfold cols. rewrite Hi, !Nat.eqb_refl. reflexivity.
  Qed.

  Lemma coarse_refines x X d D order : Permutation order (all_all Wc) -> consistent W x X -> defect d D ->
    exists x' d', par_coarse W Wc shape shapec p (x, d) order = Ok (x', d') /\
      consistent W x' (fst (coarse_step all allc hs (X, D))) /\ defect d' (snd (coarse_step all allc hs (X, D))).
  Proof.
    intros PA HX HD. apply masked_defect in HD. unfold par_coarse.
    destruct (restricted _ D order HD PA) as (c & E & F). rewrite E. cbn [bind].
    set (cgd := project Wc shapec p (set_constrained Wc (cg_cc p) c)).
    assert (HV : consistent Wc (cg_amg p (zeros Wc) cgd) (cgprec hs (fun _ => 0%R) (mtv all PG D))).
    { cbn [hs sequential cgprec]. apply CA.
      - intros q k H S. unfold cgd, project. rewrite (tabulate_val Wc _ q k H).
        destruct (is_copy shapec p q k) eqn:B; [apply copies in B; auto; contradiction|].
        unfold set_constrained. rewrite (tabulate_val Wc _ q k H), (CX q k H S), (F q k H). reflexivity.
      - intros q k H S. unfold cgd, project. rewrite (tabulate_val Wc _ q k H). apply copies in S; auto. now rewrite S. }
    assert (HP : consistent W (prolongate W shapec p (cg_amg p (zeros Wc) cgd)) (mv allc PG (cgprec hs (fun _ => 0%R) (mtv all PG D)))).
    { intros q i H. unfold prolongate. rewrite (tabulate_val W _ q i H), (fold_rsum (fun k => transfer p q i k * _)%R), Rplus_0_l.
      rewrite (mv_lin allc hs). cbn [hs sequential prol]. unfold lin. rewrite (cols_all Wc shapec allc CC DC q) by (destruct H; lia). apply rsum_ext. intros k I.
      destruct (has_dofb Wc q k) eqn:B.
      - apply has_dofb_iff in B. now rewrite (proj1 CO q i k H B), (HV q k B).
      - rewrite (proj2 CO q i k H); [lra|now apply DC|]. intros X'. apply has_dofb_iff in X'. congruence. }
    eexists _, _. split; [reflexivity|]. cbn [coarse_step fst snd]. split.
    - now apply add_consistent.
    - apply new_defect; auto.
  Qed.

  Lemma smoothing_refines order n x X d D : (forall i, Permutation (order i) (all_all W)) -> consistent W x X -> defect d D ->
    exists x' d', foldM (fun xd i => par_smooth W shape p xd (order i)) (seq 0 n) (x, d) = Ok (x', d') /\
      consistent W x' (fst (Nat.iter n (smooth_step all hs) (X, D))) /\ defect d' (snd (Nat.iter n (smooth_step all hs) (X, D))).
  Proof.
    intros PA HX HD.
    destruct (foldM_inv (fun xd i => par_smooth W shape p xd (order i))
      (fun pre xd => consistent W (fst xd) (fst (Nat.iter (length pre) (smooth_step all hs) (X, D))) /\
                     defect (snd xd) (snd (Nat.iter (length pre) (smooth_step all hs) (X, D)))) (seq 0 n) (x, d)) as ([x' d'] & E & I).
    - split; auto.
    - intros pre i [x1 d1] [I1 I2] _. cbn [fst snd] in I1, I2. rewrite app_length. cbn [length].
      replace (length pre + 1) with (S (length pre)) by lia.
      change (Nat.iter (S (length pre)) (smooth_step all hs) (X, D)) with (smooth_step all hs (Nat.iter (length pre) (smooth_step all hs) (X, D))).
      destruct (Nat.iter (length pre) (smooth_step all hs) (X, D)) as [X1 D1]. cbn [fst snd] in I1, I2.
      destruct (smooth_refines x1 X1 d1 D1 (order i) (PA i) I1 I2) as (x2 & d2 & E & J1 & J2). exists (x2, d2). auto.
    - rewrite seq_length in I. eauto.
  Qed.

  Theorem par_hybrid_refines pre post middle x b X B :
    (forall i, Permutation (pre i) (all_all W)) -> (forall i, Permutation (post i) (all_all W)) -> Permutation middle (all_all Wc) ->
    consistent W x X -> (forall q d, has_dof W q d -> smallest_ib W (fst d) q -> val (b q) d = B d) ->
    exists x', par_hybrid W Wc shape shapec p pre post middle x b = Ok x' /\ consistent W x' (hybrid_apply all allc hs X B).
  Proof.
    intros PA PB PM HX HB. unfold par_hybrid, hybrid_apply, smooth.
    destruct (smoothing_refines pre (Z.to_nat (steps1 p)) x X _ B PA HX (constrained_defect b B HB)) as (x1 & d1 & E1 & I1 & J1).
    rewrite E1. cbn [bind]. change (n1 hs) with (steps1 p). change (n2 hs) with (steps2 p).
    destruct (coarse_refines x1 _ d1 _ middle PM I1 J1) as (x2 & d2 & E2 & I2 & J2). rewrite <- surjective_pairing in I2, J2. rewrite E2. cbn [bind].
    destruct (smoothing_refines post (Z.to_nat (steps2 p)) x2 _ d2 _ PB I2 J2) as (x3 & d3 & E3 & I3 & _). rewrite <- surjective_pairing in I3. rewrite E3. cbn [bind].
    exists x3. split; [reflexivity|exact I3].
  Qed.
End refinement.
