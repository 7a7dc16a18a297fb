(** Properties of the solvers that combine AMG with DG spaces (C134 - C136). *)
From Coq Require Import Reals Lra.
From Verif Require Import Common ParSpec AmgModel AmgSpec AmgProofs AmgProofs2 AmgProofs3.

(** C134: the coefficients that the prolongation gives a cell are the interpolation of the conforming function, for every
    component. *)
Theorem c134_interpolates {X} N (cells : list (pcell X)) :
  (forall c, In c cells -> cell_ok c) -> (forall c k, In c cells -> k < cg_local c -> cg_global c k < N) -> dg_numbering cells ->
  exists P, prolongation cells = Some P /\
    forall w c p u v j, In c cells -> leaf_at (cg_tree c) p = Some u -> leaf_at (dg_tree c) p = Some v -> j < dg_size v ->
      times P N w (dg_global c (dg_index v j)) = nth j (interpolate v (cg_value w c u)) 0%R.
Proof. exact (prolongation_interpolates N cells). Qed.
Print Assumptions c134_interpolates.

(** C134: if the DG interpolation reproduces the conforming shape functions, both coefficient vectors are the same
    function at every point of every cell. *)
Theorem c134_same_function {X} N (cells : list (pcell X)) :
  (forall c, In c cells -> cell_ok c) -> (forall c k, In c cells -> k < cg_local c -> cg_global c k < N) -> dg_numbering cells ->
  forall P c p u v (psi : nat -> X -> R), prolongation cells = Some P -> In c cells ->
    leaf_at (cg_tree c) p = Some u -> leaf_at (dg_tree c) p = Some v ->
    (forall s x, In s (shapes u) -> s x = rsum (fun j => nth j (interpolate v s) 0 * psi j x)%R (seq 0 (dg_size v))) ->
    forall w x, dg_value (times P N w) c v psi x = cg_value w c u x.
Proof. exact (prolongation_embeds N cells). Qed.
Print Assumptions c134_same_function.

(** Two cells of an interval, two components with linear functions. *)
Definition line_cg (t : nat) : cg_leaf R := {| shapes := [(fun x => 1 - x)%R; (fun x => x)]; cg_index := fun i => 2 * t + i |}.
Definition line_dg (t : nat) : dg_leaf R := {| dg_size := 2; interpolate := fun f => [f 0%R; f 1%R]; dg_index := fun j => t + 2 * j |}.
Definition line_cell (e : nat) : pcell R :=
  {| cg_tree := Node [Leaf (line_cg 0); Leaf (line_cg 1)]; dg_tree := Node [Leaf (line_dg 0); Leaf (line_dg 1)];
     cg_local := 4; dg_local := 4; cg_global := fun k => e + 3 * (k / 2) + k mod 2; dg_global := fun k => 4 * e + k |}.

Lemma line_leaf {L} (f : nat -> L) p l : leaf_at (Node [Leaf (f 0); Leaf (f 1)]) p = Some l -> (p = [0] /\ l = f 0) \/ (p = [1] /\ l = f 1).
Proof.
  destruct p as [|a p]; [discriminate|]. cbn. destruct a as [|[|a]]; cbn; [..|destruct a; discriminate];
    (destruct p; [|discriminate]); intros E; inversion E; auto.
Qed.

Example c134_cells :
  (forall c, In c [line_cell 0; line_cell 1] -> cell_ok c) /\
  (forall c k, In c [line_cell 0; line_cell 1] -> k < cg_local c -> cg_global c k < 6) /\ dg_numbering [line_cell 0; line_cell 1] /\
  (forall t s x, In s (shapes (line_cg t)) ->
    s x = rsum (fun j => nth j (interpolate (line_dg t) s) 0 * nth j [(fun x => 1 - x); (fun x => x)] (fun _ => 0) x)%R (seq 0 2)).
Proof.
  split; [|split; [|split]].
  - intros c H. assert (exists e, c = line_cell e) as [e ->] by (destruct H as [<-|[<-|[]]]; eauto).
    constructor; cbn [line_cell cg_tree dg_tree cg_local dg_local].
    + constructor. repeat constructor.
    + intros p u i E I. apply line_leaf in E as [[_ ->]|[_ ->]]; cbn in *; lia.
    + intros p u i i' E I I' Q. apply line_leaf in E as [[_ ->]|[_ ->]]; cbn in *; lia.
    + intros p v j E I. apply line_leaf in E as [[_ ->]|[_ ->]]; cbn in *; lia.
    + intros p p' v v' j j' E E' I I' Q. apply line_leaf in E as [[-> ->]|[-> ->]]; apply line_leaf in E' as [[-> ->]|[-> ->]]; cbn in *; split; try reflexivity; try lia; exfalso; lia.
    + intros p v E. assert (interpolate v = fun f => [f 0%R; f 1%R]) as -> by (apply line_leaf in E as [[_ ->]|[_ ->]]; reflexivity).
      split; [|split].
      * intros f g Q. now rewrite !Q.
      * intros [|[|[|j]]]; reflexivity.
      * intros a f g [|[|[|j]]]; cbn; lra.
  - intros c k H K. assert (exists e, e < 2 /\ c = line_cell e) as (e & He & ->) by (destruct H as [<-|[<-|[]]]; eauto).
    cbn in *. destruct k as [|[|[|[|k]]]]; cbn; lia.
  - intros a b c d r s Ha Hb Hr Hs Q.
    destruct a as [|[|a]]; cbn in Ha; [inversion Ha; subst|inversion Ha; subst|destruct a; discriminate];
    (destruct b as [|[|b]]; cbn in Hb; [inversion Hb; subst|inversion Hb; subst|destruct b; discriminate]); cbn in *; lia.
  - intros t s x [<-|[<-|[]]]; cbn; lra.
Qed.

(** C135: what is left of the error after one application is the error after n1 smoothing steps, the correction in the
    CG space and n2 smoothing steps. *)
Theorem c135_error {D E} (fine : list D) (coarse : list E) (h : hybrid D E) S C xs x b :
  acts_as fine (dgprec h) S -> acts_as coarse (cgprec h) C ->
  (forall i, In i fine -> b i = lin fine (dgmatrix h) (fun j => xs j - x j)%R i) ->
  forall i, In i fine ->
    (xs i - hybrid_apply fine coarse h x b i)%R =
    Nat.iter (Z.to_nat (n2 h)) (smoothing_error fine (dgmatrix h) S) (coarse_error fine coarse (dgmatrix h) (prol h) C
      (Nat.iter (Z.to_nat (n1 h)) (smoothing_error fine (dgmatrix h) S) (fun j => xs j - x j)%R)) i.
Proof. intros HS HC. exact (hybrid_error fine coarse h S C HS HC xs x b). Qed.
Print Assumptions c135_error.

(** C135: the correction does not depend on the vector it is added to. *)
Theorem c135_correction {D E} (fine : list D) (coarse : list E) (h : hybrid D E) x b i :
  hybrid_apply fine coarse h x b i = (x i + hybrid_apply fine coarse h (fun _ => 0) b i)%R.
Proof. exact (proj1 (keeps_cycle fine coarse h (n1 h) (n2 h) x b) i). Qed.
Print Assumptions c135_correction.

(** C135: symmetric, and positive semidefinite for convergent smoothers, if the parts are and n1 = n2: the preconditioner
    can be used with conjugate gradients. *)
Theorem c135_symmetric {D E} (fine : list D) (coarse : list E) (h : hybrid D E) S C :
  acts_as fine (dgprec h) S -> acts_as coarse (cgprec h) C -> n1 h = n2 h ->
  symmetric fine (dgmatrix h) -> symmetric fine S -> symmetric coarse C ->
  let B := hybrid_apply fine coarse h (fun _ => 0%R) in
  (forall a b, inner fine (B a) b = inner fine a (B b)) /\
  ((forall g, (0 <= inner coarse (lin coarse C g) g)%R) ->
   (forall a, (inner fine (lin fine (dgmatrix h) (lin fine S a)) (lin fine S a) <= 2 * inner fine (lin fine S a) a)%R) ->
   forall a, (0 <= inner fine (B a) a)%R).
Proof.
  intros HS HC N SA SS SC B.
  assert (Q : forall a i, B a i = corr fine coarse h (Z.to_nat (n1 h)) a i).
  { intros a i. unfold B. rewrite (hybrid_corr fine coarse h (n1 h) a eq_refl (eq_sym N)). lra. }
  split.
  - intros a b. rewrite (inner_ext fine (B a) b (corr fine coarse h (Z.to_nat (n1 h)) a) b) by auto.
    rewrite (inner_ext fine a (B b) a (corr fine coarse h (Z.to_nat (n1 h)) b)) by auto. eapply corr_symmetric; eauto.
  - intros PC PS a. rewrite (inner_ext fine (B a) a (corr fine coarse h (Z.to_nat (n1 h)) a) a) by auto.
    apply (corr_nonneg fine coarse h S C HS HC); auto.
Qed.
Print Assumptions c135_symmetric.

(** C135: with a smoother that does not increase the energy of errors and an exact solver in the CG space, applying the
    preconditioner never increases the energy. *)
Theorem c135_energy {D E} (fine : list D) (coarse : list E) (h : hybrid D E) S C xs x b :
  acts_as fine (dgprec h) S -> acts_as coarse (cgprec h) C ->
  symmetric fine (dgmatrix h) -> (forall v, (0 <= energy fine (dgmatrix h) v)%R) ->
  (forall e, (energy fine (dgmatrix h) (smoothing_error fine (dgmatrix h) S e) <= energy fine (dgmatrix h) e)%R) ->
  solves_cg fine coarse (dgmatrix h) (prol h) C ->
  (forall i, In i fine -> b i = lin fine (dgmatrix h) (fun j => xs j - x j)%R i) ->
  (energy fine (dgmatrix h) (fun i => xs i - hybrid_apply fine coarse h x b i)
   <= energy fine (dgmatrix h) (fun i => xs i - x i))%R.
Proof.
  intros HS HC SA PA SE CE Hb.
  rewrite (energy_ext fine h _ _ (hybrid_error fine coarse h S C HS HC xs x b Hb)).
  eapply Rle_trans; [apply (iter_energy fine h S); auto|].
  eapply Rle_trans; [apply (coarse_energy fine coarse h C); auto|]. apply (iter_energy fine h S); auto.
Qed.
Print Assumptions c135_energy.

(** C135: without post-smoothing the remaining defect is orthogonal to the CG space; without pre-smoothing errors in the
    CG space are removed. *)
Theorem c135_galerkin {D E} (fine : list D) (coarse : list E) (h : hybrid D E) S C x b :
  acts_as fine (dgprec h) S -> acts_as coarse (cgprec h) C ->
  ((n2 h <= 0)%Z -> solves_cg fine coarse (dgmatrix h) (prol h) C -> forall k, In k coarse ->
    lin fine (transposed (prol h)) (fun i => b i - lin fine (dgmatrix h) (fun j => hybrid_apply fine coarse h x b j - x j) i)%R k = 0%R) /\
  (forall w, (n1 h <= 0)%Z ->
    (forall k, In k coarse -> lin coarse C (galerkin_product fine coarse (dgmatrix h) (prol h) w) k = w k) ->
    (forall i, In i fine -> b i = lin fine (dgmatrix h) (lin coarse (prol h) w) i) ->
    forall i, In i fine -> hybrid_apply fine coarse h x b i = (x i + lin coarse (prol h) w i)%R).
Proof.
  intros HS HC. split.
  - intros N CE k Hk. set (A := dgmatrix h) in *. set (P := prol h) in *.
    destruct (keeps_smooth fine h (n1 h) x b) as (_ & _ & K3).
    unfold hybrid_apply. unfold smooth at 1. replace (Z.to_nat (n2 h)) with 0 by lia.
    change (Nat.iter 0 (smooth_step fine h) ?z) with z.
    pose proof (keeps_comp fine h _ _ (keeps_smooth fine h (n1 h)) (keeps_coarse fine coarse h) x b) as (L1 & L2 & L3).
    cbv beta in L1, L2, L3.
    rewrite (lin_ext fine _ _ (snd (coarse_step fine coarse h (smooth fine h (n1 h) (x, b))))).
    + destruct (smooth fine h (n1 h) (x, b)) as [x1 d1]. cbn [coarse_step snd]. fold P A.
      rewrite (lin_ext fine _ _ (fun i => d1 i - lin fine A (lin coarse P (lin coarse C (lin fine (transposed P) d1))) i)%R).
      * rewrite lin_minus. pose proof (CE (lin fine (transposed P) d1) k Hk) as G. unfold galerkin_product in G. lra.
      * intros i _. unfold A. rewrite mmv_lin. f_equal. apply lin_ext. intros j _. unfold P. rewrite mv_lin. apply lin_ext.
        intros k' Hk'. rewrite HC by auto. apply lin_ext. intros k2 _. apply mtv_lin.
    + intros i Hi. rewrite L3 by auto. f_equal. apply lin_ext. intros j _. rewrite L1. lra.
  - intros w N CW Hb i Hi. set (xs := fun i => (x i + lin coarse (prol h) w i)%R).
    assert (Hb' : forall i, In i fine -> b i = lin fine (dgmatrix h) (fun j => xs j - x j)%R i).
    { intros j Hj. rewrite Hb by auto. apply lin_ext. intros j' _. unfold xs. lra. }
    pose proof (hybrid_error fine coarse h S C HS HC xs x b Hb' i Hi) as Q.
    replace (Z.to_nat (n1 h)) with 0 in Q by lia.
    change (Nat.iter 0 (smoothing_error fine (dgmatrix h) S) ?z) with z in Q.
    assert (Z : forall n j, In j fine -> Nat.iter n (smoothing_error fine (dgmatrix h) S)
        (coarse_error fine coarse (dgmatrix h) (prol h) C (fun j => xs j - x j)%R) j = 0%R).
    { induction n as [|n IH]; intros j Hj.
      - change (coarse_error fine coarse (dgmatrix h) (prol h) C (fun j => xs j - x j)%R j = 0%R). unfold coarse_error.
        rewrite (lin_ext coarse (prol h) _ w).
        + unfold xs. lra.
        + intros k Hk. rewrite <- (CW k Hk) at 1. apply lin_ext. intros k' _. apply lin_ext. intros i' _. apply lin_ext. intros j' _. unfold xs. lra.
      - change (smoothing_error fine (dgmatrix h) S (Nat.iter n (smoothing_error fine (dgmatrix h) S)
          (coarse_error fine coarse (dgmatrix h) (prol h) C (fun j => xs j - x j)%R)) j = 0%R).
        unfold smoothing_error at 1. rewrite IH by auto. rewrite lin_zero; [lra|]. intros j' _. apply lin_zero. auto. }
    rewrite Z in Q by auto. unfold xs in Q. lra.
Qed.
Print Assumptions c135_galerkin.

(** C135: the matrix for which the AMG is set up is the Galerkin product of the DG matrix. *)
Theorem c135_cg_matrix {D E} (fine : list D) (coarse : list E) P A w k :
  lin coarse (triple_product fine P A) w k = galerkin_product fine coarse A P w k.
Proof. exact (triple_galerkin fine coarse P A w k). Qed.
Print Assumptions c135_cg_matrix.

(** Two DG unknowns over one CG unknown: the hypotheses of the theorems above. *)
Definition small_matrix (i j : nat) : R := if i =? j then 2%R else (-1)%R.
Definition small_hybrid : hybrid nat nat :=
  {| dgmatrix := small_matrix; dgprec := damped 1 (fun d i => d i / 2)%R; cgprec := fun v d k => (d k / 2)%R;
     prol := fun _ _ => 1%R; n1 := 2; n2 := 2 |}.
Definition half (i j : nat) : R := if i =? j then (1 / 2)%R else 0%R.

Definition fine2 : list nat := [0; 1].
Definition coarse1 : list nat := [0].

Example c135_small :
  acts_as fine2 (dgprec small_hybrid) half /\ acts_as coarse1 (cgprec small_hybrid) half /\
  symmetric fine2 (dgmatrix small_hybrid) /\ symmetric fine2 half /\ symmetric coarse1 half /\
  (forall v, (0 <= energy fine2 (dgmatrix small_hybrid) v)%R) /\
  (forall e, (energy fine2 (dgmatrix small_hybrid) (smoothing_error fine2 (dgmatrix small_hybrid) half e) <= energy fine2 (dgmatrix small_hybrid) e)%R) /\
  (forall a, (inner fine2 (lin fine2 (dgmatrix small_hybrid) (lin fine2 half a)) (lin fine2 half a) <= 2 * inner fine2 (lin fine2 half a) a)%R) /\
  (forall g, (0 <= inner coarse1 (lin coarse1 half g) g)%R) /\
  solves_cg fine2 coarse1 (dgmatrix small_hybrid) (prol small_hybrid) half.
Proof.
  assert (SM : symmetric fine2 small_matrix).
  { intros i j _ _. unfold small_matrix. now rewrite Nat.eqb_sym. }
  assert (SH : forall l, symmetric l half) by (intros l i j _ _; unfold half; now rewrite Nat.eqb_sym).
  split; [|split; [|split; [exact SM|split; [auto|split; [auto|split; [|split; [|split; [|split]]]]]]]].
  - intros d i [<-|[<-|[]]]; unfold lin, half; cbn; unfold damped; lra.
  - intros d i [<-|[]]; unfold lin, half; cbn; lra.
  - intros v. pose proof (Rle_0_sqr (v 0%nat - v 1%nat)%R). pose proof (Rle_0_sqr (v 0%nat)). pose proof (Rle_0_sqr (v 1%nat)). unfold Rsqr in *. unfold energy, inner, lin. cbn. nra.
  - intros e. pose proof (Rle_0_sqr (e 0%nat - e 1%nat)%R). pose proof (Rle_0_sqr (e 0%nat)). pose proof (Rle_0_sqr (e 1%nat)). unfold Rsqr in *. unfold smoothing_error, energy, inner, lin, half. cbn. nra.
  - intros a. pose proof (Rle_0_sqr (a 0%nat + a 1%nat)%R). pose proof (Rle_0_sqr (a 0%nat)). pose proof (Rle_0_sqr (a 1%nat)). unfold Rsqr in *. unfold inner, lin, half. cbn. nra.
  - intros g. unfold inner, lin, half. cbn. nra.
  - intros g k [<-|[]]. unfold galerkin_product, lin, half. cbn. lra.
Qed.

(** C135 fails for the relaxation factor of the smoother: it is kept in an integer, so every factor between 0 and 1 becomes
    0 and the smoothing does nothing, whatever the numbers of steps. *)
Theorem c135_relaxation_refuted {D E} (fine : list D) (coarse : list E) (f : dgvec D -> dgvec D) A P cg C (m1 m2 : Z) w x b i :
  acts_as coarse cg C -> (0 < w < 1)%R ->
  let relaxation := set_relaxation w in
  let h := {| dgmatrix := A; dgprec := damped (IZR relaxation) f; cgprec := cg; prol := P; n1 := m1; n2 := m2 |} in
  relaxation = 0%Z /\
  hybrid_apply fine coarse h x b i = (x i + lin coarse P (lin coarse C (lin fine (transposed P) b)) i)%R.
Proof.
  intros HC W r h. assert (R0 : r = 0%Z) by (apply truncate_fraction; lra). split; [exact R0|].
  apply (idle_hybrid fine coarse h C); auto. intros d j. unfold h. cbn [dgprec]. unfold damped. rewrite R0. lra.
Qed.
Print Assumptions c135_relaxation_refuted.

(** What holds: integers are kept. *)
Theorem c135_relaxation_integers z : set_relaxation (IZR z) = z.
Proof. apply truncate_integer. Qed.
Print Assumptions c135_relaxation_integers.

(** C136, ISTLBackend_SEQ_AMG_4_DG: in every program that solves with existing matrices only, every solve works, its
    system is the present matrix, and the hierarchy is that of the CG matrix at the last solve without reuse. *)
Theorem c136_dg {A} (galerkin : A -> A) r (l : list (event A)) m :
  legal (l ++ [Solve m]) ->
  exists h b out o, run (seq_dg_apply galerkin) r (l ++ [Solve m]) = Ok (h, b, out ++ [o]) /\ matrices l m = Some (system o) /\
    exists pre m0 a, setup_at r (l ++ [Solve m]) pre m0 /\ matrices pre m0 = Some a /\ finest o = galerkin a /\ made_for o = galerkin a.
Proof.
  intros L. apply legal_snoc in L as [L1 L2]. destruct (dg_run galerkin r l L1) as ([[h b] out] & E & I).
  destruct (dg_solve galerkin r h b out l m I (L2 m eq_refl)) as (b' & o & E' & I' & S1 & S2).
  exists h, b', out, o. rewrite (run_snoc r _ _ _ _ E). cbn [step]. rewrite E'. cbn [bind]. auto.
Qed.
Print Assumptions c136_dg.

(** C136, ISTLBackend_SEQ_AMG: the same for programs that always solve with the same matrix object. *)
Theorem c136_same_matrix {A} r (l : list (event A)) m :
  legal (l ++ [Solve m]) -> (forall k, In (Solve k) l -> k = m) ->
  exists h b out o, run seq_amg_apply r (l ++ [Solve m]) = Ok (h, b, out ++ [o]) /\
    matrices l m = Some (system o) /\ finest o = system o /\
    exists pre a, setup_at r (l ++ [Solve m]) pre m /\ matrices pre m = Some a /\ made_for o = a.
Proof.
  intros L K. apply legal_snoc in L as [L1 L2]. destruct (seq_run r m l L1 K) as ([[h b] out] & E & I).
  destruct (seq_solve r h b out l m I (L2 m eq_refl)) as (b' & o & E' & I' & S1 & S2 & S3).
  exists h, b', out, o. rewrite (run_snoc r _ _ _ _ E). cbn [step]. rewrite E'. cbn [bind]. auto.
Qed.
Print Assumptions c136_same_matrix.

(** C136, ISTLBackend_AMG: without reuse every solve works with the present matrix. *)
Theorem c136_parallel_without_reuse {A} r (l : list (event A)) m :
  legal (l ++ [Solve m]) -> (forall pre k post, l ++ [Solve m] = pre ++ Solve k :: post -> reusing r pre = false) ->
  exists h b out o, run (par_amg_apply (fun a => a)) r (l ++ [Solve m]) = Ok (h, b, out ++ [o]) /\
    matrices l m = Some (system o) /\ finest o = system o /\ made_for o = system o.
Proof.
  intros L K. apply legal_snoc in L as [L1 L2]. apply off_snoc in K as [K1 K2]. destruct (par_run r l L1 K1) as ([[h b] out] & E & I).
  destruct (par_solve r h b out l m I (L2 m eq_refl) (K2 m eq_refl)) as (h' & b' & o & E' & I' & S).
  exists h', b', out, o. rewrite (run_snoc r _ _ _ _ E). cbn [step]. rewrite E'. cbn [bind]. auto.
Qed.
Print Assumptions c136_parallel_without_reuse.

(** A program with two matrices, changes of values and of the flag. *)
Definition program136 : list (event R) := [Assign 0 1%R; Assign 1 2%R; Solve 0; SetReuse true; Assign 0 3%R; Solve 0; SetReuse false; Destroy 1].
Example c136_program : legal (program136 ++ [Solve 0]) /\ matrices program136 0 = Some 3%R /\ (forall k, In (Solve k) program136 -> k = 0).
Proof.
  split; [|split; [reflexivity|cbn; intuition congruence]].
  intros pre m post E. unfold program136 in E. cbn [app] in E.
  repeat (destruct pre as [|? pre]; [inversion E; subst; cbn; discriminate|inversion E as [[Q1 Q2]]; clear E; rename Q2 into E; subst]).
Qed.

(** C136 fails for the backends of parallel computations, with overlap, without and for DG: the hierarchy refers to local
    variables of the call that made it, so every solve that reuses it is undefined behaviour. *)
Theorem c136_parallel_reuse_refuted {A} (prepare galerkin cg_rows dg_rows : A -> A) r (l : list (event A)) m :
  solves l = true -> reusing r l = true ->
  run (par_amg_apply prepare) r (l ++ [Solve m]) = UB /\ run (ovlp_dg_apply galerkin cg_rows dg_rows) r (l ++ [Solve m]) = UB.
Proof. intros S R. split; apply stack_reuse; auto using par_on_stack, ovlp_dg_on_stack. Qed.
Print Assumptions c136_parallel_reuse_refuted.

(** C136 fails for ISTLBackend_SEQ_AMG if an identical matrix is stored in another object: the solver refers to the first
    object, which may be gone, or have other values. *)
Theorem c136_identical_matrix_refuted {A} (a b : A) :
  run seq_amg_apply true [Assign 0 a; Solve 0; Assign 1 a; Destroy 0; Solve 1] = UB /\
  exists h s out, run seq_amg_apply true [Assign 0 a; Solve 0; Assign 1 a; Assign 0 b; Solve 1] = Ok (h, s, out) /\
    h 1 = Some a /\ map system out = [a; b].
Proof. split; [reflexivity|]. eexists _, _, _. split; [reflexivity|]. split; reflexivity. Qed.
Print Assumptions c136_identical_matrix_refuted.

(** C136 fails for ISTLBackend_OVLP_AMG_4_DG and ISTLBackend_AMG_NOVLP if the same matrix is used for two solves: the first
    solve changes it. Overlapping: the trivial rows of the constrained degrees of freedom enter the CG matrix.
    Nonoverlapping: entries shared by two ranks (here one entry per rank) are added again. *)
Definition diagonal2 : nat -> nat -> R := fun i j => if i =? j then 2%R else 0%R.
Definition second_row : (nat -> nat -> R) -> nat -> nat -> R := fun a i j => if i =? 1 then (if j =? 1 then 1%R else 0%R) else a i j.
Theorem c136_second_solve_refuted :
  (exists h s o1 o2, run (ovlp_dg_apply (triple_product [0; 1] (fun _ _ => 1%R)) (fun a => a) second_row) false
       [Assign 0 diagonal2; Solve 0; Solve 0] = Ok (h, s, [o1; o2]) /\
     made_for o1 0 0 = 4%R /\ made_for o2 0 0 = 3%R) /\
  (exists h s o1 o2, run (par_amg_apply (fun v (_ : nat) => v 0%nat + v 1%nat%nat)%R) false [Assign 0 (fun _ => 1%R); Solve 0; Solve 0] = Ok (h, s, [o1; o2]) /\
     system o1 0 = 2%R /\ system o2 0 = 4%R).
Proof.
  split; eexists _, _, _, _.
  - split; [reflexivity|]. split; cbn; lra.
  - split; [reflexivity|]. split; cbn; lra.
Qed.
Print Assumptions c136_second_solve_refuted.
