(** The two-level preconditioner (C73) and the local basis (C74). *)
From Coq Require Import Reals Lra.
From Verif Require Import Common CommonFacts ParModel ParSpec ParProofs ParProofs2 GeneoModel GeneoSpec GeneoProofs GeneoProofs2 GeneoProofs3.

Lemma rsum_flat_map {A B} (f : B -> R) (g : A -> list B) l : rsum f (flat_map g l) = rsum (fun x => rsum f (g x)) l.
Proof. induction l as [|x l IH]; cbn [flat_map]; auto. rewrite rsum_app, IH. reflexivity. Qed.
Lemma rsum_map {A B} (f : B -> R) (g : A -> B) l : rsum f (map g l) = rsum (fun x => f (g x)) l.
Proof. induction l as [|x l IH]; cbn [map]; auto. rewrite !rsum_cons, IH. reflexivity. Qed.
Lemma rsum_scale_r {A} (c : R) (f : A -> R) l : rsum (fun x => f x * c)%R l = (rsum f l * c)%R.
Proof. rewrite Rmult_comm, <- rsum_scale. apply rsum_ext. intros; lra. Qed.
Lemma rsum_single {A} (f : A -> R) l x : NoDup l -> In x l -> (forall y, In y l -> y <> x -> f y = 0%R) -> rsum f l = f x.
Proof.
  induction l as [|z l IH]; intros ND I H; [destruct I|]. inversion ND as [|? ? N1 N2]; subst. rewrite rsum_cons.
  destruct I as [->|I].
  - rewrite rsum_zero; [lra|]. intros y Y. apply H; [now right|]. intros ->. contradiction.
  - rewrite H by ((now left) || (intros ->; contradiction)). rewrite IH; auto; [lra|]. intros y Y. apply H. now right.
Qed.

Lemma form_sym all A u v : symmetric all A -> form all A u v = form all A v u.
Proof.
  intros S. unfold form. rewrite rsum_swap. apply rsum_ext. intros x X. apply rsum_ext. intros y Y. rewrite (S y x) by auto. lra.
Qed.
(** The form of two combinations. *)
Lemma form_combine {I} (l : list I) (a b : I -> R) (F : I -> dof -> R) all A :
  form all A (fun x => rsum (fun i => a i * F i x)%R l) (fun y => rsum (fun j => b j * F j y)%R l) =
  rsum (fun i => a i * rsum (fun j => form all A (F i) (F j) * b j)%R l)%R l.
Proof.
  assert (L1 : forall v, form all A (fun x => rsum (fun i => a i * F i x)%R l) v = rsum (fun i => a i * form all A (F i) v)%R l).
  { intros v. unfold form.
    transitivity (rsum (fun x => rsum (fun i => rsum (fun y => a i * F i x * A x y * v y)%R all) l) all).
    - apply rsum_ext. intros x _. rewrite rsum_swap. apply rsum_ext. intros y _.
      rewrite <- rsum_scale_r, <- rsum_scale_r. reflexivity.
    - rewrite rsum_swap. apply rsum_ext. intros i _. rewrite <- rsum_scale. apply rsum_ext. intros x _.
      rewrite <- rsum_scale. apply rsum_ext. intros y _. lra. }
  assert (L2 : forall u, form all A u (fun y => rsum (fun j => b j * F j y)%R l) = rsum (fun j => form all A u (F j) * b j)%R l).
  { intros u. unfold form.
    transitivity (rsum (fun x => rsum (fun j => rsum (fun y => u x * A x y * (b j * F j y))%R all) l) all).
    - apply rsum_ext. intros x _. rewrite rsum_swap. apply rsum_ext. intros y _. rewrite <- rsum_scale. reflexivity.
    - rewrite rsum_swap. apply rsum_ext. intros j _. rewrite <- rsum_scale_r. apply rsum_ext. intros x _.
      rewrite <- rsum_scale_r. apply rsum_ext. intros y _. lra. }
  rewrite L1. apply rsum_ext. intros i _. f_equal. apply L2.
Qed.

(** All basis vectors. *)
Definition indices (W : world) (size : nat -> nat) : list (nat * nat) :=
  flat_map (fun q => map (pair q) (seq 0 (size q))) (seq 0 (nranks W)).
Lemma in_indices W size q i : In (q, i) (indices W size) <-> q < nranks W /\ i < size q.
Proof.
  unfold indices. rewrite in_flat_map. split.
  - intros (q' & Q & I). apply in_map_iff in I as (i' & E & I). injection E as -> ->. apply in_seq in Q. apply in_seq in I. lia.
  - intros (Q & I). exists q. rewrite in_seq. split; [lia|]. apply in_map_iff. exists i. rewrite in_seq. split; auto. lia.
Qed.
Lemma rsum_indices W size (f : nat -> R) :
  rsum f (seq 0 (global_size W size)) = rsum (fun '(q, i) => f (offset size q + i)%nat) (indices W size).
Proof.
  rewrite global_size_offset. unfold indices. generalize (nranks W). induction n as [|n IH]; auto.
  rewrite seq_S, flat_map_app, rsum_app, <- IH, offset_S, seq_app, rsum_app. f_equal. cbn [flat_map plus]. rewrite app_nil_r, rsum_map.
  assert (H : forall m a, rsum f (seq a m) = rsum (fun i => f (a + i)%nat) (seq 0 m)).
  { induction m as [|m IHm]; intros a; auto. cbn [seq]. rewrite !rsum_cons, IHm, <- seq_shift, rsum_map. f_equal; [f_equal; lia|].
    apply rsum_ext. intros i _. f_equal. lia. }
  apply H.
Qed.

Section schwarz.
  Variables (W : world) (size : nat -> nat) (phi : nat -> nat -> nat -> list R).
  Variables (order : list (nat * nat * nat)) (local_solve : nat -> (nat -> list R) -> (nat -> list R)) (coarse_solve : list R -> list R).
  Variables (Al : nat -> dof -> dof -> R).
  Hypothesis N : forall q, q < nranks W -> NoDup (held W q).
  Hypothesis BS : basis_sized W size phi.
  Hypothesis P : Permutation order (all_all W).
  Hypothesis LS : solves_locally W Al (dofs_of W) local_solve.

  (** What rank [s] adds to DOF [x]. *)
  Definition part (active : bool) (d : dvec R) (s : nat) (x : dof) : R :=
    (at_dof 0 (local_solve s (d s)) x +
     if active then rsum (fun i => nth (offset size s + i)%nat (coarse_solve (restrict W size phi d)) 0 * at_dof 0 (phi s i) x) (seq 0 (size s)) else 0)%R.

  Lemma apply_ok active d : exists v, schwarz_apply W size phi local_solve coarse_solve active order d = Ok v /\ sized W v /\
    forall q e k l, q < nranks W -> In e (held W q) -> k < ndofs W e -> holders W e l ->
      nth k (v q e) 0%R = rsum (fun s => part active d s (e, k)) l.
  Proof.
    unfold schwarz_apply, part. destruct active; cbn [negb].
    - set (c := coarse_solve _).
      set (z := fun q e => zip Rplus (local_solve q (d q) e) (prolongate W size phi c q e)).
      assert (ZL : forall q e, q < nranks W -> In e (held W q) -> length (local_solve q (d q) e) = ndofs W e /\ length (prolongate W size phi c q e) = ndofs W e).
      { intros q e Q E. split; [now apply LS|now apply prolongate_ok]. }
      assert (SZ : sized W z).
      { intros q e Q E. destruct (ZL q e Q E). unfold z. rewrite zip_length; lia. }
      destruct (add_spec W everywhere everywhere order N P z SZ) as (v & E & SV & F).
      exists v. split; auto. split; auto. intros q e k l Q HE K H. destruct (F q e k Q HE K) as (F1 & _).
      rewrite (F1 eq_refl l (holders_contributors W q e l Q HE H)). apply rsum_ext. intros s S1.
      apply (proj2 H) in S1. destruct S1 as (S1 & S2). destruct (ZL s e S1 S2) as (Z1 & Z2). unfold z.
      rewrite (zip_nth Rplus _ 0%R 0%R) by lia. f_equal.
      change (nth k (prolongate W size phi c s e) 0%R) with (at_dof 0%R (prolongate W size phi c s) (e, k)).
      apply prolongate_ok; auto. repeat split; auto.
    - assert (SZ : sized W (fun q => local_solve q (d q))) by (intros q e Q E; now apply LS).
      destruct (add_spec W everywhere everywhere order N P _ SZ) as (v & E & SV & F).
      exists v. split; auto. split; auto. intros q e k l Q HE K H. destruct (F q e k Q HE K) as (F1 & _).
      rewrite (F1 eq_refl l (holders_contributors W q e l Q HE H)). apply rsum_ext. intros s S1. unfold at_dof. cbn. lra.
  Qed.

  (** ** Symmetry *)

  Variables (all : list dof) (cons : nat -> dof -> bool).
  Hypothesis ALL : all_dofs W all.
  Hypothesis DR : dirichlet_rows W cons Al.
  Hypothesis PZ : forall q i x, q < nranks W -> i < size q -> has_dof W q x -> cons q x = true -> at_dof 0%R (phi q i) x = 0%R.

  Definition free (q : nat) : list dof := filter (fun x => negb (cons q x)) (dofs_of W q).
  Definition sol (d : dvec R) (q : nat) (x : dof) : R := at_dof 0%R (local_solve q (d q)) x.

  Lemma sol_constrained D d q x : defect W cons D d -> has_dof W q x -> cons q x = true -> sol d q x = 0%R.
  Proof.
    intros HD H C. pose proof H as (Q & _). pose proof (proj2 (LS q (d q) Q) x H) as E. rewrite (HD q x H), C in E.
    rewrite <- E. symmetry. etransitivity.
    - apply (rsum_single _ _ x).
      + apply (dofs_arranged W q Q (N q Q)).
      + now apply (dofs_arranged W q Q (N q Q)).
      + intros y Y NE. apply (dofs_arranged W q Q (N q Q)) in Y. rewrite (DR q x y) by auto.
        destruct (Nat.eqb_spec (fst x) (fst y)), (Nat.eqb_spec (snd x) (snd y)); cbn [andb]; try lra.
        exfalso. apply NE. destruct x, y; cbn in *; congruence.
    - rewrite (DR q x x) by auto. rewrite !Nat.eqb_refl. cbn [andb]. unfold sol. lra.
  Qed.

  (** The local part of the product of the result with another vector. *)
  Lemma local_part D E d e q : q < nranks W -> defect W cons D d -> defect W cons E e ->
    rsum (fun x => sol d q x * E x)%R (dofs_of W q) = form (free q) (Al q) (sol d q) (sol e q).
  Proof.
    intros Q HD HE. unfold form, free. rewrite rsum_filter. apply rsum_ext. intros x X.
    apply (dofs_arranged W q Q (N q Q)) in X. destruct (cons q x) eqn:C; cbn [negb].
    - rewrite (sol_constrained D d q x) by auto. lra.
    - pose proof (proj2 (LS q (e q) Q) x X) as S1. rewrite (HE q x X), C in S1. rewrite <- S1, <- rsum_scale.
      rewrite rsum_filter. apply rsum_ext. intros y Y. apply (dofs_arranged W q Q (N q Q)) in Y.
      destruct (cons q y) eqn:C2; cbn [negb]; [|unfold sol; lra].
      change (at_dof 0%R (local_solve q (e q)) y) with (sol e q y). rewrite (sol_constrained E e q y) by auto. lra.
  Qed.

  Variables (nb : nat -> list nat) (Aq : nat -> dof -> dof -> R) (A : dof -> dof -> R) (M : list (list (nat * R))) (orders : nat -> list (nat * nat * nat)).
  Hypothesis NB : neighbours W nb.
  Hypothesis RC : rows_complete W size phi Aq A.
  Hypothesis PS : forall r, r < max_size W size -> Permutation (orders r) (all_all W).
  Hypothesis CM : coarse_system W nb size phi Aq orders = Ok M.
  Hypothesis CS : solves_coarse (global_size W size) (entry M) coarse_solve.

  Definition Phi (qi : nat * nat) : dof -> R := extended W (fst qi) (phi (fst qi) (snd qi)).
  Definition coef (d : dvec R) (qi : nat * nat) : R := nth (offset size (fst qi) + snd qi) (coarse_solve (restrict W size phi d)) 0%R.

  Lemma coarse_rows d q i : q < nranks W -> i < size q ->
    rsum (fun sj => form all A (Phi (q, i)) (Phi sj) * coef d sj)%R (indices W size) = dot W q (phi q i) (d q).
  Proof.
    intros Q I. rewrite <- (proj2 (restrict_ok W size phi d) q i Q I).
    rewrite <- (CS (restrict W size phi d) (offset size q + i)) by (rewrite global_size_offset; now apply offset_lt).
    rewrite rsum_indices. apply rsum_ext. intros [s j] SJ. apply in_indices in SJ as (S1 & J).
    destruct (galerkin W nb size phi Aq N NB BS A all ALL RC q i s j orders PS Q I S1 J) as (M' & E & _ & F).
    rewrite CM in E. injection E as <-. rewrite F. reflexivity.
  Qed.

  Lemma coarse_part D E d e : defect W cons D d -> defect W cons E e ->
    rsum (fun q => rsum (fun x => rsum (fun i => coef d (q, i) * at_dof 0 (phi q i) x)%R (seq 0 (size q)) * E x)%R (dofs_of W q)) (seq 0 (nranks W)) =
    form all A (fun x => rsum (fun i => coef d i * Phi i x)%R (indices W size)) (fun x => rsum (fun i => coef e i * Phi i x)%R (indices W size)).
  Proof.
    intros HD HE. rewrite form_combine.
    transitivity (rsum (fun qi => coef d qi * dot W (fst qi) (phi (fst qi) (snd qi)) (e (fst qi)))%R (indices W size)).
    - unfold indices. rewrite rsum_flat_map. apply rsum_ext. intros q Q. apply in_seq in Q. rewrite rsum_map.
      transitivity (rsum (fun x => rsum (fun i => coef d (q, i) * at_dof 0 (phi q i) x * E x)%R (seq 0 (size q))) (dofs_of W q)).
      { apply rsum_ext. intros x _. now rewrite <- rsum_scale_r. }
      rewrite rsum_swap. apply rsum_ext. intros i I. apply in_seq in I. cbn [fst snd]. rewrite dot_rsum, <- rsum_scale.
      apply rsum_ext. intros x X. apply (dofs_arranged W q ltac:(lia) (N q ltac:(lia))) in X. rewrite (HE q x X).
      destruct (cons q x) eqn:C; [|lra]. rewrite PZ; auto; lra || lia.
    - apply rsum_ext. intros [q i] QI. apply in_indices in QI as (Q & I). f_equal. symmetry. now apply coarse_rows.
  Qed.

  Lemma product_total d v V E : schwarz_apply W size phi local_solve coarse_solve true order d = Ok v -> consistent W v V ->
    rsum (fun x => V x * E x)%R all =
    (rsum (fun q => rsum (fun x => sol d q x * E x)%R (dofs_of W q)) (seq 0 (nranks W)) +
     rsum (fun q => rsum (fun x => rsum (fun i => coef d (q, i) * at_dof 0 (phi q i) x)%R (seq 0 (size q)) * E x)%R (dofs_of W q)) (seq 0 (nranks W)))%R.
  Proof.
    intros EV C. destruct (apply_ok true d) as (v' & EV' & _ & F). rewrite EV in EV'. injection EV' as <-.
    rewrite <- rsum_plus.
    transitivity (rsum (fun q => rsum (fun x => if stored W q x then (part true d q x * E x)%R else 0%R) all) (seq 0 (nranks W))).
    - rewrite rsum_swap. apply rsum_ext. intros x X. apply ALL in X. destruct X as (q & X). pose proof X as (Q & X1 & X2).
      rewrite <- (C q x X).
      assert (H : holders W (fst x) (filter (fun s => stores W s (fst x)) (seq 0 (nranks W)))).
      { split; [apply NoDup_filter, seq_NoDup|]. intros s. rewrite filter_In, in_seq, stores_iff. intuition lia. }
      unfold at_dof. rewrite (F q (fst x) (snd x) _ Q X1 X2 H), <- surjective_pairing, rsum_filter, <- rsum_scale_r.
      apply rsum_ext. intros s S1. apply in_seq in S1.
      assert (B : stores W s (fst x) = stored W s x).
      { apply eq_true_iff_eq. rewrite stored_iff, stores_iff. unfold has_dof. intuition lia. }
      rewrite B. destruct (stored W s x); lra.
    - apply rsum_ext. intros q Q. apply in_seq in Q. rewrite rsum_local by (auto; try (apply N); lia).
      rewrite <- rsum_plus. apply rsum_ext. intros x X. unfold part, sol, coef. cbn [fst snd]. lra.
  Qed.

  Lemma total D E d e v V : defect W cons D d -> defect W cons E e ->
    schwarz_apply W size phi local_solve coarse_solve true order d = Ok v -> consistent W v V ->
    rsum (fun x => V x * E x)%R all =
    (rsum (fun q => form (free q) (Al q) (sol d q) (sol e q)) (seq 0 (nranks W)) +
     form all A (fun x => rsum (fun i => coef d i * Phi i x)%R (indices W size)) (fun x => rsum (fun i => coef e i * Phi i x)%R (indices W size)))%R.
  Proof.
    intros HD HE EV C. rewrite (product_total d v V E EV C), (coarse_part D E d e HD HE). f_equal. apply rsum_ext.
    intros q Q. apply in_seq in Q. apply (local_part D E); auto. lia.
  Qed.
End schwarz.
