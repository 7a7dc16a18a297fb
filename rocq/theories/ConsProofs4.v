(** Constrained matrices: sparsity pattern, product with vectors. *)
From Coq Require Import Lra Permutation.
From Verif Require Import ConsModel ConsSpec EngineSpec EngineProofs EngineProofs3 CommonFacts ConsProofs ConsProofs2 ConsProofs3.
Local Open Scope R_scope.

(** ** Pattern *)
Lemma in_nonzero a b v e : In e (nonzero a b v) -> fst e = (a, b) /\ v <> 0.
Proof. unfold nonzero. destruct (Req_EM_T v 0); [contradiction|]. intros [<-|[]]. auto. Qed.
Lemma in_pairs n k i j : In (i, j) (all_pairs n k) <-> (i < n /\ j < k)%nat.
Proof.
  unfold all_pairs. rewrite in_flat_map. split.
  - intros (x & I & J). apply in_map_iff in J. destruct J as (y & E & J). injection E as -> ->. apply in_seq in I, J. lia.
  - intros (L & M). exists i. split; [apply in_seq; lia|]. apply in_map_iff. exists j. split; [reflexivity|apply in_seq; lia].
Qed.
Lemma etadd_entry same V U m i j e : In e (etadd_one V U m i j) -> In (fst e) (add_entry same V U i j) /\ m i j <> 0.
Proof.
  unfold etadd_one, add_entry. destruct (Req_EM_T (m i j) 0) as [|N]; [contradiction|]. intros H. split; [|exact N].
  apply in_or_app. right. destruct (is_constrained V i); cbn [negb].
  - destruct (is_dirichlet V i); [contradiction|]. apply in_flat_map in H. destruct H as (v & Iv & H).
    apply in_flat_map. exists v. split; [exact Iv|]. destruct (is_constrained U j); [destruct (is_dirichlet U j)|]; cbn [negb orb].
    + apply in_nonzero in H. left. symmetry. apply H.
    + apply in_flat_map in H. destruct H as (u & Iu & H). apply in_nonzero in H. rewrite (proj1 H). apply in_map_iff. exists u. auto.
    + apply in_nonzero in H. left. symmetry. apply H.
  - destruct (is_constrained U j); [destruct (is_dirichlet U j)|]; cbn [negb orb].
    + apply in_nonzero in H. left. symmetry. apply H.
    + apply in_flat_map in H. destruct H as (u & Iu & H). apply in_nonzero in H. rewrite (proj1 H). apply in_map_iff. exists u. auto.
    + destruct H as [<-|[]]. left. reflexivity.
Qed.
Lemma etadd_pattern same V U m p e : supported p V U m -> In e (etadd V U m) -> In (fst e) (add_pattern same V U p).
Proof.
  intros S H. apply in_flat_map in H. destruct H as ((i, j) & I & H). apply in_pairs in I. cbn [fst snd] in H.
  apply (etadd_entry same) in H. apply in_flat_map. exists (i, j). split; [apply S; tauto|apply H].
Qed.
Lemma clear_supported p V U m sel : supported p V U m -> supported p V U (clear_columns (size V) (size U) sel m).
Proof. intros S i j I J. unfold clear_columns. destruct (_ && _); [lra|]. apply S; assumption. Qed.
Lemma plain_pattern same V U m p e : (forall i, is_constrained V i = false) -> (forall j, is_constrained U j = false) ->
  supported p V U m -> In e (plain V U m) -> In (fst e) (add_pattern same V U p).
Proof.
  intros FV FU S H. apply in_flat_map in H. destruct H as ((i, j) & I & H). apply in_pairs in I. cbn [fst snd] in H.
  apply in_nonzero in H. apply in_flat_map. exists (i, j). split; [apply S; tauto|]. unfold add_entry. cbn [fst snd].
  rewrite FV, FU. cbn [negb orb]. apply in_or_app. right. left. symmetry. apply H.
Qed.
Theorem scatter_in_pattern cu cv en sym same vs us V U m p g h x :
  cache_for cv en vs V -> cache_for cu en us U -> supported p V U m ->
  In (g, h, x) (scatter_jacobian cu V U sym m) -> In (g, h) (add_pattern same V U p).
Proof.
  intros CV CU S H. change (g, h) with (fst (g, h, x)). unfold scatter_jacobian in H.
  rewrite (cache_enabled_eq _ _ _ _ CV), (cache_enabled_eq _ _ _ _ CU) in H. destruct en; cbn [andb] in H.
  - destruct sym; [|eapply etadd_pattern; eassumption]. eapply etadd_pattern; [|exact H]. apply clear_supported, S.
  - destruct sym.
    + eapply plain_pattern with (4 := H); [| |apply clear_supported, S].
      * intros i. apply (cache_off _ _ _ i CV).
      * intros i. apply (cache_off _ _ _ i CU).
    + eapply plain_pattern with (4 := H); [| |exact S].
      * intros i. apply (cache_off _ _ _ i CV).
      * intros i. apply (cache_off _ _ _ i CU).
Qed.
Theorem diagonal_in_pattern V U p i j : In (i, j) p -> ci V i = ci U j -> In (ci V i, ci V i) (add_pattern true V U p).
Proof.
  intros I E. apply in_flat_map. exists (i, j). split; [exact I|]. unfold add_entry. cbn [fst snd andb]. apply in_or_app. left.
  rewrite E, Nat.eqb_refl. left. reflexivity.
Qed.

(** ** Product with a vector *)
Lemma delta_dot N k (z : vec) : (k < N)%nat -> nsum N (fun h => delta k h * z h) = z k.
Proof.
  intros L. rewrite <- (nsum_single N k z L). apply nsum_ext. intros h _. unfold delta. destruct (k =? h)%nat; lra.
Qed.
Lemma trial_dot N cu k (z : vec) : (k < N)%nat -> below N cu -> nsum N (fun h => trial_basis false cu k h * z h) = full cu z k.
Proof.
  intros L B. unfold trial_basis, full. destruct (find k cu) as [[|e r]|] eqn:E; try (apply delta_dot, L).
  apply nsum_lsum_single. apply (B _ _ (find_in _ _ _ E)).
Qed.
Lemma galerkin_dot N cu cv vs us m z g : below N cu -> (forall h, In h us -> (h < N)%nat) ->
  nsum N (fun h => galerkin false cv cu vs us m g h * z h) =
  nsum (length vs) (fun i => test_basis cv (nth i vs O) g * mv (length us) m (gather 0 (full cu z) us) i).
Proof.
  intros B L. unfold galerkin.
  rewrite (nsum_ext N _ (fun h => nsum (length vs) (fun i => test_basis cv (nth i vs O) g * nsum (length us) (fun j =>
     m i j * (trial_basis false cu (nth j us O) h * z h))))).
  2: { intros h _. rewrite Rmult_comm, <- nsum_scal. apply nsum_ext. intros i _. rewrite <- !nsum_scal. apply nsum_ext.
       intros j _. lra. }
  rewrite nsum_swap. apply nsum_ext. intros i _. rewrite nsum_scal. f_equal. rewrite nsum_swap. unfold mv.
  apply nsum_ext. intros j J. rewrite nsum_scal. f_equal. rewrite trial_dot; [|apply L, nth_In, J|exact B].
  unfold gather. rewrite (nth_error_nth' us O J). reflexivity.
Qed.
Lemma scatter_delta ds v g : scatter ds v g = nsum (length ds) (fun i => delta (nth i ds O) g * v i).
Proof. unfold scatter. rewrite scatter_linear. apply nsum_ext. intros i _. cbn [plus]. unfold delta. destruct (_ =? _)%nat; lra. Qed.
Lemma received_scatter cv (ds : list nat) v g : proper cv -> ~ constrained cv g ->
  scatter ds v g + received cv (scatter ds v) g = nsum (length ds) (fun i => test_basis cv (nth i ds O) g * v i).
Proof.
  intros (ND & _) F. unfold received.
  rewrite (lsum_ext _ (fun col : nat * row => nsum (length ds) (fun i => weight (snd col) g * (delta (nth i ds O) (fst col) * v i)))).
  2: { intros col _. rewrite scatter_delta, <- nsum_scal. reflexivity. }
  rewrite <- (nsum_lsum (length ds) (fun (col : nat * row) i => weight (snd col) g * (delta (nth i ds O) (fst col) * v i))).
  rewrite scatter_delta, <- nsum_plus. apply nsum_ext. intros i _. set (k := nth i ds O). unfold test_basis.
  assert (Z : forall l : container, ~ In k (keys l) -> lsum (fun col : nat * row => weight (snd col) g * (delta k (fst col) * v i)) l = 0).
  { intros l Nk. apply lsum_zero. intros (k', r') I. cbn [fst snd]. unfold delta. destruct (Nat.eqb_spec k k') as [<-|]; [|lra].
    exfalso. apply Nk. eapply in_keys, I. }
  destruct (find k cv) as [r|] eqn:E.
  - assert (Ng : delta k g = 0).
    { unfold delta. destruct (Nat.eqb_spec k g) as [<-|]; [|reflexivity]. exfalso. apply F. eapply in_keys, find_in, E. }
    rewrite Ng, Rmult_0_l, Rplus_0_l. clear F. induction cv as [|(k', r') cv IH]; [discriminate|]. rewrite lsum_cons. cbn [fst snd].
    unfold keys in ND. cbn [map fst] in ND. inversion_clear ND as [|? ? N1 N2]. cbn [find] in E.
    destruct (Nat.eqb_spec k' k) as [->|Nk].
    + injection E as ->. rewrite Z by exact N1. unfold delta. rewrite Nat.eqb_refl. lra.
    + rewrite IH by assumption. unfold delta. destruct (Nat.eqb_spec k k'); [congruence|]. lra.
  - rewrite Z by (apply find_none, E). lra.
Qed.
Lemma received_lsum {A} cg (f : A -> vec) l g : received cg (fun k => lsum (fun a => f a k) l) g = lsum (fun a => received cg (f a) g) l.
Proof.
  induction l as [|a l IH].
  - apply lsum_zero. intros. cbn. lra.
  - rewrite lsum_cons, <- IH. unfold received. rewrite <- lsum_plus. apply lsum_ext. intros. rewrite lsum_cons. lra.
Qed.
Theorem constrained_product N cu cv en els cs z g :
  caches_of cu cv en els cs -> (en = false -> only_dirichlet cu /\ only_dirichlet cv) ->
  proper cv -> flat cv -> below N cu -> (forall e h, In e els -> In h (us e) -> (h < N)%nat) -> ~ constrained cv g ->
  mv N (assemble_constrained cu cv false cs mzero) z g = constrain_residual cv (apply_elements els (full cu z)) g.
Proof.
  intros C OD Pr F B L Fr. rewrite constrain_free by assumption. unfold apply_elements. rewrite received_lsum, <- lsum_plus. unfold mv.
  rewrite (nsum_ext N _ (fun h => lsum (fun e => galerkin false cv cu (vs e) (us e) (em e) g h * z h) els)).
  2: { intros h _. rewrite (assembled cu cv en false els cs) by assumption. destruct (in_dec _ _ _) as [I|_]; [contradiction|].
       unfold mzero. rewrite Rplus_0_l, Rmult_comm, <- lsum_scal. apply lsum_ext. intros. lra. }
  rewrite (nsum_lsum N (fun e h => galerkin false cv cu (vs e) (us e) (em e) g h * z h)). apply lsum_ext. intros e I.
  rewrite galerkin_dot; [|exact B|intros; eapply L; eassumption]. rewrite received_scatter by assumption. reflexivity.
Qed.
Theorem constrained_row_product N cu cv sym cs A z g : constrained cv g -> (g < N)%nat ->
  mv N (assemble_constrained cu cv sym cs A) z g = z g.
Proof.
  intros I L. unfold mv. rewrite (nsum_ext N _ (fun h => delta g h * z h)); [apply delta_dot, L|].
  intros h _. f_equal. apply trivial_rows, I.
Qed.
