(** The constructed basis: orthonormality, derivatives, interpolation. *)
From Coq Require Import Reals Lra.
From Verif Require Import Common CommonFacts ParSpec ParProofs2 DdProofs OrthModel OrthSpec OrthProofs OrthProofs2 OrthProofs3.
Local Open Scope R_scope.
Local Arguments rsum : simpl never.

(** ** Monomials *)

Lemma power_loop_pow x n : power_loop x n = x ^ n.
Proof.
  unfold power_loop. induction n as [|n IH]; [reflexivity|]. rewrite seq_S, fold_left_app, IH. cbn [fold_left pow]. ring.
Qed.
Lemma monomial_snoc a : forall x e y, length a = length x -> monomial (a ++ [e]) (x ++ [y]) = y ^ e * monomial a x.
Proof.
  induction a as [|f a IH]; intros [|z x] e y L; try discriminate; cbn [app monomial]; [ring|].
  rewrite IH by (cbn in L; lia). ring.
Qed.
Lemma monomial_evaluate_local d : forall x x' a a', (forall i, (i < d)%nat -> nth i x 0 = nth i x' 0) ->
  (forall i, (i < d)%nat -> nth i a 0%nat = nth i a' 0%nat) -> monomial_evaluate d x a = monomial_evaluate d x' a'.
Proof.
  induction d as [|d IH]; intros x x' a a' X A; [reflexivity|]. cbn [monomial_evaluate]. destruct d as [|d].
  - now rewrite X, A by lia.
  - rewrite (X (S d)), (A (S d)) by lia. f_equal. apply IH; intros; [apply X | apply A]; lia.
Qed.
Lemma monomial_evaluate_eq d : forall x a, length x = d -> length a = d -> monomial_evaluate d x a = monomial a x.
Proof.
  induction d as [|d IH]; intros x a X A.
  - destruct x, a; try discriminate. reflexivity.
  - destruct (exists_last (l := x)) as (x' & y & ->); [intros ->; discriminate|].
    destruct (exists_last (l := a)) as (a' & e & ->); [intros ->; discriminate|].
    rewrite app_length in X, A. cbn [length] in X, A.
    assert (Lx : length x' = d) by lia. assert (La : length a' = d) by lia.
    rewrite monomial_snoc by lia.
    assert (Y : nth d (x' ++ [y]) 0 = y) by (rewrite app_nth2 by lia; rewrite Lx, Nat.sub_diag; reflexivity).
    assert (E : nth d (a' ++ [e]) 0%nat = e) by (rewrite app_nth2 by lia; rewrite La, Nat.sub_diag; reflexivity).
    cbn [monomial_evaluate]. destruct d as [|d].
    + rewrite Y, E, power_loop_pow. destruct x', a'; try discriminate. cbn. ring.
    + rewrite Y, E, power_loop_pow. f_equal. rewrite <- (IH x' a') by lia.
      apply monomial_evaluate_local; intros; apply app_nth1; lia.
Qed.

(** ** Inner products of polynomials *)

Lemma rsum_mult {A B} (f : A -> R) (g : B -> R) l l' : rsum f l * rsum g l' = rsum (fun x => rsum (fun y => f x * g y) l') l.
Proof.
  rewrite Rmult_comm, <- rsum_scale. apply rsum_ext. intros x _. rewrite Rmult_comm, <- rsum_scale. reflexivity.
Qed.
Lemma map_nth_seq {A} (l : list A) dflt : map (fun i => nth i l dflt) (seq 0 (length l)) = l.
Proof. induction l as [|x l IH]; [reflexivity|]. cbn [length seq map nth]. f_equal. rewrite <- seq_shift, map_map. exact IH. Qed.
Section inner_products.
  Variables (s : shape) (d : nat) (al : list multiindex) (G : matrix).
  Let n := length al.
  Let alph := fun j => nth j al [].
  Hypothesis lens : forall i, (i < n)%nat -> length (alph i) = d.
  Hypothesis GI : forall l m, (l < n)%nat -> (m < n)%nat -> gint (nxt_of s) d 1 (monomial (add_index d (alph l) (alph m))) (G l m).
  Lemma gint_products u v : gint (nxt_of s) d 1 (fun x => polynomial n alph u x * polynomial n alph v x) (form n G u v).
  Proof.
    apply (gint_ext _ _ _ (fun x => rsum (fun l => rsum (fun m => u l * v m * monomial (add_index d (alph l) (alph m)) x) (seq 0 n)) (seq 0 n))).
    - intros x _. unfold polynomial. rewrite rsum_mult. apply rsum_ext. intros l L. apply rsum_ext. intros m M.
      apply in_seq in L, M. rewrite monomial_add by (apply lens; lia). ring.
    - apply gint_sum. intros l L. apply gint_sum. intros m M. apply in_seq in L, M. apply gint_scale, GI; lia.
  Qed.
  Hypothesis nodup : NoDup al.
  Lemma G_posdef v l : (l < n)%nat -> v l <> 0 -> 0 < form n G v v.
  Proof.
    intros L V. pose proof (gint_products v v) as H.
    assert (P : 0 <= form n G v v).
    { eapply gint_nonneg; [apply (nxt_shrinking s) | | | exact H]; [lra|]. intros x. apply Rle_0_sqr. }
    destruct P as [P|P]; auto. exfalso. rewrite <- P in H. apply V.
    assert (Z : forall x, inner (nxt_of s) d 1 x -> polynomial n alph v x = 0).
    { intros x X. pose proof (gint_zero (nxt_of s) d (nxt_shrinking s) 1 _ ltac:(lra) ltac:(intros; apply Rle_0_sqr) H x X) as Q.
      cbn in Q. apply Rmult_integral in Q. tauto. }
    destruct (inner_box s d) as (eps & E & B).
    assert (W := psum_zero eps d E (map (fun j => (v j, alph j)) (seq 0 n))).
    apply W with (p := (v l, alph l)).
    - rewrite map_map. cbn [snd]. rewrite <- (map_nth_seq al []) in nodup. exact nodup.
    - intros p I. apply in_map_iff in I. destruct I as (j & <- & J). apply in_seq in J. apply lens. lia.
    - intros x Lx Hx. unfold psum. rewrite rsum_map. cbn [fst snd]. apply Z, B; auto.
    - apply in_map_iff. exists l. split; auto. apply in_seq. lia.
  Qed.
End inner_products.

(** ** The tables of the constructor *)

Lemma collect_nth {A} (f : nat -> res A) n out (dflt : A) : foldM (fun t a => let* v := f a in Ok (t ++ [v])) (seq 0 n) [] = Ok out ->
  length out = n /\ forall i, (i < n)%nat -> f i = Ok (nth i out dflt).
Proof.
  intros H. apply foldM_collect_inv in H. destruct H as (vs & -> & F). cbn [app]. pose proof (Forall2_len _ _ _ F) as L.
  rewrite seq_length in L. split; auto. intros i I. pose proof (Forall2_nth _ _ _ 0%nat dflt i F) as N. rewrite seq_length in N.
  specialize (N I). now rewrite seq_nth in N.
Qed.
Lemma gram_table_nth s d al t : gram_table s d al = Ok t -> forall i l, (i < length al)%nat -> (l <= i)%nat ->
  integrate s d (add_index d (nth i al []) (nth l al [])) = Ok (nth l (nth i t []) 0).
Proof.
  intros H i l I L. apply (collect_nth _ _ _ []) in H. destruct H as [_ H]. specialize (H i I).
  apply (collect_nth _ _ _ 0) in H. destruct H as [_ H]. apply H. lia.
Qed.
Lemma construct_inv b s k d o : construct b s k d = Ok o -> exists t,
  basis_indices b k d = Ok (alpha o) /\ gram_table s d (alpha o) = Ok t /\
  coeffs o = gram_schmidt (length (alpha o)) (fun i l => nth l (nth i t []) 0) /\
  forall r i, (r < d)%nat -> (i < length (alpha o))%nat -> grad_row d (alpha o) (coeffs o) r i = Ok (gradcoeff o r i).
Proof.
  unfold construct. intros H. apply bind_ok in H. destruct H as (al & A & H). apply bind_ok in H. destruct H as (t & T & H).
  apply bind_ok in H. destruct H as (gc & Gc & H). injection H as <-. cbn [alpha coeffs]. exists t. repeat split; auto.
  intros r i Lr Li. apply (collect_nth _ _ _ []) in Gc. destruct Gc as [_ Gc]. specialize (Gc r Lr).
  apply (collect_nth _ _ _ (fun _ => 0)) in Gc. destruct Gc as [_ Gc]. rewrite (Gc i Li). reflexivity.
Qed.
Lemma basis_indices_inv b k d l : d <> 0%nat -> basis_indices b k d = Ok l -> l = indices b k d /\ (b = Pk -> (k <= 24)%nat).
Proof.
  intros D H. assert (K : b = Pk -> (k <= 24)%nat).
  { intros ->. destruct (Nat.le_gt_cases k 24) as [|L]; auto. rewrite basis_indices_throws in H by auto. discriminate. }
  split; auto. rewrite basis_indices_ok in H by auto. congruence.
Qed.
Lemma index_length b k d i : d <> 0%nat -> (i < length (indices b k d))%nat -> length (nth i (indices b k d) []) = d.
Proof.
  intros D I. apply (nth_In _ []) in I. apply indices_in in I; auto. destruct b; destruct I; auto.
Qed.

  Lemma nth_map_seq {A} (f : nat -> A) m i dflt : (i < m)%nat -> nth i (map f (seq 0 m)) dflt = f i.
  Proof.
    intros I. rewrite (nth_indep _ dflt (f 0%nat)) by now rewrite map_length, seq_length.
    rewrite (map_nth f). now rewrite seq_nth.
  Qed.

Section lowering.
  Variables (b : basis_type) (k d : nat) (al : list multiindex).
  Hypothesis D : d <> 0%nat.
  Hypothesis A_al : al = indices b k d.
  Let n := length al.
  Let alph := fun j => nth j al [].
  Lemma al_size : n = traits_size b k d.
  Proof. unfold n. rewrite A_al. now apply indices_length. Qed.
  Lemma al_lens i : (i < n)%nat -> length (alph i) = d.
  Proof. unfold alph, n. rewrite A_al. apply index_length; auto. Qed.
  Lemma al_nodup : NoDup al.
  Proof. rewrite A_al. apply indices_nodup. Qed.
  Lemma same_index_eq a a' : length a = d -> length a' = d -> same_index d a a' = true -> a = a'.
  Proof.
    intros A A' H. unfold same_index in H. rewrite forallb_forall in H. apply nth_ext with (d := 0%nat) (d' := 0%nat); [congruence|].
    intros i I. specialize (H i ltac:(apply in_seq; lia)). now apply Nat.eqb_eq in H.
  Qed.
  Lemma same_index_refl a : same_index d a a = true.
  Proof. unfold same_index. apply forallb_forall. intros; apply Nat.eqb_refl. Qed.
  Lemma invert_index_ok l : (l < n)%nat -> invert_index d al (alph l) = Ok l.
  Proof.
    intros L. unfold invert_index. fold n. destruct (find _ _) as [m|] eqn:F.
    - apply find_some in F. destruct F as [I F]. apply in_seq in I. apply same_index_eq in F; [|apply al_lens; lia..].
      f_equal. pose proof (proj1 (NoDup_nth al []) al_nodup) as N. symmetry. apply N; auto. fold n. lia.
    - exfalso. apply find_none with (x := l) in F; [|apply in_seq; lia]. fold (alph l) in F. rewrite same_index_refl in F. discriminate.
  Qed.
  Lemma sum_nat_upd r : forall a, (0 < nth r a 0 -> S (sum_nat (upd r (nth r a 0 - 1) a)) = sum_nat a)%nat.
  Proof.
    unfold sum_nat. induction r as [|r IH]; intros [|e a] H; cbn in *; try lia. rewrite <- (IH a H). lia.
  Qed.
  Lemma code_upd r : forall a, (0 < nth r a 0)%nat -> (code k (upd r (nth r a 0 - 1) a) < code k a)%nat.
  Proof. induction r as [|r IH]; intros [|e a] H; cbn in *; try lia. specialize (IH a H). nia. Qed.
  Lemma in_upd {A} r (z : A) : forall a e, In e (upd r z a) -> e = z \/ In e a.
  Proof. induction r as [|r IH]; intros [|x a] e H; cbn in *; try tauto; destruct H; auto. destruct (IH _ _ H); auto. Qed.
  Lemma lowered_index r j : (r < d)%nat -> (j < n)%nat -> (0 < nth r (alph j) 0)%nat ->
    exists l, (l < j)%nat /\ alph l = upd r (nth r (alph j) 0 - 1)%nat (alph j).
  Proof.
    intros R J P. set (be := upd r (nth r (alph j) 0 - 1)%nat (alph j)).
    assert (LA : length (alph j) = d) by now apply al_lens.
    assert (Lb : length be = d) by (unfold be; rewrite upd_length; now apply al_lens).
    assert (Ij : In (alph j) (indices b k d)) by (rewrite <- A_al; apply nth_In; auto).
    apply indices_in in Ij; auto.
    assert (Ib : In be (indices b k d)).
    { apply indices_in; auto. pose proof (sum_nat_upd r (alph j) P) as U.
      destruct b; cbn in *; unfold of_degree_upto, of_degree_each, degree in *; destruct Ij as [_ Ij].
      - split; auto. unfold be. lia.
      - split; auto. intros e E. apply in_upd in E. destruct E as [->|E]; [|auto].
        assert (nth r (alph j) 0 <= k)%nat by (apply Ij, nth_In; rewrite LA; auto). lia. }
    rewrite <- A_al in Ib. apply (In_nth _ _ []) in Ib. destruct Ib as (l & L & E). exists l. split; auto.
    change (l < n)%nat in L.
    destruct (Nat.lt_ge_cases l j) as [|GE]; auto. exfalso. unfold be, alph in E. unfold alph in P. clear Ij Lb LA be.
    pose proof al_size as SZ. rewrite A_al in E, P. clearbody n. destruct b; cbn [indices traits_size] in *.
    - pose proof (all_upto_sorted d k j l D ltac:(lia)) as M. rewrite E in M.
      pose proof (sum_nat_upd r _ P) as U. unfold multiindex in *. lia.
    - pose proof (code_upd r _ P) as U. rewrite qk_size_pow in SZ.
      assert (A : forall i, (i < n)%nat -> code k (nth i (map (fun i => qk_multiindex d i k) (seq 0 (qk_size k d))) []) = i).
      { intros i I. rewrite nth_map_seq by (rewrite qk_size_pow; lia). apply qk_code. lia. }
      rewrite A in U by auto. rewrite <- E, A in U by auto. lia.
  Qed.
  Definition dmonomial (r : nat) (a : multiindex) (x : list R) : R := INR (nth r a 0%nat) * monomial (upd r (nth r a 0 - 1)%nat a) x.
  Lemma grad_row_ok m r i : (r < d)%nat -> (i < n)%nat -> exists row, grad_row d al m r i = Ok row /\
    (forall l, (i < l)%nat -> row l = 0) /\
    forall x, rsum (fun l => row l * monomial (alph l) x) (seq 0 (i + 1)) = rsum (fun j => m i j * dmonomial r (alph j) x) (seq 0 (i + 1)).
  Proof.
    intros Rd I. unfold grad_row. set (F := fun (row : nat -> R) j => _).
    assert (H : forall q, (q <= i + 1)%nat -> exists row, foldM F (seq 0 q) (fun _ => 0) = Ok row /\
      (forall l, (i < l)%nat -> row l = 0) /\
      forall x, rsum (fun l => row l * monomial (alph l) x) (seq 0 (i + 1)) = rsum (fun j => m i j * dmonomial r (alph j) x) (seq 0 q)).
    { induction q as [|q IH]; intros Q.
      - exists (fun _ => 0). repeat split; auto. intros x. change (rsum _ (seq 0 0)) with 0. apply rsum_zero. intros; ring.
      - destruct (IH ltac:(lia)) as (row & E & Z & S1). rewrite seq_S, foldM_app, E. cbn [bind foldM Nat.add]. unfold F at 1. fold (alph q).
        cbv zeta. destruct (Nat.ltb_spec 0 (nth r (alph q) 0%nat)) as [P|P].
        + destruct (lowered_index r q Rd ltac:(lia) P) as (l & L & EL). rewrite <- EL, invert_index_ok by lia. cbn [bind].
          eexists. split; [reflexivity|]. split.
          * intros l' L'. destruct (Nat.eqb_spec l' l); [lia | now apply Z].
          * intros x. rewrite rsum_app, rsum_cons. change (rsum _ []) with 0. rewrite <- S1.
            rewrite (rsum_ext _ (fun l' => row l' * monomial (alph l') x + (if (l' =? l)%nat then m i q * INR (nth r (alph q) 0%nat) * monomial (alph l) x else 0))).
            -- rewrite rsum_plus. rewrite (rsum_one (fun l' => if (l' =? l)%nat then _ else 0) l).
               ++ rewrite Nat.eqb_refl. unfold dmonomial. rewrite <- EL. ring.
               ++ apply seq_NoDup.
               ++ apply in_seq; lia.
               ++ intros l' _ N. destruct (Nat.eqb_spec l' l); [lia | reflexivity].
            -- intros l' _. destruct (Nat.eqb_spec l' l) as [->|]; ring.
        + exists row. split; [reflexivity|]. split; auto. intros x. rewrite rsum_app, rsum_cons. change (rsum _ []) with 0.
          rewrite S1.
          assert (Z0 : dmonomial r (alph q) x = 0) by (unfold dmonomial; replace (nth r (alph q) 0%nat) with 0%nat by lia; change (INR 0) with 0; ring).
          rewrite Z0. ring. }
    destruct (H (i + 1)%nat ltac:(lia)) as (row & E & Z & S1). exists row. auto.
  Qed.
End lowering.

Section constructed.
  Variables (b : basis_type) (s : shape) (k d : nat) (o : basis).
  Hypothesis D : d <> 0%nat.
  Hypothesis C : construct b s k d = Ok o.
  Let n := length (alpha o).
  Let alph := fun j => nth j (alpha o) [].
  Let c := coeffs o.

  Lemma o_alpha : alpha o = indices b k d.
  Proof. destruct (construct_inv _ _ _ _ _ C) as (t & A & _). now apply basis_indices_inv in A. Qed.
  Lemma o_size : n = traits_size b k d.
  Proof. exact (al_size b k d (alpha o) D o_alpha). Qed.
  Lemma o_lens i : (i < n)%nat -> length (alph i) = d.
  Proof. exact (al_lens b k d (alpha o) D o_alpha i). Qed.
  Lemma o_nodup : NoDup (alpha o).
  Proof. rewrite o_alpha. apply indices_nodup. Qed.

  Lemma o_done : exists G,
    (forall l m, (l < n)%nat -> (m < n)%nat -> G l m = G m l) /\
    (forall l m, (l < n)%nat -> (m < n)%nat -> gint (nxt_of s) d 1 (monomial (add_index d (alph l) (alph m))) (G l m)) /\
    done n G c n.
  Proof.
    destruct (construct_inv _ _ _ _ _ C) as (t & A & T & Q & _). pose proof (gram_table_nth _ _ _ _ T) as N.
    set (g := fun i l => nth l (nth i t []) 0) in *.
    exists (fun l m => if (m <=? l)%nat then g l m else g m l).
    assert (Sy : forall l m, (if (m <=? l)%nat then g l m else g m l) = (if (l <=? m)%nat then g m l else g l m)).
    { intros l m. destruct (Nat.leb_spec m l), (Nat.leb_spec l m); auto; try lia. replace m with l by lia. reflexivity. }
    assert (GI : forall l m, (l < n)%nat -> (m < n)%nat ->
      gint (nxt_of s) d 1 (monomial (add_index d (alph l) (alph m))) (if (m <=? l)%nat then g l m else g m l)).
    { intros l m L M. destruct (Nat.leb_spec m l).
      - apply integrate_gint; [apply add_index_length|]. apply N; auto.
      - rewrite add_index_comm. apply integrate_gint; [apply add_index_length|]. apply N; auto. lia. }
    split; [intros; apply Sy|]. split; [exact GI|]. unfold c. rewrite Q. apply gram_schmidt_done.
    - intros; apply Sy.
    - intros i l I L. destruct (Nat.leb_spec l i); [reflexivity | lia].
    - intros v l L V. apply (G_posdef s d (alpha o) _ o_lens GI o_nodup v l L V).
  Qed.
  Lemma o_triangular : (forall i j, (i < n)%nat -> (i < j)%nat -> c i j = 0) /\ (forall i, (i < n)%nat -> 0 < c i i).
  Proof. destruct o_done as (G & _ & _ & _ & H1 & H2 & _). split; auto. Qed.

  (** *** Values *)
  Lemma evaluate_all_sum m x i : (i < n)%nat -> length x = d ->
    evaluate_all d (alpha o) m x i = rsum (fun j => m i j * monomial (alph j) x) (seq 0 (i + 1)).
  Proof.
    intros I X. unfold evaluate_all. fold n.
    assert (F : forall l a, fold_left (fun r j => if (j <=? i)%nat then r + m i j * monomial_evaluate d x (nth j (alpha o) []) else r) l a =
      a + rsum (fun j => if (j <=? i)%nat then m i j * monomial_evaluate d x (nth j (alpha o) []) else 0) l).
    { induction l as [|j l IH]; intros a; cbn [fold_left]; [unfold rsum; cbn; ring|]. rewrite IH, rsum_cons. destruct (j <=? i)%nat; ring. }
    cbv zeta. rewrite F, Rplus_0_l, <- (rsum_prefix n _ i I).
    - apply rsum_ext. intros j J. apply in_seq in J. destruct (Nat.leb_spec j i); [|lia].
      rewrite monomial_evaluate_eq; auto. apply o_lens. lia.
    - intros l L. destruct (Nat.leb_spec l i); [lia | reflexivity].
  Qed.
  Lemma evaluate_one_sum m x i : (i < n)%nat -> length x = d ->
    evaluate_one d (alpha o) m x i = rsum (fun j => m i j * monomial (alph j) x) (seq 0 (i + 1)).
  Proof.
    intros I X. unfold evaluate_one. rewrite fold_rsum, Rplus_0_l. apply rsum_ext. intros j J. apply in_seq in J.
    rewrite monomial_evaluate_eq; auto. apply o_lens. lia.
  Qed.
  Lemma value_polynomial x i : (i < n)%nat -> length x = d -> nth i (evaluate_function d o x) 0 = polynomial n alph (c i) x.
  Proof.
    intros I X. unfold evaluate_function. fold n. rewrite nth_map_seq by auto. rewrite evaluate_all_sum by auto.
    unfold polynomial. apply rsum_prefix; auto. intros l L. destruct o_triangular as [T _].
    fold c. rewrite T by lia. ring.
  Qed.
  Lemma o_orthonormal i j : (i < n)%nat -> (j < n)%nat ->
    gint (nxt_of s) d 1 (fun x => nth i (evaluate_function d o x) 0 * nth j (evaluate_function d o x) 0) (if (i =? j)%nat then 1 else 0).
  Proof.
    intros I J. destruct o_done as (G & _ & GI & _ & _ & _ & O).
    apply (gint_ext _ _ _ (fun x => polynomial n alph (c i) x * polynomial n alph (c j) x)).
    - intros x X. rewrite !value_polynomial by auto. reflexivity.
    - specialize (O i j I J). unfold unit in O. rewrite <- O. apply gint_products; [apply o_lens | exact GI].
  Qed.

  (** The first m functions span the first m monomials. *)
  Lemma o_span m v : (m <= n)%nat -> exists w, forall x, length x = d ->
    rsum (fun j => v j * monomial (alph j) x) (seq 0 m) = rsum (fun i => w i * nth i (evaluate_function d o x) 0) (seq 0 m).
  Proof.
    intros M. destruct o_triangular as [T P].
    destruct (triangular_span c m) with (v := fun l => if (l <? m)%nat then v l else 0) as (w & W).
    - intros a l A L. apply T; lia.
    - intros a A. specialize (P a ltac:(lia)). lra.
    - intros l L. destruct (Nat.ltb_spec l m); [lia | reflexivity].
    - exists w. intros x X.
      rewrite (rsum_ext (fun i => w i * nth i (evaluate_function d o x) 0)
        (fun i => rsum (fun j => w i * c i j * monomial (alph j) x) (seq 0 m))).
      + rewrite rsum_swap. apply rsum_ext. intros j J. apply in_seq in J. specialize (W j). cbn beta in W.
        destruct (Nat.ltb_spec j m); [|lia]. rewrite W. rewrite Rmult_comm, <- rsum_scale. apply rsum_ext. intros; ring.
      + intros i I. apply in_seq in I. unfold evaluate_function. fold n. rewrite nth_map_seq by lia. rewrite evaluate_all_sum by (auto; lia).
        fold c. rewrite <- rsum_scale. rewrite (rsum_ext _ (fun j => w i * c i j * monomial (alph j) x)) by (intros; ring).
        apply rsum_prefix; [lia|]. intros l L. rewrite T by lia. ring.
  Qed.

  (** *** Derivatives *)
  Lemma deriv_monomial r : forall a x, length a = length x -> (r < length x)%nat ->
    derivable_pt_lim (fun t => monomial a (upd r t x)) (nth r x 0) (dmonomial r a x).
  Proof.
    unfold dmonomial. induction r as [|r IH]; intros [|e a] [|y x] L R; try discriminate; try (cbn in R; lia); cbn [upd monomial nth].
    - replace (INR e * (y ^ (e - 1) * monomial a x)) with ((INR e * y ^ pred e) * monomial a x + y ^ e * 0)
        by (replace (pred e) with (e - 1)%nat by lia; ring).
      apply (derivable_pt_lim_mult (fun t => t ^ e) (fun _ => monomial a x)); [apply derivable_pt_lim_pow | apply derivable_pt_lim_const].
    - replace (INR (nth r a 0%nat) * (y ^ e * monomial (upd r (nth r a 0%nat - 1)%nat a) x)) with
        (y ^ e * (INR (nth r a 0%nat) * monomial (upd r (nth r a 0%nat - 1)%nat a) x)) by ring.
      apply (derivable_pt_lim_scal (fun t => monomial a (upd r t x))). apply IH; cbn in *; lia.
  Qed.
  Lemma deriv_rsum {A} (F : A -> R -> R) (V : A -> R) l x : (forall j, In j l -> derivable_pt_lim (F j) x (V j)) ->
    derivable_pt_lim (fun t => rsum (fun j => F j t) l) x (rsum V l).
  Proof.
    induction l as [|j l IH]; intros H; [exact (derivable_pt_lim_const 0 x)|].
    rewrite rsum_cons. apply (derivable_pt_lim_plus (F j) (fun t => rsum (fun j => F j t) l)); [apply H; now left | apply IH; intros; apply H; now right].
  Qed.
  Lemma deriv_ext f g x v : (forall t, f t = g t) -> derivable_pt_lim f x v -> derivable_pt_lim g x v.
  Proof. intros E H eps He. destruct (H eps He) as (del & P). exists del. intros h N Hh. rewrite <- !E. auto. Qed.
  Lemma o_jacobian r i x : (r < d)%nat -> (i < n)%nat -> length x = d ->
    derivable_pt_lim (fun t => nth i (evaluate_function d o (upd r t x)) 0) (nth r x 0)
      (nth r (nth i (evaluate_jacobian d o x) []) 0).
  Proof.
    intros Rd I X. unfold evaluate_jacobian. fold n. rewrite nth_map_seq by auto. rewrite nth_map_seq by auto.
    rewrite evaluate_all_sum by auto.
    destruct (construct_inv _ _ _ _ _ C) as (_ & _ & _ & _ & GR). specialize (GR r i Rd I).
    destruct (grad_row_ok b k d (alpha o) D o_alpha (coeffs o) r i Rd I) as (row & E & _ & S1). rewrite E in GR. injection GR as <-. rewrite S1.
    apply (deriv_ext (fun t => rsum (fun j => c i j * monomial (alph j) (upd r t x)) (seq 0 (i + 1)))).
    - intros t. unfold evaluate_function. fold n. rewrite nth_map_seq by auto. rewrite evaluate_all_sum by (auto; now rewrite upd_length). reflexivity.
    - apply (deriv_rsum (fun j t => c i j * monomial (alph j) (upd r t x))). intros j J. apply in_seq in J.
      apply (derivable_pt_lim_scal (fun t => monomial (alph j) (upd r t x))). apply deriv_monomial; [rewrite X; apply o_lens; lia | rewrite X; exact Rd].
  Qed.

  (** *** Interpolation *)
  Lemma interpolate_nth rule f i : (i < n)%nat ->
    nth i (interpolate d o rule f) 0 = rsum (fun q => f (fst q) * nth i (evaluate_function d o (fst q)) 0 * snd q) rule.
  Proof.
    intros I. unfold interpolate. fold n.
    assert (F : forall l acc, nth i (fold_left (fun out q => map (fun i => nth i out 0 + f (fst q) * nth i (evaluate_function d o (fst q)) 0 * snd q) (seq 0 n)) l acc) 0
      = nth i acc 0 + rsum (fun q => f (fst q) * nth i (evaluate_function d o (fst q)) 0 * snd q) l).
    { induction l as [|q l IH]; intros acc; cbn [fold_left]; [unfold rsum; cbn; ring|]. rewrite IH, nth_map_seq, rsum_cons by auto. ring. }
    cbv zeta. rewrite F, nth_map_seq by auto. ring.
  Qed.
  Lemma in_space_add i j : (i < n)%nat -> (j < n)%nat -> in_space b d (2 * k) (add_index d (alph i) (alph j)).
  Proof.
    intros I J.
    assert (Ii : in_space b d k (alph i)) by (apply indices_in; auto; rewrite <- o_alpha; apply nth_In; auto).
    assert (Ij : in_space b d k (alph j)) by (apply indices_in; auto; rewrite <- o_alpha; apply nth_In; auto).
    assert (SS : forall dd a a', length a = dd -> length a' = dd -> sum_nat (add_index dd a a') = (sum_nat a + sum_nat a')%nat).
    { unfold sum_nat. induction dd as [|dd IH]; intros [|x a] [|y a'] A A'; try discriminate; [reflexivity|].
      rewrite add_index_cons. cbn. rewrite IH by (cbn in *; lia). lia. }
    destruct b; cbn in *; unfold of_degree_upto, of_degree_each, degree in *; destruct Ii as [Li Si], Ij as [Lj Sj].
    - split; [apply add_index_length|]. rewrite SS by auto. lia.
    - split; [apply add_index_length|]. intros e E. unfold add_index in E. apply in_map_iff in E. destruct E as (m & <- & M).
      apply in_seq in M. assert (nth m (alph i) 0 <= k)%nat by (apply Si, nth_In; lia).
      assert (nth m (alph j) 0 <= k)%nat by (apply Sj, nth_In; lia). lia.
  Qed.
  Lemma o_interpolation rule w f : (forall q, In q rule -> length (fst q) = d) ->
    (forall a v, in_space b d (2 * k) a -> gint (nxt_of s) d 1 (monomial a) v -> rsum (fun q => monomial a (fst q) * snd q) rule = v) ->
    (forall x, length x = d -> f x = rsum (fun j => w j * nth j (evaluate_function d o x) 0) (seq 0 n)) ->
    forall i, (i < n)%nat -> nth i (interpolate d o rule f) 0 = w i.
  Proof.
    intros LR EX EF i I. rewrite interpolate_nth by auto. destruct o_done as (G & _ & GI & _ & _ & _ & O).
    assert (Q : forall j, (j < n)%nat -> rsum (fun q => nth j (evaluate_function d o (fst q)) 0 * nth i (evaluate_function d o (fst q)) 0 * snd q) rule = form n G (c j) (c i)).
    { intros j J. rewrite (rsum_ext _ (fun q => rsum (fun l => rsum (fun m => c j l * c i m * (monomial (add_index d (alph l) (alph m)) (fst q) * snd q)) (seq 0 n)) (seq 0 n))).
      - rewrite rsum_swap. unfold form. apply rsum_ext. intros l L. rewrite rsum_swap. apply rsum_ext. intros m M. apply in_seq in L, M.
        rewrite rsum_scale. f_equal. apply EX; [apply in_space_add; lia | apply GI; lia].
      - intros q Hq. specialize (LR q Hq). rewrite !value_polynomial by auto. unfold polynomial. rewrite rsum_mult, Rmult_comm, <- rsum_scale.
        apply rsum_ext. intros l L. rewrite <- rsum_scale. apply rsum_ext. intros m M. apply in_seq in L, M.
        rewrite monomial_add by (apply o_lens; lia). ring. }
    rewrite (rsum_ext _ (fun q => rsum (fun j => w j * (nth j (evaluate_function d o (fst q)) 0 * nth i (evaluate_function d o (fst q)) 0 * snd q)) (seq 0 n))).
    - rewrite rsum_swap. rewrite (rsum_ext _ (fun j => w j * unit j i)).
      + rewrite (rsum_one _ i); [unfold unit; rewrite Nat.eqb_refl; ring | apply seq_NoDup | apply in_seq; lia |].
        intros j _ N. unfold unit. destruct (Nat.eqb_spec j i); [lia | ring].
      + intros j J. apply in_seq in J. rewrite rsum_scale, Q, O by lia. reflexivity.
    - intros q Hq. rewrite EF by auto. rewrite Rmult_assoc, Rmult_comm, <- rsum_scale. apply rsum_ext. intros; ring.
  Qed.
End constructed.
