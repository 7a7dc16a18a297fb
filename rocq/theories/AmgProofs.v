(** Proofs about the prolongation from the conforming to the DG space (C134). *)
From Coq Require Import Reals Lra.
From Verif Require Import Common ParSpec ParProofs2 DdProofs AmgModel AmgSpec.

Lemma seq_in n i : In i (seq 0 n) <-> i < n. Proof. rewrite in_seq. lia. Qed.

Section tree.
  Context {L : Type}.
  Variable Q : tree L -> Prop.
  Hypothesis HL : forall l, Q (Leaf l).
  Hypothesis HN : forall ts, Forall Q ts -> Q (Node ts).
  Fixpoint tree_ind' (t : tree L) : Q t :=
    match t with
    | Leaf l => HL l
    | Node ts => HN ts ((fix go (ts : list (tree L)) : Forall Q ts :=
        match ts with [] => Forall_nil Q | a :: ts' => Forall_cons a (tree_ind' a) (go ts') end) ts)
    end.
End tree.

Section prolongation.
  Context {X : Type}.
  Implicit Types (u : cg_leaf X) (v : dg_leaf X).

  Lemma store_same m r c a : store m r c a r c = a. Proof. unfold store. now rewrite !Nat.eqb_refl. Qed.
  Lemma store_other m r c a i j : i <> r \/ j <> c -> store m r c a i j = m i j.
  Proof. intros H. unfold store. destruct (Nat.eqb_spec i r), (Nat.eqb_spec j c); cbn; auto; lia. Qed.

  (** One column of a leaf. *)
  Lemma column v c col n m :
    (forall j j', j < n -> j' < n -> dg_index v j = dg_index v j' -> j = j') ->
    let m' := fold_left (fun m j => store m (dg_index v j) col (nth j c 0%R)) (seq 0 n) m in
    (forall j, j < n -> m' (dg_index v j) col = nth j c 0%R) /\
    (forall r k, k <> col \/ (forall j, j < n -> dg_index v j <> r) -> m' r k = m r k).
  Proof.
    induction n as [|n IH]; intros D; cbn zeta.
    - split; [intros j H; lia|reflexivity].
    - rewrite seq_S, fold_left_app. cbn [fold_left Nat.add].
      destruct IH as [I1 I2]. { intros; apply D; auto; lia. }
      split.
      + intros j H. destruct (Nat.eq_dec j n) as [->|N]; [apply store_same|].
        rewrite store_other; [apply I1; lia|]. left. intros E. apply N, D; auto; lia.
      + intros r k H. rewrite store_other; [|destruct H as [H|H]; [now right|left; intros ->; apply (H n); auto]].
        apply I2. destruct H as [H|H]; [now left|right; intros; apply H; lia].
  Qed.

  Lemma visit_leaf_spec u v m :
    (forall j j', j < dg_size v -> j' < dg_size v -> dg_index v j = dg_index v j' -> j = j') ->
    (forall r k, (forall j, j < dg_size v -> dg_index v j <> r) -> visit_leaf u v m r k = m r k) /\
    (forall r k, (forall i, i < length (shapes u) -> cg_index u i <> k) -> visit_leaf u v m r k = m r k) /\
    ((forall i i', i < length (shapes u) -> i' < length (shapes u) -> cg_index u i = cg_index u i' -> i = i') ->
      forall i j, i < length (shapes u) -> j < dg_size v ->
        visit_leaf u v m (dg_index v j) (cg_index u i) = nth j (interpolate v (nth i (shapes u) (fun _ => 0%R))) 0%R).
  Proof.
    intros D. unfold visit_leaf.
    set (F := fun (m : matrix) i => fold_left (fun m j => store m (dg_index v j) (cg_index u i)
            (nth j (interpolate v (nth i (shapes u) (fun _ => 0%R))) 0%R)) (seq 0 (dg_size v)) m).
    change (fold_left _ (seq 0 (length (shapes u))) m) with (fold_left F (seq 0 (length (shapes u))) m).
    generalize (length (shapes u)) as n. induction n as [|n (I1 & I2 & I3)].
    - cbn. repeat split; auto. intros; lia.
    - rewrite seq_S, fold_left_app. cbn [fold_left Nat.add].
      destruct (column v (interpolate v (nth n (shapes u) (fun _ => 0%R))) (cg_index u n) (dg_size v) (fold_left F (seq 0 n) m) D) as [C1 C2].
      repeat split.
      + intros r k H. unfold F at 1. rewrite C2 by now right. now apply I1.
      + intros r k H. unfold F at 1. rewrite C2; [apply I2; intros; apply H; lia|]. left. intros ->. apply (H n); auto.
      + intros E i j Hi Hj. destruct (Nat.eq_dec i n) as [->|N].
        * unfold F at 1. now apply C1.
        * unfold F at 1. rewrite C2; [apply I3; auto; try lia; intros; apply E; auto; lia|].
          left. intros Q. apply N, E; auto; lia.
  Qed.

  Lemma leaf_same {L M} (t : tree L) : forall (t' : tree M), same_shape t t' -> forall p l, leaf_at t' p = Some l -> exists k, leaf_at t p = Some k.
  Proof.
    induction t as [l|ts IH] using tree_ind'; intros t' S p k H; inversion S; subst.
    - destruct p; cbn in *; [eauto|discriminate].
    - destruct p as [|a p]; [discriminate|]. cbn in *. clear S. revert a H.
      match goal with F : Forall2 _ _ _ |- _ => induction F as [|x y xs ys HS F IHF]; intros a H end.
      + now destruct a.
      + destruct a; cbn in *; [eapply (Forall_inv IH); eauto|]. apply IHF; auto. now apply Forall_inv_tail in IH.
  Qed.

  Definition rows_distinct (t : tree (dg_leaf X)) : Prop := forall p p' v v' j j', leaf_at t p = Some v -> leaf_at t p' = Some v' ->
    j < dg_size v -> j' < dg_size v' -> dg_index v j = dg_index v' j' -> p = p' /\ j = j'.
  Definition row_free (t : tree (dg_leaf X)) (r : nat) : Prop := forall p v j, leaf_at t p = Some v -> j < dg_size v -> dg_index v j <> r.

  Lemma visit_pair_spec (t : tree (cg_leaf X)) : forall (s : tree (dg_leaf X)) m, same_shape t s -> rows_distinct s ->
    exists m', visit_pair t s m = Some m' /\
      (forall r k, row_free s r -> m' r k = m r k) /\
      (forall p u v, leaf_at t p = Some u -> leaf_at s p = Some v ->
        (forall i i', i < length (shapes u) -> i' < length (shapes u) -> cg_index u i = cg_index u i' -> i = i') ->
        forall j, j < dg_size v ->
          (forall i, i < length (shapes u) -> m' (dg_index v j) (cg_index u i) = nth j (interpolate v (nth i (shapes u) (fun _ => 0%R))) 0%R) /\
          (forall k, (forall i, i < length (shapes u) -> cg_index u i <> k) -> m' (dg_index v j) k = m (dg_index v j) k)).
  Proof.
    induction t as [u|us IH] using tree_ind'; intros s m S D; inversion S as [u' v|us' vs F]; subst.
    - exists (visit_leaf u v m). split; [reflexivity|].
      assert (DV : forall j j', j < dg_size v -> j' < dg_size v -> dg_index v j = dg_index v j' -> j = j').
      { intros j j' A B E. now apply (D [] [] v v j j' eq_refl eq_refl A B E). }
      destruct (visit_leaf_spec u v m DV) as (V1 & V2 & V3). split.
      + intros r k H. apply V1. intros j J. now apply (H [] v j eq_refl).
      + intros p u1 v1 E1 E2 DU j J. destruct p; [|discriminate]. cbn in E1, E2. inversion E1; inversion E2; subst. split; auto.
    - cbn [visit_pair]. clear S. revert m D. induction F as [|a b us vs HS F IHF]; intros m D.
      + exists m. split; [reflexivity|]. split; auto. intros p u v E. destruct p; [discriminate|]. cbn in E. destruct n; discriminate.
      + assert (DB : rows_distinct b).
        { intros p p' v v' j j' E E' J J' Q. destruct (D (0 :: p) (0 :: p') v v' j j' E E' J J' Q) as [A ->]. split; congruence. }
        assert (DS : rows_distinct (Node vs)).
        { intros p p' v v' j j' E E' J J' Q. destruct p as [|k p]; [discriminate|]. destruct p' as [|k' p']; [discriminate|].
          destruct (D (S k :: p) (S k' :: p') v v' j j' E E' J J' Q) as [A ->]. split; congruence. }
        destruct (Forall_inv IH b m HS DB) as (m1 & E1 & P1 & P2). rewrite E1.
        destruct (IHF (Forall_inv_tail IH) m1 DS) as (m2 & E2 & R1 & R2). exists m2. split; [exact E2|]. split.
        * intros r k H. rewrite R1, P1; auto.
          -- intros p v j E J. exact (H (0 :: p) v j E J).
          -- intros p v j E J. destruct p as [|c p]; [discriminate|]. exact (H (S c :: p) v j E J).
        * intros p u v Eu Ev DU j J. destruct p as [|[|c] p]; [discriminate| |].
          -- cbn in Eu, Ev. destruct (P2 p u v Eu Ev DU j J) as [A B].
             assert (FR : row_free (Node vs) (dg_index v j)).
             { intros p' v' j' E' J' Q. destruct p' as [|c' p']; [discriminate|].
               destruct (D (S c' :: p') (0 :: p) v' v j' j E' Ev J' J Q). discriminate. }
             split; intros; rewrite R1; auto.
          -- destruct (R2 (c :: p) u v Eu Ev DU j J) as [A B]. split; auto.
             intros k K. rewrite B by auto. apply P1. intros p' v' j' E' J' Q.
             destruct (D (0 :: p') (S c :: p) v' v j' j E' Ev J' J Q). discriminate.
  Qed.

  (** ** Sums *)
  Lemma rsum_pick_nat n k (f : nat -> R) : k < n -> rsum (fun i => if k =? i then f i else 0%R) (seq 0 n) = f k.
  Proof.
    intros H. rewrite (rsum_one (fun i => if k =? i then f i else 0%R) k) ; [now rewrite Nat.eqb_refl|apply seq_NoDup|now apply seq_in|].
    intros i _ N. destruct (Nat.eqb_spec k i); congruence.
  Qed.

  Lemma rsum_index n m (idx : nat -> nat) (g : nat -> R) :
    (forall i, i < m -> idx i < n) -> (forall i i', i < m -> i' < m -> idx i = idx i' -> i = i') ->
    (forall k, k < n -> (forall i, i < m -> idx i <> k) -> g k = 0%R) ->
    rsum g (seq 0 n) = rsum (fun i => g (idx i)) (seq 0 m).
  Proof.
    intros Rg Inj Z.
    rewrite (rsum_ext _ (fun i => rsum (fun k => if idx i =? k then g k else 0%R) (seq 0 n)) (seq 0 m)).
    2: { intros i Hi. apply seq_in in Hi. now rewrite rsum_pick_nat by auto. }
    rewrite rsum_swap. apply rsum_ext. intros k Hk. apply seq_in in Hk.
    assert (DEC : forall m', m' <= m -> (exists i, i < m' /\ idx i = k) \/ (forall i, i < m' -> idx i <> k)).
    { induction m' as [|m' IH]; intros L; [right; intros; lia|]. destruct IH as [(i & A & B)|N]; [lia|left; exists i; split; [lia|auto]|].
      destruct (Nat.eq_dec (idx m') k) as [E|E]; [left; exists m'; split; [lia|auto]|right].
      intros i Hi. destruct (Nat.eq_dec i m') as [->|]; [auto|apply N; lia]. }
    destruct (DEC m (le_n m)) as [(i & A & B)|N].
    - rewrite (rsum_one _ i); [now rewrite B, Nat.eqb_refl|apply seq_NoDup|now apply seq_in|].
      intros i' Hi' N. apply seq_in in Hi'. destruct (Nat.eqb_spec (idx i') k) as [E|]; auto. exfalso. apply N, Inj; auto. congruence.
    - rewrite Z by auto. symmetry. apply rsum_zero. intros i Hi. apply seq_in in Hi.
      now destruct (idx i =? k).
  Qed.

  (** ** The global matrix *)
  Lemma times_store P N w r c a row : c < N ->
    times (store P r c (P r c + a)%R) N w row = (times P N w row + (if r =? row then a * w c else 0))%R.
  Proof.
    intros H. unfold times.
    rewrite (rsum_ext _ (fun k => (P row k * w k + (if c =? k then (if r =? row then a * w k else 0) else 0))%R)).
    - rewrite rsum_plus. f_equal. rewrite rsum_pick_nat by auto. reflexivity.
    - intros k _. unfold store. destruct (Nat.eqb_spec row r) as [->|N1]; destruct (Nat.eqb_spec k c) as [->|N2]; cbn [andb];
        rewrite ?Nat.eqb_refl; try (destruct (Nat.eqb_spec c k); [congruence|]); try (destruct (Nat.eqb_spec r row); [congruence|]); lra.
  Qed.

  Lemma times_row N w row (g : nat -> nat) r (a : nat -> R) n : forall P, (forall k, k < n -> g k < N) ->
    times (fold_left (fun P k => store P r (g k) (P r (g k) + a k)%R) (seq 0 n) P) N w row =
    (times P N w row + (if r =? row then rsum (fun k => a k * w (g k)) (seq 0 n) else 0))%R.
  Proof.
    induction n as [|n IH]; intros P H.
    - cbn. destruct (r =? row); lra.
    - rewrite seq_S, fold_left_app. cbn [fold_left Nat.add]. rewrite times_store by auto. rewrite IH by auto.
      rewrite rsum_app. cbn [rsum fold_right]. destruct (r =? row); lra.
  Qed.

  Lemma times_block N w row (g h : nat -> nat) (m : matrix) n k : forall P, (forall c, c < k -> g c < N) ->
    times (fold_left (fun P r => fold_left (fun P c => store P (h r) (g c) (P (h r) (g c) + m r c)%R) (seq 0 k) P) (seq 0 n) P) N w row =
    (times P N w row + rsum (fun r => if h r =? row then rsum (fun c => m r c * w (g c)) (seq 0 k) else 0) (seq 0 n))%R.
  Proof.
    induction n as [|n IH]; intros P H.
    - cbn. lra.
    - rewrite seq_S, fold_left_app. cbn [fold_left Nat.add]. rewrite times_row by auto. rewrite IH by auto.
      rewrite rsum_app. cbn [rsum fold_right]. lra.
  Qed.

  (** What one cell adds to a row of the product. *)
  Definition contribution (w : nat -> R) (row : nat) (c : pcell X) : R :=
    match visit_pair (cg_tree c) (dg_tree c) (fun _ _ => 0%R) with
    | Some m => rsum (fun r => if dg_global c r =? row then rsum (fun k => m r k * w (cg_global c k))%R (seq 0 (cg_local c)) else 0%R) (seq 0 (dg_local c))
    | None => 0%R
    end.

  Lemma cell_visit c : cell_ok c -> exists m, visit_pair (cg_tree c) (dg_tree c) (fun _ _ => 0%R) = Some m /\
    forall p u v j, leaf_at (cg_tree c) p = Some u -> leaf_at (dg_tree c) p = Some v -> j < dg_size v ->
      forall w, rsum (fun k => m (dg_index v j) k * w k)%R (seq 0 (cg_local c)) =
        rsum (fun i => nth j (interpolate v (nth i (shapes u) (fun _ => 0%R))) 0 * w (cg_index u i))%R (seq 0 (length (shapes u))).
  Proof.
    intros O. destruct (visit_pair_spec (cg_tree c) (dg_tree c) (fun _ _ => 0%R) (same_trees c O) (dg_distinct c O)) as (m & E & _ & H).
    exists m. split; [exact E|]. intros p u v j Eu Ev J w.
    destruct (H p u v Eu Ev (fun i i' => cg_distinct c O p u i i' Eu) j J) as [A B].
    rewrite (rsum_index (cg_local c) (length (shapes u)) (cg_index u)).
    - apply rsum_ext. intros i Hi. apply seq_in in Hi. now rewrite A.
    - intros i Hi. now apply (cg_range c O p u).
    - intros i i' Hi Hi'. now apply (cg_distinct c O p u).
    - intros k _ Hk. rewrite B by auto. lra.
  Qed.

  Lemma prolongation_fold w row N cells : forall P0,
    (forall c, In c cells -> cell_ok c /\ forall k, k < cg_local c -> cg_global c k < N) ->
    exists P, fold_left (fun P c => match P with Some P => add_cell P c | None => None end) cells (Some P0) = Some P /\
      times P N w row = (times P0 N w row + rsum (contribution w row) cells)%R.
  Proof.
    induction cells as [|c cells IH]; intros P0 H; cbn [fold_left].
    - exists P0. split; auto. cbn. lra.
    - destruct (H c (or_introl eq_refl)) as [O G]. destruct (cell_visit c O) as (m & E & _).
      unfold add_cell at 2. rewrite E.
      match goal with |- context [Some (fold_left ?f ?l P0)] => destruct (IH (fold_left f l P0)) as (P & E1 & E2) end.
      { intros d Hd. apply H. now right. }
      exists P. split; [exact E1|]. rewrite E2, times_block by auto. rewrite rsum_cons. unfold contribution at 2. rewrite E. lra.
  Qed.

  (** The matrix does not depend on the row or the vector looked at. *)
  Lemma prolongation_total N cells :
    (forall c, In c cells -> cell_ok c /\ forall k, k < cg_local c -> cg_global c k < N) ->
    exists P, prolongation cells = Some P /\ forall w row, times P N w row = rsum (contribution w row) cells.
  Proof.
    intros H. destruct (prolongation_fold (fun _ => 0%R) 0 N cells (fun _ _ => 0%R) H) as (P & E & _).
    exists P. split; [exact E|]. intros w row. destruct (prolongation_fold w row N cells (fun _ _ => 0%R) H) as (P' & E' & T).
    rewrite E in E'. inversion E'; subst P'. rewrite T. unfold times. rewrite rsum_zero; [lra|]. intros; lra.
  Qed.

  Lemma rsum_nth_one {B} (f : B -> R) l : forall a x, nth_error l a = Some x -> (forall b y, nth_error l b = Some y -> b <> a -> f y = 0%R) -> rsum f l = f x.
  Proof.
    induction l as [|z l IH]; intros a x E Z; [now destruct a|]. rewrite rsum_cons. destruct a as [|a].
    - cbn in E. inversion E; subst. rewrite rsum_zero; [lra|]. intros y Hy. apply In_nth_error in Hy as [b Hb]. apply (Z (S b) y Hb). lia.
    - cbn in E. rewrite (Z 0 z eq_refl) by lia. rewrite (IH a x E); [lra|]. intros b y Hb N. apply (Z (S b) y Hb). lia.
  Qed.

  Lemma interpolate_sum (I : (X -> R) -> list R) (fs : nat -> X -> R) (a : nat -> R) j n : linear_interpolation I ->
    nth j (I (fun x => rsum (fun i => a i * fs i x)%R (seq 0 n))) 0%R = rsum (fun i => nth j (I (fs i)) 0 * a i)%R (seq 0 n).
  Proof.
    intros (E & Z & Li). induction n as [|n IH]; [apply Z|].
    rewrite seq_S, rsum_app. cbn [rsum fold_right Nat.add].
    rewrite (E _ (fun x => a n * fs n x + (fun x => rsum (fun i => a i * fs i x) (seq 0 n)) x)%R).
    - rewrite Li, IH. lra.
    - intros x. rewrite rsum_app. cbn [rsum fold_right]. lra.
  Qed.

  Theorem prolongation_interpolates N cells :
    (forall c, In c cells -> cell_ok c) -> (forall c k, In c cells -> k < cg_local c -> cg_global c k < N) -> dg_numbering cells ->
    exists P, prolongation cells = Some P /\
      forall w c p u v j, In c cells -> leaf_at (cg_tree c) p = Some u -> leaf_at (dg_tree c) p = Some v -> j < dg_size v ->
        times P N w (dg_global c (dg_index v j)) = nth j (interpolate v (cg_value w c u)) 0%R.
  Proof.
    intros O G D. destruct (prolongation_total N cells) as (P & E & T). { intros c H. split; auto. }
    exists P. split; [exact E|]. intros w c p u v j Hc Eu Ev J. rewrite T.
    pose proof (O c Hc) as Oc. pose proof (dg_range c Oc p v j Ev J) as Rj.
    apply In_nth_error in Hc as [a Ha].
    rewrite (rsum_nth_one _ cells a c Ha).
    - destruct (cell_visit c Oc) as (m & Em & Hm). unfold contribution. rewrite Em.
      rewrite (rsum_one _ (dg_index v j)); [|apply seq_NoDup|now apply seq_in|].
      + rewrite Nat.eqb_refl. rewrite (Hm p u v j Eu Ev J (fun k => w (cg_global c k))).
        symmetry. unfold cg_value. apply (interpolate_sum (interpolate v) (fun i => nth i (shapes u) (fun _ => 0%R)) (fun i => w (cg_global c (cg_index u i)))).
        exact (dg_linear c Oc p v Ev).
      + intros r Hr N1. apply seq_in in Hr. destruct (Nat.eqb_spec (dg_global c r) (dg_global c (dg_index v j))) as [Q|]; auto.
        destruct (D a a c c r (dg_index v j) Ha Ha Hr Rj Q). congruence.
    - intros b d Hb N1. unfold contribution. destruct (visit_pair _ _ _); auto. apply rsum_zero. intros r Hr. apply seq_in in Hr.
      destruct (Nat.eqb_spec (dg_global d r) (dg_global c (dg_index v j))) as [Q|]; auto.
      destruct (D b a d c r (dg_index v j) Hb Ha Hr Rj Q). congruence.
  Qed.

  Theorem prolongation_embeds N cells :
    (forall c, In c cells -> cell_ok c) -> (forall c k, In c cells -> k < cg_local c -> cg_global c k < N) -> dg_numbering cells ->
    forall P c p u v (psi : nat -> X -> R), prolongation cells = Some P -> In c cells ->
      leaf_at (cg_tree c) p = Some u -> leaf_at (dg_tree c) p = Some v ->
      (forall s x, In s (shapes u) -> s x = rsum (fun j => nth j (interpolate v s) 0 * psi j x)%R (seq 0 (dg_size v))) ->
      forall w x, dg_value (times P N w) c v psi x = cg_value w c u x.
  Proof.
    intros O G D P c p u v psi E Hc Eu Ev Rep w x.
    destruct (prolongation_interpolates N cells O G D) as (P' & E' & H). rewrite E in E'. inversion E'; subst P'.
    unfold dg_value.
    rewrite (rsum_ext _ (fun j => rsum (fun i => (nth j (interpolate v (nth i (shapes u) (fun _ => 0))) 0 * w (cg_global c (cg_index u i))) * psi j x)%R (seq 0 (length (shapes u))))).
    - rewrite rsum_swap. unfold cg_value. apply rsum_ext. intros i Hi. apply seq_in in Hi.
      rewrite (Rep (nth i (shapes u) (fun _ => 0%R)) x) by now apply nth_In. rewrite <- rsum_scale. apply rsum_ext. intros; lra.
    - intros j Hj. apply seq_in in Hj. rewrite (H w c p u v j Hc Eu Ev Hj). unfold cg_value.
      rewrite (interpolate_sum (interpolate v) (fun i => nth i (shapes u) (fun _ => 0%R)) (fun i => w (cg_global c (cg_index u i)))).
      + rewrite Rmult_comm, <- rsum_scale. apply rsum_ext. intros; lra.
      + exact (dg_linear c (O c Hc) p v Ev).
  Qed.
End prolongation.
