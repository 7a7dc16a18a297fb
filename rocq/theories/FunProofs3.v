(** Derivatives of discrete grid functions. *)
From Coq Require Import Reals Lra.
From Verif Require Import Common CommonFacts LfsModel LfsSpec LfsProofs FunModel FunSpec FunProofs FunProofs2.

Lemma rsum_S n f : rsum (S n) f = (rsum n f + f n)%R.
Proof.
  unfold rsum. rewrite seq_S, map_app. cbn [map Nat.add]. induction (map f (seq 0 n)) as [|x l IH]; cbn; [lra|]. rewrite IH. lra.
Qed.
Lemma rsum_ext n f g : (forall i, i < n -> f i = g i) -> rsum n f = rsum n g.
Proof. intros H. induction n as [|n IH]; [reflexivity|]. rewrite !rsum_S, IH, H by (intros; try apply H; lia). reflexivity. Qed.
Lemma rsum_plus n f g : rsum n (fun i => f i + g i)%R = (rsum n f + rsum n g)%R.
Proof. induction n as [|n IH]; [unfold rsum; cbn; lra|]. rewrite !rsum_S, IH. lra. Qed.
Lemma rsum_scal n c f : rsum n (fun i => c * f i)%R = (c * rsum n f)%R.
Proof. induction n as [|n IH]; [unfold rsum; cbn; lra|]. rewrite !rsum_S, IH. lra. Qed.
Lemma rsum_scal_r n c f : rsum n (fun i => f i * c)%R = (rsum n f * c)%R.
Proof. induction n as [|n IH]; [unfold rsum; cbn; lra|]. rewrite !rsum_S, IH. lra. Qed.
Lemma rsum_zero n : rsum n (fun _ => 0%R) = 0%R.
Proof. induction n as [|n IH]; [reflexivity|]. rewrite rsum_S, IH. lra. Qed.
Lemma rsum_swap n m f : rsum n (fun i => rsum m (fun j => f i j)) = rsum m (fun j => rsum n (fun i => f i j)).
Proof.
  induction n as [|n IH]; [unfold rsum at 1; cbn; symmetry; apply rsum_zero|]. rewrite rsum_S, IH, <- rsum_plus.
  apply rsum_ext. intros j _. rewrite rsum_S. reflexivity.
Qed.
Lemma rsum_delta n f i : i < n -> rsum n (fun j => delta i j * f j)%R = f i.
Proof.
  induction n as [|n IH]; intros Hi; [lia|]. rewrite rsum_S. destruct (Nat.eq_dec i n) as [->|N].
  - unfold delta at 2. rewrite Nat.eqb_refl. rewrite (rsum_ext n _ (fun _ => 0%R)), rsum_zero; [lra|].
    intros j Hj. unfold delta. destruct (n =? j) eqn:E; [apply Nat.eqb_eq in E; lia|lra].
  - rewrite IH by lia. unfold delta. destruct (i =? n) eqn:E; [apply Nat.eqb_eq in E; lia|lra].
Qed.
Lemma fold_rsum f n : fold_left (fun s j => (s + f j)%R) (seq 0 n) 0%R = rsum n f.
Proof. induction n as [|n IH]; [reflexivity|]. rewrite seq_S, fold_left_app, IH, rsum_S. reflexivity. Qed.
Lemma umv_rsum dim M t k : umv dim M t k = rsum dim (fun j => M k j * t j)%R.
Proof. apply fold_rsum. Qed.

(** ** Linear combinations *)
Lemma combination_rsum cs vs r : length cs = length vs ->
  combination cs vs r = rsum (length vs) (fun i => nth i cs 0 * nth i vs (fun _ => 0%R) r)%R.
Proof.
  revert cs. induction vs as [|v vs IH]; intros [|c cs] L; try discriminate; [reflexivity|]. rewrite combination_cons, IH by (cbn in L; lia).
  unfold rsum. cbn [length seq map fold_right nth]. f_equal. rewrite <- seq_shift, map_map. reflexivity.
Qed.
Lemma combination_map {V} (cs : list R) (vs : list V) (f g : V -> nat -> R) r r' c :
  (forall v, f v r = c * g v r')%R -> combination cs (map f vs) r = (c * combination cs (map g vs) r')%R.
Proof.
  intros H. revert vs. induction cs as [|a cs IH]; intros [|v vs]; try (unfold combination; cbn; lra). cbn [map]. rewrite !combination_cons, IH, H. lra.
Qed.

(** ** Directional derivatives *)
Lemma deriv_sum n (F : nat -> R -> R) (D : nat -> R) : (forall i, i < n -> derivable_pt_lim (F i) 0 (D i)) ->
  derivable_pt_lim (fun s => rsum n (fun i => F i s)) 0 (rsum n D).
Proof.
  induction n as [|n IH]; intros H; [apply derivable_pt_lim_const|].
  intros eps He. pose proof (derivable_pt_lim_plus _ _ _ _ _ (IH (fun i Hi => H i (Nat.lt_lt_succ_r _ _ Hi))) (H n (Nat.lt_succ_diag_r n))) as P.
  destruct (P eps He) as (del & Hd). exists del. intros h H1 H2. rewrite !rsum_S. exact (Hd h H1 H2).
Qed.

Lemma pushed dim J IT t v : inverse_transposed dim J IT ->
  rsum dim (fun k => umv dim IT t k * mapped dim J v k)%R = rsum dim (fun j => t j * v j)%R.
Proof.
  intros Inv. transitivity (rsum dim (fun k => rsum dim (fun l => rsum dim (fun j => (J k j * IT k l) * (t l * v j))))%R).
  - apply rsum_ext. intros k _. rewrite umv_rsum. unfold mapped. rewrite <- rsum_scal_r. apply rsum_ext. intros l _. rewrite <- rsum_scal. apply rsum_ext. intros j _. lra.
  - rewrite rsum_swap. rewrite (rsum_ext dim _ (fun l => rsum dim (fun j => delta j l * (t l * v j))%R)).
    + apply rsum_ext. intros l Hl. rewrite (rsum_ext dim _ (fun j => delta l j * (t l * v j))%R).
      * apply (rsum_delta dim (fun j => t l * v j)%R l Hl).
      * intros j _. unfold delta. rewrite Nat.eqb_sym. reflexivity.
    + intros l Hl. rewrite rsum_swap. apply rsum_ext. intros j Hj. rewrite rsum_scal_r, (Inv j l Hj Hl). reflexivity.
Qed.

Lemma directional dim F p v J IT cs n : inverse_transposed dim J IT -> differentiable dim F p -> length cs = n ->
  (forall q, length (values F q) = n) -> length (jacobians F p) = n ->
  derivable_pt_lim (fun s => combination cs (values F (along p v s)) 0) 0
    (rsum dim (fun k => combination cs (map (fun j => umv dim IT (j 0%nat)) (jacobians F p)) k * mapped dim J v k)%R).
Proof.
  intros Inv Df L Lv Lj.
  set (z := fun (_ _ : nat) => 0%R).
  assert (E : rsum dim (fun k => combination cs (map (fun j => umv dim IT (j 0%nat)) (jacobians F p)) k * mapped dim J v k)%R =
              rsum n (fun i => nth i cs 0 * rsum dim (fun j => nth i (jacobians F p) z 0%nat j * v j))%R).
  { rewrite (rsum_ext dim _ (fun k => rsum n (fun i => nth i cs 0 * (umv dim IT (nth i (jacobians F p) z 0%nat) k * mapped dim J v k)))%R).
    - rewrite rsum_swap. apply rsum_ext. intros i _. rewrite rsum_scal, (pushed dim J IT _ v Inv). reflexivity.
    - intros k _. rewrite combination_rsum, map_length, Lj, <- rsum_scal_r by (rewrite map_length; lia). apply rsum_ext. intros i Hi.
      rewrite (nth_indep _ (fun _ => 0%R) (umv dim IT (z 0))) by (rewrite map_length; lia). rewrite (map_nth (fun j => umv dim IT (j 0))). lra. }
  rewrite E. clear E.
  assert (P : derivable_pt_lim (fun s => rsum n (fun i => nth i cs 0 * nth i (values F (along p v s)) (fun _ => 0) 0%nat))%R 0
                (rsum n (fun i => nth i cs 0 * rsum dim (fun j => nth i (jacobians F p) z 0%nat j * v j))%R)).
  { apply (deriv_sum n (fun i s => nth i cs 0 * nth i (values F (along p v s)) (fun _ => 0) 0%nat)%R). intros i Hi.
    apply derivable_pt_lim_scal. apply Df. apply nth_error_nth'. lia. }
  intros eps He. destruct (P eps He) as (del & Hd). exists del. intros h H1 H2. specialize (Hd h H1 H2).
  rewrite !(combination_rsum cs) by (rewrite Lv; lia). rewrite !Lv. exact Hd.
Qed.

(** ** Gradients *)
Lemma resize_length n xl : length (resize n xl) = n.
Proof. unfold resize. rewrite app_length, firstn_length, repeat_length. lia. Qed.

Lemma gradient_ok fem dim IT t room x e p st o n fm : t = Leaf o n fm -> ready fem t room e -> inside (fm e) = true -> reached t room (fst st) ->
  exists st' y, gradient fem dim IT x e p st = Ok (st', y) /\ reached t room (fst st') /\
    forall k, y k = combination (coeffs x (mkleaf [] o n fm) e) (map (fun J => umv dim (IT e p) (J 0%nat)) (jacobians (fem [] e) p)) k.
Proof.
  intros Et Rd In1 Rc. destruct st as ((t1, a1), xl). cbn [fst] in Rc. destruct (reached_inv _ _ _ Rc) as (S & La). cbn [fst snd] in *.
  destruct (bind_ready fem t room e t1 a1 Rd S La) as (rest & B & L2 & S2 & L3 & G). unfold gradient. rewrite B. cbn [bind fst snd].
  pose proof (resize_length (size (bound_tree e t)) xl) as Lr. remember (resize (size (bound_tree e t)) xl) as xr.
  rewrite <- L3, read_ok by lia. cbn [bind].
  pose proof (loaded_map fem x e (bound_tree e t) _ rest (skipn (length (names e (leaves (bound_tree e t)))) xr) G L3 (tree_bounds e t)) as Lo.
  assert (Rc' : reached t room (bound_tree e t, names e (leaves (bound_tree e t)) ++ rest)) by (eapply Rebound; [exact Rc|exact B]).
  remember (names e (leaves (bound_tree e t)) ++ rest) as a2. remember (map x (names e (leaves (bound_tree e t))) ++ skipn (length (names e (leaves (bound_tree e t)))) xr) as x2.
  clear Heqx2 Heqa2 B L3 G L2. subst t. unfold bound_tree in *. cbn [compute fst] in *. unfold finite_element. rewrite In1. cbn [bind].
  destruct (Lo (mkleaf [] 0 (leaf_size false (fm e)) fm) (or_introl eq_refl) In1) as (L1 & L2). cbn [start len] in *.
  destruct Rd as (C & _ & D). destruct (D _ (or_introl eq_refl) In1) as (_ & _ & _ & D4). cbn [path fe] in D4. specialize (D4 p).
  specialize (C _ (or_introl eq_refl) In1). cbn [fe] in C. unfold leaf_size in *. rewrite In1 in *.
  destruct (axpy_n_ok 0 (basis (fm e)) x2 (coeffs x (mkleaf [] o n fm) e) (jacobians (fem [] e) p) (fun J => umv dim (IT e p) (J 0%nat))) as (y & Y & E).
  - unfold coeffs. rewrite map_length. cbn [fe]. lia.
  - exact D4.
  - intros i Hi. apply L2, Hi.
  - rewrite Y. cbn [bind]. eexists; eexists; split; [reflexivity|]. split; [exact Rc'|]. intros k. rewrite E. lra.
Qed.

(** Row k of the Jacobian of a vector-valued function, as VectorDiscreteGridFunctionGradient computes it. *)
Definition row fem dim IT (x : vec) (l : leaf) (e : nat) (p : point) (k j : nat) : R :=
  combination (coeffs x l e) (map (fun J => umv dim (IT e p) (J 0%nat)) (jacobians (fem [k] e) p)) j.

Lemma vgradient_ok fem dim IT t room N x e p st : children t N -> ready fem t room e -> usable t room st ->
  (forall l, In l (leaves t) -> inside (fe l e) = true) ->
  exists st' y, vgradient fem dim IT x e p st = Ok (st', y) /\ usable t room st' /\ length y = N /\
    forall k v l, nth_error y k = Some v -> nth_error (leaves t) k = Some l -> forall j, v j = row fem dim IT x l e p k j.
Proof.
  intros Ch Rd U Hin. destruct (load_ok fem t room e x st Rd U) as (st' & Ld & U' & Tr & Lo). unfold vgradient. rewrite Ld. cbn [bind]. rewrite Tr.
  rewrite (children_degree _ _ (children_bound e t N Ch)).
  destruct (foldM_list (fun k => let* (o, n, fm) := child (bound_tree e t) k in let* fe := finite_element fem [k] e fm in
      axpy_n o n (snd st') (jacobians fe p) (fun J => umv dim (IT e p) (J 0%nat)))
    (fun k v => forall l, nth_error (leaves t) k = Some l -> forall j, v j = row fem dim IT x l e p k j) N 0 []) as (y & F & L & Q).
  - intros k Hk. destruct (child_leaf t N k Ch ltac:(lia)) as (l & Nl & _ & Il & _). specialize (Hin l Il).
    destruct (child_ok fem t room e x (snd st') N k l Rd Ch Lo Nl ltac:(lia) Hin) as (o & n & Ec & Pl & Ln & _ & Xl & _ & Lj). rewrite Ec. cbn [bind].
    unfold finite_element. rewrite Hin. cbn [bind].
    destruct (axpy_n_ok o n (snd st') (coeffs x l e) (jacobians (fem [k] e) p) (fun J => umv dim (IT e p) (J 0%nat))) as (v & V & E); [rewrite Lj; lia|apply Lj|exact Xl|].
    rewrite V. eexists. split; [reflexivity|]. intros l' N'. rewrite Nl in N'. injection N' as <-. intros j. unfold row. apply E.
  - cbn [app] in F. exists st', y. split; [|split; [exact U'|split; [exact L|]]].
    + rewrite (fold_ext _ (fun y j => let* v := (let* (o, n, fm) := child (bound_tree e t) j in let* fe := finite_element fem [j] e fm in
         axpy_n o n (snd st') (jacobians fe p) (fun J => umv dim (IT e p) (J 0%nat))) in Ok (y ++ [v]))).
      * rewrite F. reflexivity.
      * intros acc k. destruct (child (bound_tree e t) k) as [((o, n), fm)| |]; cbn [bind]; try reflexivity.
        destruct (finite_element fem [k] e fm); cbn [bind]; reflexivity.
    + intros k v l Nv Nl. apply (Q k v Nv l Nl).
Qed.

(** ** Sums over children *)
Lemma steps_ok {V} (xl : list R) (vs0 : list V) (o k : nat) (step : nat -> R -> V -> (nat -> R) -> (nat -> R)) (w : V -> nat -> R) :
  (forall c v y r, step k c v y r = y r + c * w v r)%R -> forall vs cs j y0,
  length cs = length vs -> (forall i, i < length vs -> nth_error xl (o + (j + i)) = nth_error cs i) -> (forall i, nth_error vs0 (j + i) = nth_error vs i) ->
  exists y, foldM (fun y i => match nth_error xl (o + i), nth_error vs0 i with
                              | Some c, Some v => Ok (step k c v y)
                              | _, _ => UB
                              end) (seq j (length vs)) y0 = Ok y /\ forall r, y r = (y0 r + combination cs (map w vs) r)%R.
Proof.
  intros St. induction vs as [|v vs IH]; intros [|c cs] j y0 L X V0; try discriminate.
  - exists y0. split; [reflexivity|]. intros r. rewrite combination_nil. lra.
  - cbn [length seq foldM]. pose proof (X 0 ltac:(cbn; lia)) as X0. pose proof (V0 0) as V1. rewrite Nat.add_0_r in X0, V1. rewrite X0, V1. cbn [nth_error bind].
    destruct (IH cs (S j) (step k c v y0)) as (y & F & E).
    + cbn in L. lia.
    + intros i Hi. replace (S j + i) with (j + S i) by lia. apply (X (S i)). cbn. lia.
    + intros i. replace (S j + i) with (j + S i) by lia. apply V0.
    + exists y. split; [exact F|]. intros r. rewrite E, St. cbn [map]. rewrite combination_cons. lra.
Qed.

Lemma over_children_ok fem t room N x e p st step (w : nat -> (nat -> R) -> nat -> R) :
  children t N -> ready fem t room e -> usable t room st -> (forall l, In l (leaves t) -> inside (fe l e) = true) ->
  (forall k c J y r, k < N -> step k c J y r = (y r + c * w k J r)%R) ->
  exists st' y, over_children fem x e p st step = Ok (st', y) /\ usable t room st' /\
    forall r, y r = rsum N (fun k => combination (coeffs x (nth k (leaves t) (mkleaf [] 0 0 (fun _ => mkfe true 0 0 0 0 []))) e)
                                       (map (fun J => w k (J 0%nat)) (jacobians (fem [k] e) p)) r).
Proof.
  intros Ch Rd U Hin St. destruct (load_ok fem t room e x st Rd U) as (st' & Ld & U' & Tr & Lo). unfold over_children. rewrite Ld. cbn [bind]. rewrite Tr.
  rewrite (children_degree _ _ (children_bound e t N Ch)).
  set (dl := mkleaf [] 0 0 (fun _ => mkfe true 0 0 0 0 [])).
  set (body := fun (y : nat -> R) (k : nat) => let* (o, n, fm) := child (bound_tree e t) k in let* fe := finite_element fem [k] e fm in
        foldM (fun y i => match nth_error (snd st') (o + i), nth_error (jacobians fe p) i with
                          | Some c, Some J => Ok (step k c (J 0%nat) y)
                          | _, _ => UB
                          end) (seq 0 n) y).
  assert (G : forall m, m <= N -> exists y, foldM body (seq 0 m) (fun _ => 0%R) = Ok y /\
     forall r, y r = rsum m (fun k => combination (coeffs x (nth k (leaves t) dl) e) (map (fun J => w k (J 0%nat)) (jacobians (fem [k] e) p)) r)).
  { induction m as [|m IH]; intros Hm; [exists (fun _ => 0%R); split; reflexivity|]. destruct (IH ltac:(lia)) as (y & F & E).
    rewrite seq_S, foldM_app, F. cbn [Nat.add bind foldM]. destruct (child_leaf t N m Ch ltac:(lia)) as (l & Nl & _ & Il & _). pose proof (Hin l Il) as In1.
    destruct (child_ok fem t room e x (snd st') N m l Rd Ch Lo Nl ltac:(lia) In1) as (o & n & Ec & Pl & Ln & _ & Xl & _ & Lj). unfold body at 1. rewrite Ec. cbn [bind].
    unfold finite_element. rewrite In1. cbn [bind].
    destruct (steps_ok (snd st') (jacobians (fem [m] e) p) o m (fun k c J y => step k c (J 0%nat) y) (fun J => w m (J 0%nat))
      (fun c v y r => St m c (v 0%nat) y r Hm) (jacobians (fem [m] e) p) (coeffs x l e) 0 y) as (y' & F' & E').
    - rewrite Lj. lia.
    - intros i Hi. rewrite Lj in Hi. apply Xl, Hi.
    - reflexivity.
    - rewrite Lj in F'. rewrite F'. cbn [bind]. exists y'. split; [reflexivity|]. intros r. rewrite E', E, rsum_S. rewrite (nth_error_nth _ _ dl Nl). reflexivity. }
  destruct (G N (le_n N)) as (y & F & E). rewrite F. cbn [bind]. exists st', y. auto.
Qed.

Lemma derivative_umv dim m M t k : k < dim -> (m = Diagonal -> forall i j, i < dim -> j < dim -> i <> j -> M i j = 0%R) ->
  compute_derivative dim m M t k = umv dim M t k.
Proof.
  intros Hk D. destruct m; [reflexivity|reflexivity|]. cbn. rewrite umv_rsum. specialize (D eq_refl).
  rewrite (rsum_ext dim _ (fun j => delta k j * (M k j * t j))%R).
  - symmetry. apply (rsum_delta dim (fun j => M k j * t j)%R k Hk).
  - intros j Hj. unfold delta. destruct (k =? j) eqn:E; [lra|]. apply Nat.eqb_neq in E. rewrite D by assumption. lra.
Qed.
