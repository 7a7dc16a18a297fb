(** Numerical Jacobians and their application. *)
From Coq Require Import FunctionalExtensionality Lra.
From Verif Require Import CommonFacts NumModel EngineSpec EngineProofs EngineProofs3 NumSpec.
Local Open Scope R_scope.

Lemma vset_shift x j h : vset x j (x j + h) = shifted x j h.
Proof. apply functional_extensionality. intros k. unfold vset, shifted. destruct (Nat.eqb_spec k j); subst; auto. Qed.
Lemma vset_back x j v : vset (vset x j v) j (x j) = x.
Proof. apply functional_extensionality. intros k. unfold vset. destruct (Nat.eqb_spec k j); subst; auto. Qed.
Lemma fresh_val w v i : fresh w v i = w * v i.
Proof. unfold fresh, vacc, vadd, vscal, vzero. ring. Qed.

Lemma fold_add_column f l j a g h : NoDup l ->
  fold_left (fun a i => add_entry a i j (f i)) l a g h =
  if (existsb (Nat.eqb g) l && (h =? j)%nat) then a g h + f g else a g h.
Proof.
  revert a; induction l as [|i l IH]; intros a N; cbn [fold_left existsb].
  - reflexivity.
  - apply NoDup_cons_iff in N as [Ni N]. rewrite IH by assumption. unfold add_entry.
    destruct (Nat.eqb_spec g i) as [->|E]; cbn.
    + assert (existsb (Nat.eqb i) l = false) as ->.
      { destruct (existsb _ l) eqn:X; auto. apply existsb_exists in X as (y & Hy & Ey). apply Nat.eqb_eq in Ey; subst. contradiction. }
      cbn. destruct (h =? j)%nat; auto.
    + reflexivity.
Qed.
Lemma existsb_seq g m : existsb (Nat.eqb g) (seq 0 m) = (g <? m)%nat.
Proof.
  destruct (Nat.ltb_spec g m) as [H|H].
  - apply existsb_exists. exists g. rewrite in_seq, Nat.eqb_refl. split; auto; lia.
  - destruct (existsb _ _) eqn:X; auto. apply existsb_exists in X as (y & Hy & Ey).
    apply in_seq in Hy. apply Nat.eqb_eq in Ey. lia.
Qed.
Lemma raw_column_val m j v a g h :
  raw_column m j v a g h = if ((g <? m) && (h =? j))%nat then a g h + v g else a g h.
Proof. unfold raw_column. rewrite fold_add_column by apply seq_NoDup. now rewrite existsb_seq. Qed.
Lemma acc_column_val w m j v a g h :
  acc_column w m j v a g h = if ((g <? m) && (h =? j))%nat then a g h + w * v g else a g h.
Proof.
  unfold acc_column. rewrite (fold_add_column (fun i => w * v i)) by apply seq_NoDup. now rewrite existsb_seq.
Qed.
Lemma fold_add_vec f l y g : NoDup l ->
  fold_left (fun y i => add_coef y i (f i)) l y g = if existsb (Nat.eqb g) l then y g + f g else y g.
Proof.
  revert y; induction l as [|i l IH]; intros y N; cbn [fold_left existsb]; auto.
  apply NoDup_cons_iff in N as [Ni N]. rewrite IH by assumption. unfold add_coef.
  destruct (Nat.eqb_spec g i) as [->|E]; cbn; auto.
  assert (existsb (Nat.eqb i) l = false) as ->; auto.
  destruct (existsb _ l) eqn:X; auto. apply existsb_exists in X as (z & Hz & Ez). apply Nat.eqb_eq in Ez; subst. contradiction.
Qed.
Lemma raw_vector_val m v y g : raw_vector m v y g = if (g <? m)%nat then y g + v g else y g.
Proof. unfold raw_vector. rewrite fold_add_vec by apply seq_NoDup. now rewrite existsb_seq. Qed.
Lemma acc_vector_val w m v y g : acc_vector w m v y g = if (g <? m)%nat then y g + w * v g else y g.
Proof. unfold acc_vector. rewrite (fold_add_vec (fun i => w * v i)) by apply seq_NoDup. now rewrite existsb_seq. Qed.

(** A loop over columns that leaves the coefficients unchanged after each pass. *)
Lemma fold_columns {S} (F : vec * S -> nat -> vec * S) (x : vec) (g : nat -> S -> S) l :
  (forall j s, F (x, s) j = (x, g j s)) ->
  forall s, fold_left F l (x, s) = (x, fold_left (fun s j => g j s) l s).
Proof. induction l as [|j l IH]; intros H s; cbn; auto. rewrite H. now apply IH. Qed.

Lemma columns_val (f : nat -> vec) m n a g h :
  fold_left (fun a j => raw_column m j (f j) a) (seq 0 n) a g h =
  if ((g <? m) && (h <? n))%nat then a g h + f h g else a g h.
Proof.
  induction n as [|n IH]; [cbn; now rewrite Bool.andb_false_r|].
  rewrite seq_S, fold_left_app. cbn [fold_left Nat.add]. rewrite raw_column_val, IH.
  destruct (Nat.ltb_spec g m); cbn; auto.
  destruct (Nat.eqb_spec h n) as [->|E].
  - destruct (Nat.ltb_spec n n); [lia|]. destruct (Nat.ltb_spec n (S n)); [auto|lia].
  - destruct (Nat.ltb_spec h n), (Nat.ltb_spec h (S n)); auto; lia.
Qed.
Lemma acc_columns_val w (f : nat -> vec) m n a g h :
  fold_left (fun a j => acc_column w m j (f j) a) (seq 0 n) a g h =
  if ((g <? m) && (h <? n))%nat then a g h + w * f h g else a g h.
Proof.
  induction n as [|n IH]; [cbn; now rewrite Bool.andb_false_r|].
  rewrite seq_S, fold_left_app. cbn [fold_left Nat.add]. rewrite acc_column_val, IH.
  destruct (Nat.ltb_spec g m); cbn; auto.
  destruct (Nat.eqb_spec h n) as [->|E].
  - destruct (Nat.ltb_spec n n); [lia|]. destruct (Nat.ltb_spec n (S n)); [auto|lia].
  - destruct (Nat.ltb_spec h n), (Nat.ltb_spec h (S n)); auto; lia.
Qed.
Lemma raw_vectors_val (f : nat -> vec) m n y g :
  fold_left (fun y j => raw_vector m (f j) y) (seq 0 n) y g =
  if (g <? m)%nat then y g + nsum n (fun j => f j g) else y g.
Proof.
  induction n as [|n IH]; [cbn; destruct (g <? m)%nat; ring|].
  rewrite seq_S, fold_left_app. cbn [fold_left Nat.add nsum]. rewrite raw_vector_val, IH.
  destruct (g <? m)%nat; [ring|auto].
Qed.
Lemma acc_vectors_val w (f : nat -> vec) m n y g :
  fold_left (fun y j => acc_vector w m (f j) y) (seq 0 n) y g =
  if (g <? m)%nat then y g + w * nsum n (fun j => f j g) else y g.
Proof.
  induction n as [|n IH]; [cbn; destruct (g <? m)%nat; ring|].
  rewrite seq_S, fold_left_app. cbn [fold_left Nat.add nsum]. rewrite acc_vector_val, IH.
  destruct (g <? m)%nat; [ring|auto].
Qed.

(** The forward difference the code forms. *)
Definition forward (eps : R) (alpha : vec -> vec) (x : vec) (j : nat) : vec := fun i =>
  (alpha (shifted x j (step_width eps x j)) i - alpha x i) / step_width eps x j.

Lemma quotient_fresh w a b d i : quotient (fresh w a) (fresh w b) d i = w * ((a i - b i) / d).
Proof. unfold quotient. rewrite !fresh_val. unfold Rdiv. ring. Qed.

Lemma num_jacobian_val eps alpha m n w x a i j :
  num_jacobian eps alpha m n w x a i j =
  if ((i <? m) && (j <? n))%nat then a i j + w * forward eps alpha x j i else a i j.
Proof.
  unfold num_jacobian.
  rewrite (fold_columns _ x (fun j a => raw_column m j (fun i => w * forward eps alpha x j i) a)).
  - cbn [snd]. rewrite (columns_val (fun j i => w * forward eps alpha x j i)). reflexivity.
  - intros k s. cbv beta iota zeta. rewrite vset_back, vset_shift. f_equal.
    f_equal. apply functional_extensionality. intros q. apply quotient_fresh.
Qed.

Lemma num_apply_val eps alpha m n w x z y i :
  num_apply eps alpha m n w x z y i =
  if (i <? m)%nat then y i + nsum n (fun j => w * forward eps alpha x j i * z j) else y i.
Proof.
  unfold num_apply.
  rewrite (fold_columns _ x (fun j y => raw_vector m (fun i => w * forward eps alpha x j i * z j) y)).
  - cbn [snd]. rewrite (raw_vectors_val (fun j i => w * forward eps alpha x j i * z j)). reflexivity.
  - intros k s. cbv beta iota zeta. rewrite vset_back, vset_shift. f_equal.
    f_equal. apply functional_extensionality. intros q. now rewrite quotient_fresh.
Qed.

Lemma num_apply_boundary_val eps alpha m n w x y i :
  num_apply_boundary_linear eps alpha m n w x y i =
  if (i <? m)%nat then y i + nsum n (fun j => forward eps alpha x j i * x j) else y i.
Proof.
  change (num_apply_boundary_linear eps alpha m n w x y) with (num_apply eps alpha m n 1 x x y).
  rewrite num_apply_val. destruct (i <? m)%nat; auto. f_equal. apply nsum_ext. intros k _. ring.
Qed.

(** Skeleton differences: of the inside and the outside rows, in the inside and the outside coefficients. *)
Definition forward_s (pick : vec * vec -> vec) eps (alpha : vec -> vec -> vec * vec) xs xn j : vec :=
  forward eps (fun u => pick (alpha u xn)) xs j.
Definition forward_n (pick : vec * vec -> vec) eps (alpha : vec -> vec -> vec * vec) xs xn j : vec :=
  forward eps (fun u => pick (alpha xs u)) xn j.

Lemma quot_s (pick : vec * vec -> vec) eps alpha xs xn j :
  quotient (fresh 1 (pick (alpha (shifted xs j (step_width eps xs j)) xn))) (fresh 1 (pick (alpha xs xn))) (step_width eps xs j)
  = forward_s pick eps alpha xs xn j.
Proof. apply functional_extensionality. intros q. rewrite quotient_fresh. unfold forward_s, forward. ring. Qed.
Lemma quot_n (pick : vec * vec -> vec) eps alpha xs xn j :
  quotient (fresh 1 (pick (alpha xs (shifted xn j (step_width eps xn j))))) (fresh 1 (pick (alpha xs xn))) (step_width eps xn j)
  = forward_n pick eps alpha xs xn j.
Proof. apply functional_extensionality. intros q. rewrite quotient_fresh. unfold forward_n, forward. ring. Qed.

Lemma fold_blocks_s w ms mn (f f' : nat -> vec) l ss sn ns nn :
  fold_left (fun (b : blocks4) j => let '((a1, a2), (a3, a4)) := b in
     ((acc_column w ms j (f j) a1, a2), (acc_column w mn j (f' j) a3, a4))) l ((ss, sn), (ns, nn)) =
  ((fold_left (fun a j => acc_column w ms j (f j) a) l ss, sn), (fold_left (fun a j => acc_column w mn j (f' j) a) l ns, nn)).
Proof. revert ss ns; induction l as [|j l IH]; intros ss ns; cbn; auto. Qed.
Lemma fold_blocks_n w ms mn (f f' : nat -> vec) l ss sn ns nn :
  fold_left (fun (b : blocks4) j => let '((a1, a2), (a3, a4)) := b in
     ((a1, acc_column w ms j (f j) a2), (a3, acc_column w mn j (f' j) a4))) l ((ss, sn), (ns, nn)) =
  ((ss, fold_left (fun a j => acc_column w ms j (f j) a) l sn), (ns, fold_left (fun a j => acc_column w mn j (f' j) a) l nn)).
Proof. revert sn nn; induction l as [|j l IH]; intros sn nn; cbn; auto. Qed.

Lemma num_skeleton_val eps alpha ms mn ns nn w xs xn a b c d :
  let '((a', b'), (c', d')) := num_jacobian_skeleton eps alpha ms mn ns nn w xs xn ((a, b), (c, d)) in
  block_added ms ns a a' (fun i j => w * forward_s fst eps alpha xs xn j i) /\
  block_added ms nn b b' (fun i j => w * forward_n fst eps alpha xs xn j i) /\
  block_added mn ns c c' (fun i j => w * forward_s snd eps alpha xs xn j i) /\
  block_added mn nn d d' (fun i j => w * forward_n snd eps alpha xs xn j i).
Proof.
  unfold num_jacobian_skeleton.
  rewrite (fold_columns _ xs (fun j (b : blocks4) => let '((a1, a2), (a3, a4)) := b in
     ((acc_column w ms j (forward_s fst eps alpha xs xn j) a1, a2), (acc_column w mn j (forward_s snd eps alpha xs xn j) a3, a4)))).
  2: { intros k ((b1, b2), (b3, b4)). cbv beta iota zeta. rewrite vset_back, vset_shift, !(quot_s fst), !(quot_s snd). reflexivity. }
  rewrite fold_blocks_s.
  rewrite (fold_columns _ xn (fun j (b : blocks4) => let '((a1, a2), (a3, a4)) := b in
     ((a1, acc_column w ms j (forward_n fst eps alpha xs xn j) a2), (a3, acc_column w mn j (forward_n snd eps alpha xs xn j) a4)))).
  2: { intros k ((b1, b2), (b3, b4)). cbv beta iota zeta. rewrite vset_back, vset_shift, !(quot_n fst), !(quot_n snd). reflexivity. }
  rewrite fold_blocks_n. cbn [snd].
  split; [|split; [|split]]; intros i j; apply acc_columns_val.
Qed.

Lemma fold_pair (w : R) ms mn (f f' : nat -> vec) l ys yn :
  fold_left (fun (p : vec * vec) j => let (ys, yn) := p in (acc_vector w ms (f j) ys, acc_vector w mn (f' j) yn)) l (ys, yn) =
  (fold_left (fun a j => acc_vector w ms (f j) a) l ys, fold_left (fun a j => acc_vector w mn (f' j) a) l yn).
Proof. revert ys yn; induction l as [|j l IH]; intros ys yn; cbn; auto. Qed.

Lemma num_apply_faces_val eps alpha ms mn ns nn w xs xn cs cs' cn cn' ys yn :
  let '(ys', yn') := num_apply_faces eps alpha ms mn ns nn w xs xn cs cs' cn cn' (ys, yn) in
  coefs_added ms ys ys' (fun i => w * (nsum ns (fun j => forward_s fst eps alpha xs xn j i * cs j) +
                                       nsum nn (fun j => forward_n fst eps alpha xs xn j i * cn j))) /\
  coefs_added mn yn yn' (fun i => w * (nsum ns (fun j => forward_s snd eps alpha xs xn j i * cs' j) +
                                       nsum nn (fun j => forward_n snd eps alpha xs xn j i * cn' j))).
Proof.
  unfold num_apply_faces.
  rewrite (fold_columns _ xs (fun j (b : vec * vec) => let '(a1, a2) := b in
     (acc_vector w ms (fun i => forward_s fst eps alpha xs xn j i * cs j) a1,
      acc_vector w mn (fun i => forward_s snd eps alpha xs xn j i * cs' j) a2))).
  2: { intros k (b1, b2). cbv beta iota zeta. rewrite vset_back, vset_shift, !(quot_s fst), !(quot_s snd). reflexivity. }
  rewrite (fold_pair w ms mn (fun j i => forward_s fst eps alpha xs xn j i * cs j) (fun j i => forward_s snd eps alpha xs xn j i * cs' j)).
  rewrite (fold_columns _ xn (fun j (b : vec * vec) => let '(a1, a2) := b in
     (acc_vector w ms (fun i => forward_n fst eps alpha xs xn j i * cn j) a1,
      acc_vector w mn (fun i => forward_n snd eps alpha xs xn j i * cn' j) a2))).
  2: { intros k (b1, b2). cbv beta iota zeta. rewrite vset_back, vset_shift, !(quot_n fst), !(quot_n snd). reflexivity. }
  rewrite (fold_pair w ms mn (fun j i => forward_n fst eps alpha xs xn j i * cn j) (fun j i => forward_n snd eps alpha xs xn j i * cn' j)).
  cbn [snd]. split; intros i.
  - rewrite (acc_vectors_val w (fun j i => forward_n fst eps alpha xs xn j i * cn j)).
    rewrite (acc_vectors_val w (fun j i => forward_s fst eps alpha xs xn j i * cs j)).
    destruct (i <? ms)%nat; [ring|auto].
  - rewrite (acc_vectors_val w (fun j i => forward_n snd eps alpha xs xn j i * cn' j)).
    rewrite (acc_vectors_val w (fun j i => forward_s snd eps alpha xs xn j i * cs' j)).
    destruct (i <? mn)%nat; [ring|auto].
Qed.

(** ** Exactness for affine operators *)
Lemma step_pos eps x j : 0 < eps -> 0 < step_width eps x j.
Proof. intros H. unfold step_width. pose proof (Rabs_pos (x j)). nra. Qed.

Lemma nsum_shift n K x j d : (j < n)%nat ->
  nsum n (fun k => K k * shifted x j d k) - nsum n (fun k => K k * x k) = K j * d.
Proof.
  induction n as [|n IH]; [lia|]. intros H. cbn [nsum].
  destruct (Nat.eq_dec j n) as [->|E].
  - assert (nsum n (fun k => K k * shifted x n d k) = nsum n (fun k => K k * x k)) as ->.
    { apply nsum_ext. intros k Hk. unfold shifted. destruct (Nat.eqb_spec k n); [lia|auto]. }
    unfold shifted. rewrite Nat.eqb_refl. ring.
  - specialize (IH ltac:(lia)). unfold shifted at 2. destruct (Nat.eqb_spec n j); [lia|]. lra.
Qed.

Lemma forward_affine eps m n alpha K b x i j :
  0 < eps -> affine m n alpha K b -> (i < m)%nat -> (j < n)%nat -> forward eps alpha x j i = K i j.
Proof.
  intros He HA Hi Hj. unfold forward. rewrite !HA by assumption.
  pose proof (step_pos eps x j He) as P.
  pose proof (nsum_shift n (K i) x j (step_width eps x j) Hj) as E.
  replace (b i + nsum n (fun j0 => K i j0 * shifted x j (step_width eps x j) j0) - (b i + nsum n (fun j0 => K i j0 * x j0)))
    with (K i j * step_width eps x j) by lra.
  field. lra.
Qed.

(** ** Accuracy for smooth operators *)
Lemma forward_error eps alpha x i j (d : R -> R) L :
  0 < eps ->
  (forall h, 0 <= h <= step_width eps x j -> derivable_pt_lim (fun s => alpha (shifted x j s) i) h (d h)) ->
  (forall h, 0 <= h <= step_width eps x j -> Rabs (d h - d 0) <= L * h) ->
  Rabs (forward eps alpha x j i - d 0) <= L * step_width eps x j.
Proof.
  intros He HD HL. pose proof (step_pos eps x j He) as P.
  destruct (MVT_cor2 (fun s => alpha (shifted x j s) i) d 0 (step_width eps x j) P HD) as (c & E & C).
  assert (Z : shifted x j 0 = x).
  { apply functional_extensionality. intros k. unfold shifted. destruct (k =? j)%nat; ring. }
  rewrite Z in E. unfold forward. rewrite E.
  replace (d c * (step_width eps x j - 0) / step_width eps x j - d 0) with (d c - d 0) by (field; lra).
  assert (HL0 : 0 <= L).
  { specialize (HL (step_width eps x j)). pose proof (Rabs_pos (d (step_width eps x j) - d 0)).
    assert (0 <= L * step_width eps x j) by (apply Rle_trans with (2 := HL ltac:(lra)); assumption). nra. }
  apply Rle_trans with (L * c); [apply HL; lra|]. apply Rmult_le_compat_l; lra.
Qed.
