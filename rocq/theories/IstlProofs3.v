(** Vectors of diagonal blocks. *)
From Coq Require Import Reals Lra.
From Verif Require Import Common CommonFacts IstlModel IstlSpec IstlProofs IstlProofs2.

Lemma rsum_S n f : rsum (S n) f = (rsum n f + f n)%R.
Proof.
  unfold rsum. rewrite seq_S, map_app, fold_right_app. cbn. generalize (map f (seq 0 n)). intros l. induction l as [|a l IH]; cbn; [lra|]. rewrite IH. lra.
Qed.
Lemma rsum_ext n f g : (forall i, i < n -> f i = g i) -> rsum n f = rsum n g.
Proof. intros H. induction n as [|n IH]; [reflexivity|]. rewrite !rsum_S, IH, H by (intros; try apply H; lia). reflexivity. Qed.
Lemma rsum_plus n f g : rsum n (fun i => f i + g i)%R = (rsum n f + rsum n g)%R.
Proof. induction n as [|n IH]; [unfold rsum; cbn; lra|]. rewrite !rsum_S, IH. lra. Qed.
Lemma rsum_scal n c f : rsum n (fun i => c * f i)%R = (c * rsum n f)%R.
Proof. induction n as [|n IH]; [unfold rsum; cbn; lra|]. rewrite !rsum_S, IH. lra. Qed.
Lemma rsum_scal_r n c f : rsum n (fun i => f i * c)%R = (rsum n f * c)%R.
Proof. induction n as [|n IH]; [unfold rsum; cbn; lra|]. rewrite !rsum_S, IH. lra. Qed.
Lemma rsum_zero n : rsum n (fun _ => 0%R) = 0%R.
Proof. induction n as [|n IH]; [reflexivity|]. rewrite rsum_S, IH. lra. Qed.
Lemma rsum_swap n m f : rsum n (fun i => rsum m (fun j => f i j)) = rsum m (fun j => rsum n (fun i => f i j)).
Proof.
  induction n as [|n IH]; [cbn; symmetry; apply rsum_zero|]. rewrite rsum_S, IH, <- rsum_plus. apply rsum_ext. intros i _. rewrite rsum_S. reflexivity.
Qed.
Lemma rsum_delta n f i : i < n -> rsum n (fun j => delta i j * f j)%R = f i.
Proof.
  induction n as [|n IH]; [lia|]. intros H. rewrite rsum_S. unfold delta at 2. destruct (i =? n) eqn:E.
  - apply Nat.eqb_eq in E. subst i. rewrite (rsum_ext n _ (fun _ => 0%R)); [rewrite rsum_zero; lra|]. intros j L. unfold delta. replace (n =? j) with false by (symmetry; apply Nat.eqb_neq; lia). lra.
  - apply Nat.eqb_neq in E. rewrite IH by lia. lra.
Qed.

Lemma dot_rsum n : forall row x, length row = n -> length x = n -> dot row x = rsum n (fun k => value (nth_error row k) * value (nth_error x k))%R.
Proof.
  intros row x <-. revert x. induction row as [|a row IH] using rev_ind; intros x Lx; [destruct x; [reflexivity|discriminate]|].
  rewrite app_length in *. cbn in Lx. destruct (rev x) as [|b y] eqn:Rx; [apply (f_equal (@length R)) in Rx; rewrite rev_length in Rx; cbn in Rx; lia|].
  assert (Ex : x = rev y ++ [b]) by (rewrite <- (rev_involutive x), Rx; reflexivity). rewrite Ex in *. rewrite app_length in Lx. cbn in Lx.
  replace (length row + length [a]) with (S (length row)) by (cbn; lia). rewrite rsum_S. unfold dot in *.
  assert (C : combine (row ++ [a]) (rev y ++ [b]) = combine row (rev y) ++ [(a, b)]).
  { assert (L : length row = length (rev y)) by lia. clear - L. revert L. generalize (rev y). induction row as [|c row IH]; intros [|d z] L; try discriminate; [reflexivity|]. cbn. rewrite IH by (cbn in L; lia). reflexivity. }
  rewrite C, fold_left_app. cbn. rewrite IH by lia. f_equal.
  - apply rsum_ext. intros i Li. rewrite !nth_error_app1 by lia. reflexivity.
  - rewrite !nth_error_app2 by lia. rewrite Nat.sub_diag. replace (length row - length (rev y)) with 0 by lia. reflexivity.
Qed.

(** ** The diagonal *)
Lemma dvec_ind' (P : dvec -> Prop) : (forall n m rows, P (DF n m rows)) -> (forall l, (forall c, In c l -> P c) -> P (DB l)) -> forall v, P v.
Proof.
  intros HF HB. fix F 1. intros [n m l|l]; [apply HF|]. apply HB. induction l as [|c l IH]; [intros ? []|]. intros c' [<- | I]; [apply F|apply IH, I].
Qed.
Lemma mapi_res_ok {A B} (g : nat -> A -> res B) l : forall k0, (forall k x, nth_error l k = Some x -> exists y, g (k0 + k) x = Ok y) ->
  exists ys, mapi_res g k0 l = Ok ys /\ length ys = length l /\ forall k x, nth_error l k = Some x -> exists y, nth_error ys k = Some y /\ g (k0 + k) x = Ok y.
Proof.
  induction l as [|a l IH]; intros k0 H.
  - exists []. split; [reflexivity|]. split; [reflexivity|]. intros [|k] x E; discriminate.
  - destruct (H 0 a eq_refl) as (y & E). rewrite Nat.add_0_r in E. destruct (IH (S k0)) as (ys & Es & L & Q).
    { intros k x N. destruct (H (S k) x N) as (y' & E'). exists y'. replace (S k0 + k) with (k0 + S k) by lia. exact E'. }
    exists (y :: ys). cbn. rewrite E. cbn. rewrite Es. split; [reflexivity|]. split; [cbn; lia|]. intros [|k] x N.
    + cbn in N. injection N as <-. exists y. rewrite Nat.add_0_r. auto.
    + destruct (Q k x N) as (y' & N' & E'). exists y'. replace (k0 + S k) with (S k0 + k) by lia. auto.
Qed.
Lemma diagonal_block rows : diagonal (BM rows) = let* l := mapi_res (fun i row => match find_col i row with Some b => diagonal b | None => UB end) 0 rows in Ok (DB l).
Proof.
  cbn [diagonal]. f_equal. generalize 0. induction rows as [|row rows IH]; intros k; [reflexivity|]. cbn [mapi_res]. rewrite IH. f_equal.
  clear. induction row as [|(c, b) row IH]; [reflexivity|]. cbn. destruct (c =? k); [reflexivity|apply IH].
Qed.

Inductive dshape (n : nat) : dvec -> nvec -> Prop :=
| Dshape_field : forall rows l, length l = n -> length rows = n -> (forall r, In r rows -> length r = n) -> dshape n (DF n n rows) (Field l)
| Dshape_block : forall ds xs, length ds = length xs -> (forall i d x, nth_error ds i = Some d -> nth_error xs i = Some x -> dshape n d x) -> dshape n (DB ds) (Block xs).

Lemma block_row_nonnil D p row : block_row D p = Some row -> p <> [].
Proof. destruct D, p; cbn; intros; congruence. Qed.

Lemma diagonal_ok n x : forall A, matches n A x -> exists D, diagonal A = Ok D /\ dshape n D x /\
  forall p row, block_row D p = Some row -> forall k, nth_error row k = mget A p (removelast p ++ [k]).
Proof.
  induction x as [l|xs IH] using nvec_ind'; intros A M; inversion M as [rows ? L1 L2 W|rows ? L H]; subst.
  - exists (DF (length l) (length l) rows). split; [reflexivity|]. split; [constructor; auto|]. intros [|r [|? ?]] row B k; try discriminate. cbn in *. unfold entry2. rewrite B. reflexivity.
  - rewrite diagonal_block.
    assert (G : forall k row, nth_error rows k = Some row -> exists D, (match find_col k row with Some b => diagonal b | None => UB end) = Ok D /\ (forall x, nth_error xs k = Some x -> dshape n D x) /\
      forall p r0, block_row D p = Some r0 -> forall j, nth_error r0 j = match find_col k row with Some b => mget b p (removelast p ++ [j]) | None => None end).
    { intros k row Nr. destruct (nth_error xs k) as [x|] eqn:Nx.
      - destruct (H k row x Nr Nx) as (b & Fb & Mb). rewrite Fb. destruct (IH x (nth_error_In _ _ Nx) b Mb) as (D & E & S & Q). exists D. split; [exact E|]. split; [intros x' E'; injection E' as <-; exact S|exact Q].
      - apply nth_error_None in Nx. assert (k < length rows) by (apply nth_error_Some; rewrite Nr; discriminate). lia. }
    destruct (mapi_res_ok (fun i row => match find_col i row with Some b => diagonal b | None => UB end) rows 0) as (Ds & E & LD & Q).
    { intros k row Nr. destruct (G k row Nr) as (D & E & _). exists D. exact E. }
    rewrite E. cbn [bind]. exists (DB Ds). split; [reflexivity|]. split.
    + constructor; [lia|]. intros i d x Nd Nx. destruct (nth_error rows i) as [row|] eqn:Nr.
      * destruct (Q i row Nr) as (d' & Nd' & E'). rewrite Nd in Nd'. injection Nd' as <-. destruct (G i row Nr) as (D & ED & S & _). cbn in E'. rewrite ED in E'. injection E' as ->. apply S, Nx.
      * apply nth_error_None in Nr. assert (i < length Ds) by (apply nth_error_Some; rewrite Nd; discriminate). lia.
    + intros p row B j. destruct p as [|i p]; [discriminate|]. cbn in B. destruct (nth_error Ds i) as [d|] eqn:Nd; [|discriminate].
      destruct (nth_error rows i) as [r0|] eqn:Nr.
      * destruct (Q i r0 Nr) as (d' & Nd' & E'). rewrite Nd in Nd'. injection Nd' as <-. destruct (G i r0 Nr) as (D & ED & _ & V). cbn in E'. rewrite ED in E'. injection E' as ->.
        destruct p as [|a p]; [destruct d; discriminate|]. change (removelast (i :: a :: p)) with (i :: removelast (a :: p)). change ((i :: removelast (a :: p)) ++ [j]) with (i :: (removelast (a :: p) ++ [j])). rewrite mget_block, Nr. apply V, B.
      * apply nth_error_None in Nr. assert (i < length Ds) by (apply nth_error_Some; rewrite Nd; discriminate). lia.
Qed.

(** ** Products *)
Lemma mv_block ds xs : mv (DB ds) (Block xs) =
  let* ys := (fix go ds xs := match ds with [] => Ok [] | d :: ds => match xs with x :: xs => let* y := mv d x in let* r := go ds xs in Ok (y :: r) | [] => UB end end) ds xs in Ok (Block ys).
Proof. reflexivity. Qed.
Fixpoint mvs (ds : list dvec) (xs : list nvec) : res (list nvec) :=
  match ds with [] => Ok [] | d :: ds => match xs with x :: xs => let* y := mv d x in let* r := mvs ds xs in Ok (y :: r) | [] => UB end end.
Lemma mv_mvs ds xs : mv (DB ds) (Block xs) = let* ys := mvs ds xs in Ok (Block ys).
Proof. rewrite mv_block. f_equal. Qed.
Lemma mvs_ok ds : forall xs (P : dvec -> nvec -> nvec -> Prop), length ds = length xs ->
  (forall i d x, nth_error ds i = Some d -> nth_error xs i = Some x -> exists y, mv d x = Ok y /\ P d x y) ->
  exists ys, mvs ds xs = Ok ys /\ length ys = length xs /\ forall i d x, nth_error ds i = Some d -> nth_error xs i = Some x -> exists y, nth_error ys i = Some y /\ P d x y.
Proof.
  induction ds as [|d ds IH]; intros [|x xs] P L H; try discriminate.
  - exists []. split; [reflexivity|]. split; [reflexivity|]. intros [|i] ? ? E; discriminate.
  - destruct (H 0 d x eq_refl eq_refl) as (y & E & Py). destruct (IH xs P) as (ys & Es & Ls & Q); [cbn in L; lia|intros i; apply (H (S i))|].
    exists (y :: ys). cbn. rewrite E. cbn. rewrite Es. split; [reflexivity|]. split; [cbn; lia|]. intros [|i] d' x' Nd Nx; cbn in *.
    + injection Nd as <-. injection Nx as <-. eauto.
    + apply (Q i d' x' Nd Nx).
Qed.

Lemma mv_ok n x : forall D, dshape n D x -> exists y, mv D x = Ok y /\ dshape n D y /\
  forall p, get y p = match block_row D p with
                      | Some row => Some (rsum n (fun k => value (nth_error row k) * value (get x (removelast p ++ [k])))%R)
                      | None => None
                      end.
Proof.
  induction x as [l|xs IH] using nvec_ind'; intros D S; inversion S as [rows ? L1 L2 W|ds ? L H]; subst.
  - cbn. rewrite Nat.eqb_refl. eexists. split; [reflexivity|]. split; [constructor; auto; rewrite map_length; exact L2|].
    intros [|r [|? ?]]; try reflexivity. cbn. rewrite nth_error_map. destruct (nth_error rows r) as [row|] eqn:Nr; [|reflexivity]. cbn. f_equal.
    rewrite (dot_rsum (length l)); [reflexivity|apply W; eapply nth_error_In, Nr|reflexivity].
  - rewrite mv_mvs. destruct (mvs_ok ds xs (fun d x y => dshape n d y /\ forall p, get y p = match block_row d p with
      | Some row => Some (rsum n (fun k => value (nth_error row k) * value (get x (removelast p ++ [k])))%R) | None => None end) L) as (ys & E & Ly & Q).
    { intros i d x Nd Nx. destruct (IH x (nth_error_In _ _ Nx) d (H i d x Nd Nx)) as (y & Ey & Sy & Gy). eauto. }
    rewrite E. cbn [bind]. exists (Block ys). split; [reflexivity|]. split.
    + constructor; [lia|]. intros i d y Nd Ny. destruct (nth_error xs i) as [x|] eqn:Nx.
      * destruct (Q i d x Nd Nx) as (y' & Ny' & Sy & _). rewrite Ny in Ny'. injection Ny' as <-. exact Sy.
      * apply nth_error_None in Nx. assert (i < length ys) by (apply nth_error_Some; rewrite Ny; discriminate). lia.
    + intros [|i p]; [reflexivity|]. cbn [get block_row]. destruct (nth_error ds i) as [d|] eqn:Nd.
      * destruct (nth_error xs i) as [x|] eqn:Nx; [|apply nth_error_None in Nx; assert (i < length ds) by (apply nth_error_Some; rewrite Nd; discriminate); lia].
        destruct (Q i d x Nd Nx) as (y & Ny & _ & Gy). rewrite Ny, Gy. destruct (block_row d p) as [row|] eqn:B; [|reflexivity]. f_equal. apply rsum_ext. intros k _.
        pose proof (block_row_nonnil _ _ _ B). destruct p as [|a p]; [congruence|]. change (removelast (i :: a :: p)) with (i :: removelast (a :: p)). cbn [app get]. rewrite Nx. reflexivity.
      * destruct (nth_error ys i) as [y|] eqn:Ny; [|reflexivity]. apply nth_error_None in Nd. assert (i < length ys) by (apply nth_error_Some; rewrite Ny; discriminate). lia.
Qed.

Lemma dshape_row n D x : dshape n D x -> forall p a, get x p = Some a -> exists row, block_row D p = Some row.
Proof.
  induction 1 as [rows l L1 L2 W|ds xs L H IH]; intros p a G.
  - destruct p as [|r [|? ?]]; try discriminate. cbn in *. destruct (nth_error rows r) eqn:Nr; [eauto|]. apply nth_error_None in Nr.
    assert (r < length l) by (apply nth_error_Some; rewrite G; discriminate). lia.
  - destruct p as [|i p]; [discriminate|]. cbn in *. destruct (nth_error xs i) as [x|] eqn:Nx; [|discriminate].
    destruct (nth_error ds i) as [d|] eqn:Nd; [eapply IH; eassumption|]. apply nth_error_None in Nd. assert (i < length xs) by (apply nth_error_Some; rewrite Nx; discriminate). lia.
Qed.
Lemma dshape_row' n D x : dshape n D x -> forall p row, block_row D p = Some row -> exists a, get x p = Some a.
Proof.
  induction 1 as [rows l L1 L2 W|ds xs L H IH]; intros p row G.
  - destruct p as [|r [|? ?]]; try discriminate. cbn in *. destruct (nth_error l r) eqn:Nr; [eauto|]. apply nth_error_None in Nr.
    assert (r < length rows) by (apply nth_error_Some; rewrite G; discriminate). lia.
  - destruct p as [|i p]; [discriminate|]. cbn in *. destruct (nth_error ds i) as [d|] eqn:Nx; [|discriminate].
    destruct (nth_error xs i) as [x|] eqn:Nd; [eapply IH; eassumption|]. apply nth_error_None in Nd. assert (i < length ds) by (apply nth_error_Some; rewrite Nx; discriminate). lia.
Qed.

Lemma diagonal_product n A x : matches n A x -> exists D y, diagonal A = Ok D /\ mv D x = Ok y /\
  forall p, get y p = match get x p with
                      | Some _ => Some (rsum n (fun k => value (mget A p (removelast p ++ [k])) * value (get x (removelast p ++ [k])))%R)
                      | None => None
                      end.
Proof.
  intros M. destruct (diagonal_ok n x A M) as (D & E & S & Q). destruct (mv_ok n x D S) as (y & Ey & _ & G). exists D, y. split; [exact E|]. split; [exact Ey|].
  intros p. rewrite G. destruct (get x p) as [a|] eqn:Gx.
  - destruct (dshape_row n D x S p a Gx) as (row & B). rewrite B. f_equal. apply rsum_ext. intros k _. rewrite (Q p row B k). reflexivity.
  - destruct (block_row D p) as [row|] eqn:B; [|reflexivity]. destruct (dshape_row' n D x S p row B) as (a & Ga). congruence.
Qed.

(** ** Inverses *)
Lemma invert_shape n inv x : forall D, dshape n D x -> (forall rows, In rows (small_blocks D) -> inverts n inv rows) -> dshape n (invert_blocks inv D) x.
Proof.
  induction x as [l|xs IH] using nvec_ind'; intros D S H; inversion S as [rows ? L1 L2 W|ds ? L Hd]; subst.
  - cbn. destruct (H rows (or_introl eq_refl)) as (A & B & _). constructor; auto.
  - cbn. constructor; [rewrite map_length; exact L|]. intros i d x Nd Nx. rewrite nth_error_map in Nd. destruct (nth_error ds i) as [d0|] eqn:N0; [|discriminate]. injection Nd as <-.
    apply (IH x (nth_error_In _ _ Nx) d0 (Hd i d0 x N0 Nx)). intros rows I. apply H. cbn. apply in_flat_map. exists d0. split; [eapply nth_error_In, N0|exact I].
Qed.

Lemma list_ext {A} (l l' : list A) : (forall k, nth_error l k = nth_error l' k) -> l = l'.
Proof.
  revert l'. induction l as [|a l IH]; intros [|b l'] H; [reflexivity|specialize (H 0); discriminate|specialize (H 0); discriminate|].
  f_equal; [specialize (H 0); cbn in H; congruence|apply IH; intros k; apply (H (S k))].
Qed.

Lemma invert_ok n inv x : forall D, dshape n D x -> (forall rows, In rows (small_blocks D) -> inverts n inv rows) ->
  exists y, mv (invert_blocks inv D) x = Ok y /\ mv D y = Ok x.
Proof.
  induction x as [l|xs IH] using nvec_ind'; intros D S H; inversion S as [rows ? L1 L2 W|ds ? L Hd]; subst.
  - cbn. rewrite Nat.eqb_refl. destruct (H rows (or_introl eq_refl)) as (A & B & C). eexists. split; [reflexivity|]. cbn. rewrite map_length, A, Nat.eqb_refl. f_equal. f_equal.
    apply list_ext. intros i. rewrite nth_error_map. destruct (nth_error rows i) as [row|] eqn:Nr.
    + assert (Li : i < length rows) by (apply nth_error_Some; rewrite Nr; discriminate). cbn.
      rewrite (dot_rsum (length l)); [|apply W; eapply nth_error_In, Nr|rewrite map_length; exact A].
      rewrite (rsum_ext _ _ (fun k => rsum (length l) (fun j => (value (entry2 rows i k) * value (entry2 (inv rows) k j)) * value (nth_error l j))%R)).
      * rewrite rsum_swap. rewrite (rsum_ext _ _ (fun j => delta i j * value (nth_error l j))%R).
        -- rewrite rsum_delta by lia. destruct (nth_error l i) eqn:Ni; [reflexivity|apply nth_error_None in Ni; lia].
        -- intros j Lj. rewrite rsum_scal_r, C by lia. reflexivity.
      * intros k Lk. rewrite nth_error_map. destruct (nth_error (inv rows) k) as [irow|] eqn:Nk; [|apply nth_error_None in Nk; lia]. cbn [option_map value].
        rewrite (dot_rsum (length l)) by (try reflexivity; apply B; eapply nth_error_In, Nk). rewrite <- rsum_scal. apply rsum_ext. intros j Lj. unfold entry2. rewrite Nr, Nk. ring.
    + apply nth_error_None in Nr. symmetry. apply nth_error_None. lia.
  - cbn [invert_blocks]. rewrite mv_mvs. destruct (mvs_ok (map (invert_blocks inv) ds) xs (fun d x y => forall d0, d = invert_blocks inv d0 -> True)) as (ys0 & E0 & _); [rewrite map_length; exact L| |].
    { intros i d x Nd Nx. rewrite nth_error_map in Nd. destruct (nth_error ds i) as [d0|] eqn:N0; [|discriminate]. injection Nd as <-.
      destruct (IH x (nth_error_In _ _ Nx) d0 (Hd i d0 x N0 Nx)) as (y & Ey & _); [|eauto]. intros rows I. apply H. cbn. apply in_flat_map. exists d0. split; [eapply nth_error_In, N0|exact I]. }
    assert (G : exists ys, mvs (map (invert_blocks inv) ds) xs = Ok ys /\ mvs ds ys = Ok xs).
    { clear ys0 E0 S. revert ds L Hd H. induction xs as [|x xs IHx]; intros [|d ds] L Hd H; try discriminate; [exists []; split; reflexivity|].
      destruct (IH x (or_introl eq_refl) d (Hd 0 d x eq_refl eq_refl)) as (y & E1 & E2). { intros rows I. apply H. cbn. apply in_or_app. left. exact I. }
      destruct (IHx (fun c I => IH c (or_intror I)) ds) as (ys & E3 & E4); [cbn in L; lia|intros i; apply (Hd (S i))|intros rows I; apply H; cbn; apply in_or_app; right; exact I|].
      exists (y :: ys). cbn. rewrite E1. cbn. rewrite E3. cbn. rewrite E2. cbn. rewrite E4. split; reflexivity. }
    destruct G as (ys & E1 & E2). rewrite E1. cbn [bind]. exists (Block ys). split; [reflexivity|]. rewrite mv_mvs, E2. reflexivity.
Qed.

Lemma diagonal_inverse n A x inv : matches n A x -> exists D, diagonal A = Ok D /\
  ((forall rows, In rows (small_blocks D) -> inverts n inv rows) -> exists y, mv (invert_blocks inv D) x = Ok y /\ mv D y = Ok x).
Proof.
  intros M. destruct (diagonal_ok n x A M) as (D & E & S & _). exists D. split; [exact E|]. intros H. apply (invert_ok n inv x D S H).
Qed.

(** ** Rows and communication *)
Lemma row_of_block ds ci r : row_of (DB ds) ci (S r) = match nth_error ci r with Some k => match nth_error ds k with Some d => row_of d ci r | None => UB end | None => UB end.
Proof. cbn [row_of]. destruct (nth_error ci r) as [k|]; [|reflexivity]. revert k. induction ds as [|d ds IH]; intros [|k]; try reflexivity. apply IH. Qed.

Lemma dtype_path n d D : dtype n d D -> forall p row, block_row D p = Some row -> length p = S d /\ length row = n.
Proof.
  induction 1 as [rows L W|d l H IH]; intros p row B.
  - destruct p as [|r [|? ?]]; try discriminate. cbn in B. split; [reflexivity|]. apply W. eapply nth_error_In, B.
  - destruct p as [|k p]; [discriminate|]. cbn in B. destruct (nth_error l k) as [c|] eqn:N; [|discriminate]. destruct (IH c (nth_error_In _ _ N) p row B). cbn. lia.
Qed.
Lemma row_of_ok n d D : dtype n d D -> forall p row e, block_row D p = Some row -> row_of D (index n p ++ e) (length (index n p)) = Ok row.
Proof.
  induction 1 as [rows L W|d l H IH]; intros p row e B.
  - destruct p as [|r [|? ?]]; try discriminate. cbn in B. rewrite index_one. cbn [row_of]. destruct (n =? 1) eqn:E; cbn.
    + apply Nat.eqb_eq in E. assert (r < length rows) by (apply nth_error_Some; rewrite B; discriminate). assert (r = 0) by lia. subst r. destruct rows; [discriminate|]. cbn in B. congruence.
    + rewrite B. reflexivity.
  - destruct p as [|k p]; [discriminate|]. cbn in B. destruct (nth_error l k) as [c|] eqn:N; [|discriminate]. pose proof (block_row_nonnil _ _ _ B) as Nn.
    rewrite index_cons_app, index_cons_length, row_of_block, nth_mid, N by exact Nn. apply (IH c (nth_error_In _ _ N) p row _ B).
Qed.
Lemma row_size_ok n d D : dtype n d D -> has_first D -> row_size D = Ok n.
Proof.
  induction 1 as [rows L W|d l H IH]; intros F; [reflexivity|]. destruct l as [|c l]; [destruct F|]. cbn in *. apply IH; auto.
Qed.
Lemma set_row_ok n d D : dtype n d D -> forall p row e new, block_row D p = Some row -> length new = n -> exists D', set_row D (index n p ++ e) (length (index n p)) new = Ok D' /\ dtype n d D' /\
  forall q, block_row D' q = if dec q p then Some new else block_row D q.
Proof.
  induction 1 as [rows L W|d l H IH]; intros p row e new B Ln.
  - destruct p as [|r [|? ?]]; try discriminate. cbn in B. rewrite index_one. cbn [set_row]. exists (DF n n (upd r new rows)). split.
    + destruct (n =? 1) eqn:E; cbn.
      * apply Nat.eqb_eq in E. assert (r < length rows) by (apply nth_error_Some; rewrite B; discriminate). assert (r = 0) by lia. subst r. rewrite (on_nth_ok _ rows 0 row new B eq_refl). reflexivity.
      * rewrite (on_nth_ok _ rows r row new B eq_refl). reflexivity.
    + split.
      * constructor; [rewrite upd_length; exact L|]. intros x I. apply in_upd in I. destruct I as [->|I]; [exact Ln|apply W, I].
      * intros [|q [|? ?]]; cbn [block_row]; try (destruct (dec _ _); [congruence|reflexivity]). destruct (dec [q] [r]) as [E|E].
        -- injection E as ->. apply upd_nth_error_same. apply nth_error_Some. rewrite B. discriminate.
        -- apply upd_nth_error_other. congruence.
  - destruct p as [|k p]; [discriminate|]. cbn in B. destruct (nth_error l k) as [c|] eqn:N; [|discriminate]. pose proof (block_row_nonnil _ _ _ B) as Nn.
    rewrite index_cons_app, index_cons_length by exact Nn. cbn [set_row]. rewrite nth_mid. destruct (IH c (nth_error_In _ _ N) p row (k :: e) new B Ln) as (c' & E & T & Q).
    rewrite (on_nth_ok _ l k c c' N E). cbn [bind]. eexists. split; [reflexivity|]. split.
    + constructor. intros x I. apply in_upd in I. destruct I as [->|I]; auto.
    + intros [|j q]; cbn [block_row]; [destruct (dec _ _); [congruence|reflexivity]|]. destruct (Nat.eq_dec j k) as [->|NE].
      * rewrite upd_nth_error_same, N, Q by (apply nth_error_Some; rewrite N; discriminate). destruct (dec q p), (dec (k :: q) (k :: p)); congruence.
      * rewrite upd_nth_error_other by congruence. destruct (dec _ _); [congruence|reflexivity].
Qed.
Lemma add_row_ok row : forall buf, length row <= length buf -> exists new, add_row row buf = Ok (new, skipn (length row) buf) /\ length new = length row /\
  forall k, k < length row -> value (nth_error new k) = (value (nth_error row k) + value (nth_error buf k))%R.
Proof.
  induction row as [|a row IH]; intros buf L; [exists []; split; [reflexivity|]; split; [reflexivity|]; cbn; lia|]. destruct buf as [|b buf]; cbn in L; [lia|].
  destruct (IH buf ltac:(lia)) as (new & E & Ln & Q). exists ((a + b)%R :: new). cbn. rewrite E. cbn. split; [reflexivity|]. split; [lia|]. intros [|k] Hk; [reflexivity|]. cbn. apply Q. lia.
Qed.
