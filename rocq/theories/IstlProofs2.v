(** Nested matrices: access and clearing of rows. *)
From Coq Require Import Reals Sorting.Sorted.
From Verif Require Import Common CommonFacts IstlModel IstlSpec IstlProofs.

Lemma nmat_ind' (P : nmat -> Prop) : (forall n m rows, P (FM n m rows)) ->
  (forall rows, (forall row c b, In row rows -> In (c, b) row -> P b) -> P (BM rows)) -> forall A, P A.
Proof.
  intros HF HB. fix F 1. intros [n m rows|rows]; [apply HF|]. apply HB. induction rows as [|x rows IH]; [intros ? ? ? []|].
  intros row c b [E|I] J; [|eapply IH; eassumption]. subst row. clear IH. induction x as [|(c', b') x IHx]; [destruct J|]. destruct J as [E|J]; [injection E as _ <-; apply F|apply IHx, J].
Qed.

Lemma find_col_in {A} c (l : list (nat * A)) b : find_col c l = Some b -> In (c, b) l.
Proof. induction l as [|(c', b') l IH]; cbn; [discriminate|]. destruct (c' =? c) eqn:E; [apply Nat.eqb_eq in E; intros H; injection H as ->; subst; auto|auto]. Qed.

Lemma mget_block rows r rp c cp : mget (BM rows) (r :: rp) (c :: cp) =
  match nth_error rows r with Some row => match find_col c row with Some b => mget b rp cp | None => None end | None => None end.
Proof.
  cbn [mget]. revert r. induction rows as [|x rows IH]; intros [|r]; try reflexivity; cbn [nth_error]; [|apply IH].
  induction x as [|(c', b) x IHx]; [reflexivity|]. cbn [find_col]. destruct (c' =? c); [reflexivity|apply IHx].
Qed.
Lemma maccess_block rows ri ci i j : maccess (BM rows) ri ci (S i) (S j) =
  match nth_error ri i, nth_error ci j with
  | Some r, Some c => match nth_error rows r with
                      | Some row => match find_col c row with Some b => let* (p, q) := maccess b ri ci i j in Ok (r :: p, c :: q) | None => UB end
                      | None => UB
                      end
  | _, _ => UB
  end.
Proof.
  cbn [maccess]. destruct (nth_error ri i) as [r|]; [|reflexivity]. destruct (nth_error ci j) as [c|]; [|reflexivity].
  match goal with |- ?f rows r = _ => assert (H : forall rows k, f rows k = match nth_error rows k with
    | Some row => match find_col c row with Some b => let* (p, q) := maccess b ri ci i j in Ok (r :: p, c :: q) | None => UB end
    | None => UB end); [|apply H] end.
  clear. induction rows as [|x rows IH]; intros [|k]; try reflexivity; cbn [nth_error]; [|apply IH].
  induction x as [|(c', b) x IHx]; [reflexivity|]. cbn [find_col]. destruct (c' =? c); [reflexivity|apply IHx].
Qed.

(** ** Container indices *)
Lemma index_cons n r p : p <> [] -> index n (r :: p) = index n p ++ [r].
Proof. intros H. unfold index. destruct p as [|a p]; [congruence|]. destruct (n =? 1); [change (removelast (r :: a :: p)) with (r :: removelast (a :: p))|]; reflexivity. Qed.
Lemma index_cons_app n r p e : p <> [] -> index n (r :: p) ++ e = index n p ++ r :: e.
Proof. intros H. rewrite index_cons, <- app_assoc by exact H. reflexivity. Qed.
Lemma index_cons_length n r p : p <> [] -> length (index n (r :: p)) = S (length (index n p)).
Proof. intros H. rewrite index_cons by exact H. rewrite app_length. cbn. lia. Qed.
Lemma nth_mid {A} (l : list A) x e : nth_error (l ++ x :: e) (length l) = Some x.
Proof. rewrite nth_error_app2, Nat.sub_diag by lia. reflexivity. Qed.
Lemma index_one n r : index n [r] = if n =? 1 then [] else [r].
Proof. unfold index. destruct (n =? 1); reflexivity. Qed.

Lemma mget_path n m d A : mtype n m d A -> forall rp cp x, mget A rp cp = Some x -> length rp = S d /\ length cp = S d.
Proof.
  induction 1 as [rows L W|d rows ND T IH]; intros rp cp x G.
  - destruct rp as [|r [|? ?]], cp as [|c [|? ?]]; try discriminate. auto.
  - destruct rp as [|r rp], cp as [|c cp]; try discriminate. rewrite mget_block in G. destruct (nth_error rows r) as [row|] eqn:Nr; [|discriminate].
    destruct (find_col c row) as [b|] eqn:Fc; [|discriminate]. destruct (IH row c b (nth_error_In _ _ Nr) (find_col_in _ _ _ Fc) _ _ _ G). cbn. lia.
Qed.
Lemma length_nonnil {A} (p : list A) d : length p = S d -> p <> [].
Proof. intros L ->. discriminate. Qed.

Lemma entry2_bounds n m rows r c x : length rows = n -> (forall row, In row rows -> length row = m) -> entry2 rows r c = Some x -> r < n /\ c < m.
Proof.
  intros <- W E. unfold entry2 in E. destruct (nth_error rows r) as [row|] eqn:Nr; [|discriminate]. split; [apply nth_error_Some; rewrite Nr; discriminate|].
  rewrite <- (W row (nth_error_In _ _ Nr)). apply nth_error_Some. rewrite E. discriminate.
Qed.

Lemma maccess_ok n m d A : mtype n m d A -> forall rp cp x e e', mget A rp cp = Some x ->
  maccess A (index n rp ++ e) (index m cp ++ e') (length (index n rp)) (length (index m cp)) = Ok (rp, cp).
Proof.
  induction 1 as [rows L W|d rows ND T IH]; intros rp cp x e e' G.
  - destruct rp as [|r [|? ?]], cp as [|c [|? ?]]; try discriminate. cbn [mget] in G. destruct (entry2_bounds n m rows r c x L W G) as (Hr & Hc).
    rewrite !index_one. cbn [maccess]. destruct (n =? 1) eqn:En, (m =? 1) eqn:Em; cbn.
    + apply Nat.eqb_eq in En, Em. replace r with 0 by lia. replace c with 0 by lia. reflexivity.
    + apply Nat.ltb_lt in Hc. rewrite Hc. apply Nat.eqb_eq in En. replace r with 0 by lia. reflexivity.
    + apply Nat.ltb_lt in Hr. rewrite Hr. apply Nat.eqb_eq in Em. replace c with 0 by lia. reflexivity.
    + apply Nat.ltb_lt in Hr, Hc. rewrite Hr, Hc. reflexivity.
  - destruct rp as [|r rp], cp as [|c cp]; try discriminate. rewrite mget_block in G. destruct (nth_error rows r) as [row|] eqn:Nr; [|discriminate].
    destruct (find_col c row) as [b|] eqn:Fc; [|discriminate]. pose proof (T row c b (nth_error_In _ _ Nr) (find_col_in _ _ _ Fc)) as Tb.
    destruct (mget_path n m d b Tb rp cp x G) as (Lr & Lc). pose proof (length_nonnil rp _ Lr) as Nrp. pose proof (length_nonnil cp _ Lc) as Ncp.
    rewrite !index_cons_app, !index_cons_length, maccess_block, !nth_mid, Nr, Fc by assumption. rewrite (IH row c b (nth_error_In _ _ Nr) (find_col_in _ _ _ Fc) rp cp x _ _ G). reflexivity.
Qed.

Lemma maccess_sound A : forall ri ci i j rp cp n m d, mtype n m d A -> maccess A ri ci i j = Ok (rp, cp) -> exists x, mget A rp cp = Some x.
Proof.
  induction A as [n0 m0 rows|rows IH] using nmat_ind'; intros ri ci i j rp cp n m d T H.
  - inversion T as [? L0 W0|]; subst. assert (E : forall r c, r < length rows -> c < m0 -> exists x, entry2 rows r c = Some x).
    { intros r c Hr Hc. unfold entry2. destruct (nth_error rows r) as [row|] eqn:Nr; [|apply nth_error_None in Nr; lia].
      destruct (nth_error row c) eqn:Nc; [eauto|]. apply nth_error_None in Nc. rewrite W0 in Nc by (eapply nth_error_In, Nr). lia. }
    cbn [maccess] in H. destruct (length rows =? 1) eqn:En, (m0 =? 1) eqn:Em.
    + destruct (_ && _); [|discriminate]. injection H as <- <-. apply Nat.eqb_eq in En, Em. apply E; lia.
    + destruct (_ && _); [|discriminate]. destruct (nth_error ci 0) as [c|]; [|discriminate]. destruct (c <? m0) eqn:Ec; [|discriminate]. injection H as <- <-.
      apply Nat.eqb_eq in En. apply Nat.ltb_lt in Ec. apply E; lia.
    + destruct (_ && _); [|discriminate]. destruct (nth_error ri 0) as [r|]; [|discriminate]. destruct (r <? _) eqn:Er; [|discriminate]. injection H as <- <-.
      apply Nat.eqb_eq in Em. apply Nat.ltb_lt in Er. apply E; lia.
    + destruct (_ && _); [|discriminate]. destruct (nth_error ri 0) as [r|]; [|discriminate]. destruct (nth_error ci 0) as [c|]; [|discriminate].
      destruct ((r <? _) && (c <? _)) eqn:Er; [|discriminate]. injection H as <- <-. apply andb_true_iff in Er. destruct Er as (E1 & E2). apply Nat.ltb_lt in E1, E2. apply E; lia.
  - inversion T as [|d' ? ND Tb]; subst. destruct i as [|i]; [discriminate|]. destruct j as [|j]; [discriminate|]. rewrite maccess_block in H.
    destruct (nth_error ri i) as [r|]; [|discriminate]. destruct (nth_error ci j) as [c|]; [|discriminate]. destruct (nth_error rows r) as [row|] eqn:Nr; [|discriminate].
    destruct (find_col c row) as [b|] eqn:Fc; [|discriminate]. apply bind_ok in H. destruct H as ((p, q) & H & E). injection E as <- <-. rewrite mget_block, Nr, Fc.
    eapply IH; [eapply nth_error_In, Nr|eapply find_col_in, Fc| |exact H]. eapply Tb; [eapply nth_error_In, Nr|eapply find_col_in, Fc].
Qed.

(** ** Operations on rows *)
Lemma on_nth_ok {A} (f : A -> res A) l : forall k x y, nth_error l k = Some x -> f x = Ok y -> on_nth f k l = Ok (upd k y l).
Proof.
  induction l as [|a l IH]; intros [|k] x y N F; try discriminate; cbn in *.
  - injection N as ->. rewrite F. reflexivity.
  - rewrite (IH k x y N F). reflexivity.
Qed.

(** Elementwise relation of two rows of blocks with the same columns *)
Definition rows_rel (P : nmat -> nmat -> Prop) (l l' : list (nat * nmat)) : Prop := Forall2 (fun x y => fst x = fst y /\ P (snd x) (snd y)) l l'.
Lemma on_all_ok (f : nmat -> res nmat) P l : (forall c b, In (c, b) l -> exists b', f b = Ok b' /\ P b b') -> exists l', on_all f l = Ok l' /\ rows_rel P l l'.
Proof.
  induction l as [|(c, b) l IH]; intros H; [exists []; split; [reflexivity|constructor]|]. destruct (H c b (or_introl eq_refl)) as (b' & F & Pb).
  destruct (IH (fun c b I => H c b (or_intror I))) as (l' & E & R). cbn. rewrite F. cbn. rewrite E. cbn. eexists. split; [reflexivity|]. constructor; [split; [reflexivity|exact Pb]|exact R].
Qed.
Lemma on_col_ok (f : nmat -> res nmat) (P : nmat -> nmat -> Prop) c l : (forall b, In (c, b) l -> exists b', f b = Ok b' /\ P b b') ->
  exists l', on_col f c l = Ok l' /\ map fst l' = map fst l /\
  (forall c', match find_col c' l, find_col c' l' with
              | Some b, Some b' => if c' =? c then P b b' else b' = b
              | None, None => True | _, _ => False end) /\
  (forall c' b', In (c', b') l' -> In (c', b') l \/ exists b, In (c', b) l /\ P b b').
Proof.
  induction l as [|(c1, b) l IH]; intros H.
  - exists []. split; [reflexivity|]. split; [reflexivity|]. split; [intros c'; exact I|intros ? ? []].
  - cbn. destruct (c1 =? c) eqn:E1.
    + apply Nat.eqb_eq in E1. subst c1. destruct (H b (or_introl eq_refl)) as (b' & F & Pb). rewrite F. cbn. exists ((c, b') :: l). split; [reflexivity|]. split; [reflexivity|]. split.
      * intros c'. cbn. destruct (c =? c') eqn:E2; [apply Nat.eqb_eq in E2; subst; rewrite Nat.eqb_refl; exact Pb|].
        rewrite Nat.eqb_sym, E2. destruct (find_col c' l); [reflexivity|exact I].
      * intros c' b1 [E|I]; [injection E as <- <-; right; exists b; split; [left; reflexivity|exact Pb]|left; right; exact I].
    + destruct (IH (fun b I => H b (or_intror I))) as (l' & E & M & Q & In'). rewrite E. cbn. exists ((c1, b) :: l'). split; [reflexivity|]. split; [cbn; f_equal; exact M|]. split.
      * intros c'. cbn. destruct (c1 =? c') eqn:E2; [|apply Q]. apply Nat.eqb_eq in E2. subst c'. rewrite E1. reflexivity.
      * intros c' b1 [I|I]; [left; left; exact I|]. destruct (In' c' b1 I) as [J|(b2 & J & Pb)]; [left; right; exact J|right; exists b2; split; [right; exact J|exact Pb]].
Qed.
Lemma rows_rel_find P l l' : rows_rel P l l' -> forall c, match find_col c l, find_col c l' with Some b, Some b' => P b b' | None, None => True | _, _ => False end.
Proof.
  induction 1 as [|(c1, b) (c2, b') l l' (E & Pb) R IH]; intros c; [exact I|]. cbn in *. subst c2. destruct (c1 =? c); [exact Pb|apply IH].
Qed.
Lemma rows_rel_fst P l l' : rows_rel P l l' -> map fst l' = map fst l.
Proof. induction 1 as [|x y l l' (E & _) R IH]; [reflexivity|]. cbn. congruence. Qed.
Lemma rows_rel_in P l l' c b' : rows_rel P l l' -> In (c, b') l' -> exists b, In (c, b) l /\ P b b'.
Proof.
  induction 1 as [|(c1, b) (c2, b2) l l' (E & Pb) R IH]; intros I; [destruct I|]. cbn in *. subst c2. destruct I as [E|I]; [injection E as <- <-; eauto|].
  destruct (IH I) as (b1 & J & Pb1). eauto.
Qed.

(** Changing the entries of one matrix keeps its type and the rows. *)
Definition keeps (n d : nat) (rp : path) (A A' : nmat) : Prop := mtype n n d A' /\ is_row n d A' rp.

Definition dec := list_eq_dec Nat.eq_dec.
Definition change (f : path -> path -> option R -> option R) (A A' : nmat) : Prop := forall rp cp, mget A' rp cp = f rp cp (mget A rp cp).

Lemma in_upd {A} k (x : A) l y : In y (upd k x l) -> y = x \/ In y l.
Proof. revert k. induction l as [|a l IH]; intros [|k] I; cbn in *; [auto|auto|intuition|]. destruct I as [->|I]; [auto|]. destruct (IH k I); auto. Qed.

Lemma keep_row n d rows r row row' rp : mtype n n (S d) (BM rows) -> is_row n (S d) (BM rows) (r :: rp) -> nth_error rows r = Some row ->
  map fst row' = map fst row -> (forall c b, In (c, b) row' -> mtype n n d b /\ is_row n d b rp) -> keeps n (S d) (r :: rp) (BM rows) (BM (upd r row' rows)).
Proof.
  intros T W N M H. inversion T as [|? ? ND Tb]; subst. inversion W as [|? ? ? row0 ? N0 L1 L2 Hb]; subst. rewrite N in N0. injection N0 as <-. split.
  - constructor.
    + intros x I. apply in_upd in I. destruct I as [->|I]; [rewrite M; apply ND; eapply nth_error_In, N|apply ND, I].
    + intros x c b I J. apply in_upd in I. destruct I as [->|I]; [apply (H c b J)|eapply Tb; eassumption].
  - econstructor; [apply upd_nth_error_same; apply nth_error_Some; rewrite N; discriminate|assumption|assumption|]. intros c b I. apply (H c b I).
Qed.

(** Zero rows of one small block *)
Lemma nth_error_zeros row c : nth_error (zeros row) c = option_map (fun _ => 0%R) (nth_error row c).
Proof. unfold zeros. rewrite nth_error_map. reflexivity. Qed.
Lemma entry2_upd rows r row r' c : r < length rows -> entry2 (upd r row rows) r' c = if r' =? r then nth_error row c else entry2 rows r' c.
Proof.
  intros L. unfold entry2. destruct (r' =? r) eqn:E; [apply Nat.eqb_eq in E; subst; rewrite upd_nth_error_same by exact L; reflexivity|].
  apply Nat.eqb_neq in E. rewrite upd_nth_error_other by congruence. reflexivity.
Qed.

Lemma clear_matrix_row_ok n d A : mtype n n d A -> forall rp e, is_row n d A rp -> exists A', clear_matrix_row A (index n rp ++ e) (length (index n rp)) = Ok A' /\ keeps n d rp A A' /\
  change (fun rp' cp o => if dec rp' rp then option_map (fun _ => 0%R) o else o) A A'.
Proof.
  induction 1 as [rows L W|d rows ND T IH]; intros rp e Rw.
  - inversion Rw as [? ? r Hr|]; subst. rewrite index_one. cbn [clear_matrix_row]. destruct (nth_error rows r) as [row|] eqn:Nr; [|apply nth_error_None in Nr; lia].
    assert (K : keeps (length rows) 0 [r] (FM (length rows) (length rows) rows) (FM (length rows) (length rows) (upd r (zeros row) rows))).
    { split; [|constructor; lia]. constructor; [apply upd_length|]. intros x I. apply in_upd in I. destruct I as [->|I]; [|apply W, I]. unfold zeros. rewrite map_length. apply W. eapply nth_error_In, Nr. }
    assert (C : change (fun rp' cp o => if dec rp' [r] then option_map (fun _ => 0%R) o else o) (FM (length rows) (length rows) rows) (FM (length rows) (length rows) (upd r (zeros row) rows))).
    { intros rp' cp. destruct rp' as [|r' [|? ?]], cp as [|c [|? ?]]; cbn [mget]; try (destruct (dec _ _); reflexivity). rewrite entry2_upd by lia.
      destruct (dec [r'] [r]) as [E|E], (r' =? r) eqn:E'; [|apply Nat.eqb_neq in E'; congruence|apply Nat.eqb_eq in E'; congruence|reflexivity].
      injection E as ->. rewrite nth_error_zeros. unfold entry2. rewrite Nr. reflexivity. }
    exists (FM (length rows) (length rows) (upd r (zeros row) rows)). split; [|split; assumption]. destruct (length rows =? 1) eqn:E1.
    + apply Nat.eqb_eq in E1. assert (r = 0) by lia. subst r. cbn. rewrite (on_nth_ok _ rows 0 row (zeros row) Nr eq_refl). reflexivity.
    + cbn. rewrite (on_nth_ok _ rows r row (zeros row) Nr eq_refl). reflexivity.
  - inversion Rw as [|? ? r row rp0 Nr Lrp Last Hb]; subst. rename rp0 into rp. pose proof (length_nonnil rp _ Lrp) as Nn.
    rewrite index_cons_app, index_cons_length by exact Nn. cbn [clear_matrix_row]. rewrite nth_mid.
    destruct (on_all_ok (fun b => clear_matrix_row b (index n rp ++ r :: e) (length (index n rp)))
      (fun b b' => keeps n d rp b b' /\ change (fun rp' cp o => if dec rp' rp then option_map (fun _ => 0%R) o else o) b b') row) as (row' & E & RR).
    { intros c b I. destruct (IH row c b (nth_error_In _ _ Nr) I rp (r :: e) (Hb c b I)) as (b' & F & K & C). eauto. }
    rewrite (on_nth_ok _ rows r row row' Nr E). cbn. eexists. split; [reflexivity|]. split.
    + apply (keep_row n d rows r row); auto; [constructor; assumption|eapply rows_rel_fst, RR|]. intros c b I. destruct (rows_rel_in _ _ _ _ _ RR I) as (b0 & _ & K & _). exact K.
    + intros rp' cp. destruct rp' as [|r' rp'], cp as [|c cp]; try (cbn [mget]; destruct (dec _ _); reflexivity). rewrite !mget_block.
      destruct (Nat.eq_dec r' r) as [->|NE].
      * rewrite upd_nth_error_same, Nr by (apply nth_error_Some; rewrite Nr; discriminate). pose proof (rows_rel_find _ _ _ RR c) as Q.
        destruct (find_col c row) as [b|], (find_col c row') as [b'|]; try contradiction.
        -- destruct Q as (_ & C). rewrite (C rp' cp). destruct (dec rp' rp), (dec (r :: rp') (r :: rp)); congruence.
        -- destruct (dec _ _); reflexivity.
      * rewrite upd_nth_error_other by congruence. destruct (dec _ _); [congruence|reflexivity].
Qed.

Lemma set_entry_ok v n rows r c : length rows = n -> (forall x, In x rows -> length x = n) -> r < n -> c < n ->
  exists rows', set_entry v r c rows = Ok rows' /\ length rows' = n /\ (forall x, In x rows' -> length x = n) /\
  forall r' c', entry2 rows' r' c' = if (r' =? r) && (c' =? c) then Some v else entry2 rows r' c'.
Proof.
  intros L W Hr Hc. destruct (nth_error rows r) as [row|] eqn:Nr; [|apply nth_error_None in Nr; lia]. pose proof (W row (nth_error_In _ _ Nr)) as Lrow.
  destruct (nth_error row c) as [x|] eqn:Nc; [|apply nth_error_None in Nc; lia].
  exists (upd r (upd c v row) rows). unfold set_entry. rewrite (on_nth_ok _ rows r row (upd c v row) Nr).
  - split; [reflexivity|]. split; [rewrite upd_length; exact L|]. split.
    + intros y I. apply in_upd in I. destruct I as [->|I]; [rewrite upd_length; exact Lrow|apply W, I].
    + intros r' c'. rewrite entry2_upd by lia. destruct (r' =? r) eqn:E; [|reflexivity]. cbn. apply Nat.eqb_eq in E. subst r'. destruct (c' =? c) eqn:E'.
      * apply Nat.eqb_eq in E'. subst. apply upd_nth_error_same. lia.
      * apply Nat.eqb_neq in E'. rewrite upd_nth_error_other by congruence. unfold entry2. rewrite Nr. reflexivity.
  - apply (on_nth_ok _ row c x v Nc eq_refl).
Qed.

Lemma write_if_exists_ok n v d A : mtype n n d A -> forall rp e, is_row n d A rp ->
  exists A', write_if_exists v A (index n rp ++ e) (index n rp ++ e) (length (index n rp)) (length (index n rp)) = Ok A' /\ keeps n d rp A A' /\
  change (fun rp' cp o => if dec rp' rp then if dec cp rp then option_map (fun _ => v) o else o else o) A A'.
Proof.
  induction 1 as [rows L W|d rows ND T IH]; intros rp e Rw.
  - inversion Rw as [? ? r Hr|]; subst. rewrite index_one. cbn [write_if_exists].
    destruct (set_entry_ok v (length rows) rows r r eq_refl W Hr Hr) as (rows' & E & L' & W' & En).
    assert (C : change (fun rp' cp o => if dec rp' [r] then if dec cp [r] then option_map (fun _ => v) o else o else o) (FM (length rows) (length rows) rows) (FM (length rows) (length rows) rows')).
    { intros rp' cp. destruct rp' as [|r' [|? ?]], cp as [|c [|? ?]]; cbn [mget]; try (repeat destruct (dec _ _); reflexivity). rewrite En.
      destruct (dec [r'] [r]) as [E1|E1], (r' =? r) eqn:E'; [|apply Nat.eqb_neq in E'; congruence|apply Nat.eqb_eq in E'; congruence|reflexivity].
      destruct (dec [c] [r]) as [E2|E2], (c =? r) eqn:E''; [|apply Nat.eqb_neq in E''; congruence|apply Nat.eqb_eq in E''; congruence|reflexivity].
      cbn. injection E1 as ->. injection E2 as ->. unfold entry2. destruct (nth_error rows r) as [row|] eqn:Nr; [|apply nth_error_None in Nr; lia].
      destruct (nth_error row r) eqn:Nc; [reflexivity|]. apply nth_error_None in Nc. rewrite (W row (nth_error_In _ _ Nr)) in Nc. lia. }
    exists (FM (length rows) (length rows) rows'). split; [|split; [split; [constructor; assumption|constructor; exact Hr]|exact C]].
    destruct (length rows =? 1) eqn:E1; cbn.
    + apply Nat.eqb_eq in E1. assert (r = 0) by lia. subst r. rewrite E. reflexivity.
    + rewrite E. reflexivity.
  - inversion Rw as [|? ? r row rp0 Nr Lrp Last Hb]; subst. rename rp0 into rp. pose proof (length_nonnil rp _ Lrp) as Nn.
    rewrite index_cons_app, index_cons_length by exact Nn. cbn [write_if_exists]. rewrite nth_mid.
    destruct (on_col_ok (fun b => write_if_exists v b (index n rp ++ r :: e) (index n rp ++ r :: e) (length (index n rp)) (length (index n rp)))
      (fun b b' => keeps n d rp b b' /\ change (fun rp' cp o => if dec rp' rp then if dec cp rp then option_map (fun _ => v) o else o else o) b b') r row) as (row' & E & M & Q & In').
    { intros b I. destruct (IH row r b (nth_error_In _ _ Nr) I rp (r :: e) (Hb r b I)) as (b' & F & K & C). eauto. }
    rewrite (on_nth_ok _ rows r row row' Nr E). cbn. eexists. split; [reflexivity|]. split.
    + apply (keep_row n d rows r row); auto; [constructor; assumption|]. intros c b I. destruct (In' c b I) as [J|(b0 & _ & K & _)]; [|exact K].
      split; [eapply T; [eapply nth_error_In, Nr|exact J]|apply (Hb c b J)].
    + intros rp' cp. destruct rp' as [|r' rp'], cp as [|c cp]; try (cbn [mget]; repeat destruct (dec _ _); reflexivity). rewrite !mget_block.
      destruct (Nat.eq_dec r' r) as [->|NE].
      * rewrite upd_nth_error_same, Nr by (apply nth_error_Some; rewrite Nr; discriminate). specialize (Q c).
        destruct (find_col c row) as [b|], (find_col c row') as [b'|]; try contradiction.
        -- destruct (c =? r) eqn:Ec.
           ++ apply Nat.eqb_eq in Ec. subst c. destruct Q as (_ & C). rewrite (C rp' cp). destruct (dec rp' rp), (dec (r :: rp') (r :: rp)), (dec cp rp), (dec (r :: cp) (r :: rp)); congruence.
           ++ apply Nat.eqb_neq in Ec. subst b'. destruct (dec _ _); [|reflexivity]. destruct (dec (c :: _) _); [congruence|reflexivity].
        -- repeat destruct (dec _ _); reflexivity.
      * rewrite upd_nth_error_other by congruence. destruct (dec _ _); [congruence|reflexivity].
Qed.

Lemma clear_row_ok n d A rp v : mtype n n d A -> is_row n d A rp -> exists A', clear_row A (index n rp) v = Ok A' /\ mtype n n d A' /\
  forall rp' cp, mget A' rp' cp = if dec rp' rp then option_map (fun _ => if dec cp rp then v else 0%R) (mget A rp' cp) else mget A rp' cp.
Proof.
  intros T W. destruct (clear_matrix_row_ok n d A T rp [] W) as (A1 & E1 & (T1 & W1) & C1). destruct (write_if_exists_ok n v d A1 T1 rp [] W1) as (A2 & E2 & (T2 & W2) & C2).
  rewrite !app_nil_r in *. exists A2. unfold clear_row. rewrite E1. cbn. rewrite E2. split; [reflexivity|]. split; [exact T2|]. intros rp' cp. rewrite (C2 rp' cp), (C1 rp' cp).
  destruct (dec rp' rp); [|reflexivity]. destruct (dec cp rp), (mget A rp' cp); reflexivity.
Qed.

(** ** Rows of a block *)
Lemma entry2_zeros rows r c : entry2 (map zeros rows) r c = option_map (fun _ => 0%R) (entry2 rows r c).
Proof. unfold entry2. rewrite nth_error_map. destruct (nth_error rows r); [apply nth_error_zeros|reflexivity]. Qed.

Definition same_block (p q : path) : bool := if dec (removelast p) (removelast q) then true else false.
Lemma same_block_cons r p r' q : p <> [] -> q <> [] -> same_block (r :: p) (r' :: q) = (r =? r') && same_block p q.
Proof.
  intros H K. unfold same_block. destruct p as [|a p]; [congruence|]. destruct q as [|b q]; [congruence|].
  change (removelast (r :: a :: p)) with (r :: removelast (a :: p)). change (removelast (r' :: b :: q)) with (r' :: removelast (b :: q)).
  generalize (removelast (a :: p)) (removelast (b :: q)). intros u w. destruct (dec (r :: u) (r' :: w)) as [E|E], (dec u w) as [E'|E'], (r =? r') eqn:Er;
  try reflexivity; try (apply Nat.eqb_eq in Er); try (apply Nat.eqb_neq in Er); exfalso; congruence.
Qed.

Lemma clear_matrix_row_block_ok n d A : mtype n n d A -> forall rp e, is_row n d A rp ->
  exists A', clear_matrix_row_block A (index n rp ++ e) (length (index n rp)) = Ok A' /\ keeps n d rp A A' /\
  change (fun rp' cp o => if same_block rp' rp then option_map (fun _ => 0%R) o else o) A A'.
Proof.
  induction 1 as [rows L W|d rows ND T IH]; intros rp e Rw.
  - inversion Rw as [? ? r Hr|]; subst. rewrite index_one. cbn [clear_matrix_row_block]. exists (FM (length rows) (length rows) (map zeros rows)). split; [|split].
    + destruct (length rows =? 1); reflexivity.
    + split; [|constructor; exact Hr]. constructor; [apply map_length|]. intros x I. apply in_map_iff in I. destruct I as (y & <- & I). unfold zeros. rewrite map_length. apply W, I.
    + intros rp' cp. destruct rp' as [|r' [|? ?]], cp as [|c [|? ?]]; cbn [mget]; try (destruct (same_block _ _); reflexivity). rewrite entry2_zeros. reflexivity.
  - inversion Rw as [|? ? r row rp0 Nr Lrp Last Hb]; subst. rename rp0 into rp. pose proof (length_nonnil rp _ Lrp) as Nn.
    rewrite index_cons_app, index_cons_length by exact Nn. cbn [clear_matrix_row_block]. rewrite nth_mid.
    destruct (on_all_ok (fun b => clear_matrix_row_block b (index n rp ++ r :: e) (length (index n rp)))
      (fun b b' => keeps n d rp b b' /\ mtype n n d b /\ change (fun rp' cp o => if same_block rp' rp then option_map (fun _ => 0%R) o else o) b b') row) as (row' & E & RR).
    { intros c b I. destruct (IH row c b (nth_error_In _ _ Nr) I rp (r :: e) (Hb c b I)) as (b' & F & K & C). exists b'. split; [exact F|]. split; [exact K|]. split; [eapply T; [eapply nth_error_In, Nr|exact I]|exact C]. }
    rewrite (on_nth_ok _ rows r row row' Nr E). cbn. eexists. split; [reflexivity|]. split.
    + apply (keep_row n d rows r row); auto; [constructor; assumption|eapply rows_rel_fst, RR|]. intros c b I. destruct (rows_rel_in _ _ _ _ _ RR I) as (b0 & _ & K & _). exact K.
    + intros rp' cp. destruct rp' as [|r' rp'], cp as [|c cp]; try (cbn [mget]; destruct (same_block _ _); reflexivity). rewrite !mget_block.
      destruct (Nat.eq_dec r' r) as [->|NE].
      * rewrite upd_nth_error_same, Nr by (apply nth_error_Some; rewrite Nr; discriminate). pose proof (rows_rel_find _ _ _ RR c) as Q.
        destruct (find_col c row) as [b|], (find_col c row') as [b'|]; try contradiction.
        -- destruct Q as (_ & Tb & C). rewrite (C rp' cp). destruct (mget b rp' cp) as [x|] eqn:G.
           ++ rewrite same_block_cons, Nat.eqb_refl; [reflexivity| |exact Nn]. destruct (mget_path _ _ _ _ Tb _ _ _ G) as (H & _). eapply length_nonnil, H.
           ++ repeat destruct (same_block _ _); reflexivity.
        -- destruct (same_block _ _); reflexivity.
      * rewrite upd_nth_error_other by congruence. destruct (nth_error rows r') as [row0|] eqn:N0; [|destruct (same_block _ _); reflexivity].
        destruct (find_col c row0) as [b|] eqn:Fc; [|destruct (same_block _ _); reflexivity].
        destruct (mget b rp' cp) as [x|] eqn:G; [|destruct (same_block _ _); reflexivity].
        destruct (mget_path n n d b (T row0 c b (nth_error_In _ _ N0) (find_col_in _ _ _ Fc)) _ _ _ G) as (H & _).
        rewrite same_block_cons by (try exact Nn; eapply length_nonnil, H). apply Nat.eqb_neq in NE. rewrite NE. reflexivity.
Qed.

Ltac cases_all := repeat match goal with |- context [same_block ?a ?b] => destruct (same_block a b) | |- context [dec ?a ?b] => destruct (dec a b) end; reflexivity.
Lemma diag_loop v n rows : length rows = n -> (forall x, In x rows -> length x = n) -> forall k, k <= n ->
  exists rows', foldM (fun rows k => set_entry v k k rows) (seq 0 k) rows = Ok rows' /\ length rows' = n /\ (forall x, In x rows' -> length x = n) /\
  forall r c, entry2 rows' r c = if (r <? k) && (c =? r) then Some v else entry2 rows r c.
Proof.
  intros L W. induction k as [|k IH]; intros Hk.
  - exists rows. repeat split; auto.
  - destruct IH as (rows1 & E & L1 & W1 & En); [lia|]. destruct (set_entry_ok v n rows1 k k L1 W1 ltac:(lia) ltac:(lia)) as (rows2 & E2 & L2 & W2 & En2).
    exists rows2. rewrite seq_S, foldM_app, E. cbn. rewrite E2. split; [reflexivity|]. split; [exact L2|]. split; [exact W2|].
    intros r c. rewrite En2, En. destruct (r =? k) eqn:E1, (c =? k) eqn:E3, (r <? k) eqn:E4, (r <? S k) eqn:E5, (c =? r) eqn:E6; try reflexivity;
    rewrite ?Nat.eqb_eq, ?Nat.eqb_neq, ?Nat.ltb_lt, ?Nat.ltb_ge in *; lia.
Qed.

Lemma write_to_block_ok n v d A : mtype n n d A -> forall rp e, is_row n d A rp ->
  exists A', write_to_block v A (index n rp ++ e) (index n rp ++ e) (length (index n rp)) (length (index n rp)) = Ok A' /\ keeps n d rp A A' /\
  change (fun rp' cp o => if same_block rp' rp then if dec cp rp' then option_map (fun _ => v) o else o else o) A A'.
Proof.
  induction 1 as [rows L W|d rows ND T IH]; intros rp e Rw.
  - inversion Rw as [? ? r Hr|]; subst. rewrite index_one. cbn [write_to_block].
    destruct (diag_loop v (length rows) rows eq_refl W (length rows) (le_n _)) as (rows' & E & L' & W' & En).
    exists (FM (length rows) (length rows) rows'). split; [|split; [split; [constructor; assumption|constructor; exact Hr]|]].
    + destruct (length rows =? 1) eqn:E1; cbn.
      * apply Nat.eqb_eq in E1. rewrite E1 in E. cbn in E. destruct (set_entry v 0 0 rows) as [?| |]; try discriminate. injection E as ->. reflexivity.
      * rewrite E. reflexivity.
    + intros rp' cp. destruct rp' as [|r' [|? ?]], cp as [|c [|? ?]]; cbn [mget]; try (cases_all). rewrite En.
      unfold same_block. cbn [removelast]. destruct (dec [] []); [|congruence].
      destruct (dec [c] [r']) as [E2|E2], (c =? r') eqn:E''; [|apply Nat.eqb_neq in E''; congruence|apply Nat.eqb_eq in E''; congruence|rewrite andb_false_r; reflexivity].
      injection E2 as ->. rewrite andb_true_r. unfold entry2. destruct (nth_error rows r') as [row|] eqn:Nr.
      * assert (Hr' : r' < length rows) by (apply nth_error_Some; rewrite Nr; discriminate). pose proof Hr' as Hb. apply Nat.ltb_lt in Hb. rewrite Hb.
        destruct (nth_error row r') eqn:Nc; [reflexivity|]. apply nth_error_None in Nc. rewrite (W row (nth_error_In _ _ Nr)) in Nc. lia.
      * apply nth_error_None in Nr. destruct (r' <? length rows) eqn:Hb; [apply Nat.ltb_lt in Hb; lia|]. reflexivity.
  - inversion Rw as [|? ? r row rp0 Nr Lrp Last Hb]; subst. rename rp0 into rp. pose proof (length_nonnil rp _ Lrp) as Nn.
    rewrite index_cons_app, index_cons_length by exact Nn. cbn [write_to_block]. rewrite nth_mid.
    destruct (on_col_ok (fun b => write_to_block v b (index n rp ++ r :: e) (index n rp ++ r :: e) (length (index n rp)) (length (index n rp)))
      (fun b b' => keeps n d rp b b' /\ mtype n n d b /\ change (fun rp' cp o => if same_block rp' rp then if dec cp rp' then option_map (fun _ => v) o else o else o) b b') r row) as (row' & E & M & Q & In').
    { intros b I. destruct (IH row r b (nth_error_In _ _ Nr) I rp (r :: e) (Hb r b I)) as (b' & F & K & C). exists b'. split; [exact F|]. split; [exact K|]. split; [eapply T; [eapply nth_error_In, Nr|exact I]|exact C]. }
    rewrite (on_nth_ok _ rows r row row' Nr E). cbn. eexists. split; [reflexivity|]. split.
    + apply (keep_row n d rows r row); auto; [constructor; assumption|]. intros c b I. destruct (In' c b I) as [J|(b0 & _ & K & _)]; [|exact K].
      split; [eapply T; [eapply nth_error_In, Nr|exact J]|apply (Hb c b J)].
    + intros rp' cp. destruct rp' as [|r' rp'], cp as [|c cp]; try (cbn [mget]; cases_all). rewrite !mget_block.
      destruct (Nat.eq_dec r' r) as [->|NE].
      * rewrite upd_nth_error_same, Nr by (apply nth_error_Some; rewrite Nr; discriminate). specialize (Q c).
        destruct (find_col c row) as [b|], (find_col c row') as [b'|]; try contradiction.
        -- destruct (c =? r) eqn:Ec.
           ++ apply Nat.eqb_eq in Ec. subst c. destruct Q as (_ & Tb & C). rewrite (C rp' cp). destruct (mget b rp' cp) as [x|] eqn:G.
              ** destruct (mget_path _ _ _ _ Tb _ _ _ G) as (H & _). rewrite same_block_cons, Nat.eqb_refl by (try exact Nn; eapply length_nonnil, H). cbn [andb].
                 destruct (same_block rp' rp); [|reflexivity]. destruct (dec cp rp'), (dec (r :: cp) (r :: rp')); congruence.
              ** cases_all.
           ++ apply Nat.eqb_neq in Ec. subst b'. destruct (same_block _ _); [|reflexivity]. destruct (dec (c :: _) _); [congruence|reflexivity].
        -- cases_all.
      * rewrite upd_nth_error_other by congruence. destruct (nth_error rows r') as [row0|] eqn:N0; [|cases_all].
        destruct (find_col c row0) as [b|] eqn:Fc; [|cases_all].
        destruct (mget b rp' cp) as [x|] eqn:G; [|cases_all].
        destruct (mget_path n n d b (T row0 c b (nth_error_In _ _ N0) (find_col_in _ _ _ Fc)) _ _ _ G) as (H & _).
        rewrite same_block_cons by (try exact Nn; eapply length_nonnil, H). apply Nat.eqb_neq in NE. rewrite NE. reflexivity.
Qed.

Lemma clear_row_block_ok n d A rp v : mtype n n d A -> is_row n d A rp -> exists A', clear_row_block A (index n rp) v = Ok A' /\ mtype n n d A' /\
  forall rp' cp, mget A' rp' cp = if dec (removelast rp') (removelast rp) then option_map (fun _ => if dec cp rp' then v else 0%R) (mget A rp' cp) else mget A rp' cp.
Proof.
  intros T W. destruct (clear_matrix_row_block_ok n d A T rp [] W) as (A1 & E1 & (T1 & W1) & C1). destruct (write_to_block_ok n v d A1 T1 rp [] W1) as (A2 & E2 & (T2 & W2) & C2).
  rewrite !app_nil_r in *. exists A2. unfold clear_row_block. rewrite E1. cbn. rewrite E2. split; [reflexivity|]. split; [exact T2|]. intros rp' cp. rewrite (C2 rp' cp), (C1 rp' cp).
  unfold same_block. destruct (dec (removelast rp') (removelast rp)); [|reflexivity]. destruct (dec cp rp'), (mget A rp' cp); reflexivity.
Qed.
