(** The dense local matrix, residuals computed from a Jacobian. *)
From Coq Require Import FunctionalExtensionality Lra.
From Verif Require Import CommonFacts NumModel EngineSpec EngineProofs EngineProofs3 NumSpec NumProofs.
Local Open Scope R_scope.

Lemma pos_lt r c i j : (i < r -> j < c -> j * r + i < r * c)%nat.
Proof. intros Hi Hj. nia. Qed.
Lemma pos_inj r i j i' j' : (i < r -> i' < r -> j * r + i = j' * r + i' -> i = i' /\ j = j')%nat.
Proof. intros Hi Hi' E. assert (j = j') by nia. subst. split; [nia|auto]. Qed.

Lemma lget_ok a i j : lmat_ok a -> (i < lrows a)%nat -> (j < lcols a)%nat -> lget a i j = Ok (entry a i j).
Proof.
  intros W Hi Hj. unfold lget, entry. pose proof (pos_lt _ _ _ _ Hi Hj) as P. rewrite <- W in P.
  destruct (nth_error (ldata a) (j * lrows a + i)) eqn:E.
  - now rewrite (nth_error_nth _ _ _ E).
  - apply nth_error_None in E. lia.
Qed.

Lemma laccumulate_ok w a i j v : lmat_ok a -> (i < lrows a)%nat -> (j < lcols a)%nat ->
  exists a', laccumulate w a ((i, j), v) = Ok a' /\ lmat_ok a' /\ lrows a' = lrows a /\ lcols a' = lcols a /\
    forall k l, (k < lrows a)%nat -> (l < lcols a)%nat ->
      entry a' k l = entry a k l + (if ((i =? k) && (j =? l))%nat then w * v else 0).
Proof.
  intros W Hi Hj. unfold laccumulate. rewrite lget_ok by assumption. cbn [bind]. unfold lset.
  pose proof (pos_lt _ _ _ _ Hi Hj) as P. rewrite <- W in P.
  destruct (Nat.ltb_spec (j * lrows a + i) (length (ldata a))); [|lia].
  eexists. split; [reflexivity|]. unfold lmat_ok, entry. cbn [lrows lcols ldata]. rewrite upd_length.
  split; [exact W|]. split; [auto|]. split; [auto|]. intros k l Hk Hl.
  destruct (Nat.eqb_spec i k) as [->|Ei]; [destruct (Nat.eqb_spec j l) as [->|Ej]|]; cbn.
  - now rewrite upd_nth_same by assumption.
  - rewrite upd_nth_other; [ring|]. intros E. apply pos_inj in E; [lia|assumption|assumption].
  - rewrite upd_nth_other; [ring|]. intros E. apply pos_inj in E; [lia|assumption|assumption].
Qed.

Lemma entries_ok w l : forall a, lmat_ok a -> entries_in (lrows a) (lcols a) l ->
  exists a', foldM (laccumulate w) l a = Ok a' /\ lmat_ok a' /\ lrows a' = lrows a /\ lcols a' = lcols a /\
    forall i j, (i < lrows a)%nat -> (j < lcols a)%nat -> entry a' i j = entry a i j + w * entry_sum l i j.
Proof.
  induction l as [|((i, j), v) l IH]; intros a W H.
  - exists a. split; [reflexivity|]. repeat (split; [auto|]). intros. cbn. ring.
  - destruct (H ((i, j), v) ltac:(left; auto)) as [Hi Hj]. cbn in Hi, Hj.
    destruct (laccumulate_ok w a i j v W Hi Hj) as (a1 & E1 & W1 & R1 & C1 & V1).
    destruct (IH a1) as (a2 & E2 & W2 & R2 & C2 & V2); auto.
    { rewrite R1, C1. intros e He. apply H. now right. }
    exists a2. split; [cbn [foldM]; now rewrite E1|]. split; [auto|]. split; [congruence|]. split; [congruence|].
    intros k q Hk Hq. rewrite V2 by congruence. rewrite V1 by assumption.
    unfold entry_sum. cbn [lsum fold_right fst snd].
    destruct ((i =? k) && (j =? q))%nat; unfold lsum; ring.
Qed.

Lemma lmat_new_ok r c t : lmat_ok (lmat_new r c t).
Proof. unfold lmat_ok, lmat_new. cbn. apply repeat_length. Qed.
Lemma lmat_new_entry r c t i j : (i < r)%nat -> (j < c)%nat -> entry (lmat_new r c t) i j = t.
Proof.
  intros Hi Hj. unfold entry, lmat_new. cbn [lrows ldata].
  pose proof (pos_lt _ _ _ _ Hi Hj) as P. rewrite (nth_indep _ 0 t) by (rewrite repeat_length; lia).
  apply nth_repeat.
Qed.

Lemma rget_ok x i : (i < length x)%nat -> rget x i = Ok (nth i x 0).
Proof. intros H. unfold rget. destruct (nth_error x i) eqn:E; [now rewrite (nth_error_nth _ _ _ E)|apply nth_error_None in E; lia]. Qed.

Lemma usmv_row alpha a x i k : lmat_ok a -> (lcols a <= length x)%nat -> (i < lrows a)%nat -> (k <= lcols a)%nat ->
  forall y, (i < length y)%nat ->
  foldM (fun y j => let* o := rget y i in let* v := lget a i j in let* b := rget x j in rset y i (o + alpha * v * b)) (seq 0 k) y =
  Ok (upd i (nth i y 0 + alpha * nsum k (fun j => entry a i j * nth j x 0)) y).
Proof.
  intros W Hx Hi. induction k as [|k IH]; intros Hk y Hy.
  - cbn. f_equal. replace (nth i y 0 + alpha * 0) with (nth i y 0) by ring.
    revert i Hi Hy. induction y as [|h y IHy]; intros [|i] Hi Hy; cbn in *; try lia; auto. f_equal. apply IHy; lia.
  - rewrite seq_S, foldM_app, (IH ltac:(lia) y Hy). cbn [bind foldM Nat.add].
    rewrite rget_ok by (rewrite upd_length; lia). cbn [bind]. rewrite lget_ok by (auto; lia). cbn [bind].
    rewrite rget_ok by lia. cbn [bind]. unfold rset. rewrite upd_length. destruct (Nat.ltb_spec i (length y)); [|lia].
    cbn [bind]. f_equal. rewrite upd_nth_same by assumption.
    assert (U : forall (u v : R) n (l : list R), upd n u (upd n v l) = upd n u l).
    { intros u v n l. revert n. induction l as [|h l IHl]; intros [|n]; cbn; auto. now rewrite IHl. }
    rewrite U. f_equal. cbn [nsum]. ring.
Qed.

Lemma usmv_ok alpha a x y : lmat_ok a -> (lcols a <= length x)%nat -> (lrows a <= length y)%nat ->
  exists y', usmv alpha a x y = Ok y' /\ length y' = length y /\
    forall i, nth i y' 0 = if (i <? lrows a)%nat
                           then nth i y 0 + alpha * nsum (lcols a) (fun j => entry a i j * nth j x 0) else nth i y 0.
Proof.
  intros W Hx Hy. unfold usmv.
  assert (G : forall k, (k <= lrows a)%nat -> exists y', foldM (fun y i => foldM (fun y j =>
    let* o := rget y i in let* v := lget a i j in let* b := rget x j in rset y i (o + alpha * v * b))
    (seq 0 (lcols a)) y) (seq 0 k) y = Ok y' /\ length y' = length y /\
    forall i, nth i y' 0 = if (i <? k)%nat
                           then nth i y 0 + alpha * nsum (lcols a) (fun j => entry a i j * nth j x 0) else nth i y 0).
  { induction k as [|k IH]; intros Hk.
    - exists y. split; [reflexivity|]. split; [auto|]. intros i. reflexivity.
    - destruct (IH ltac:(lia)) as (y1 & E & L & V). eexists. rewrite seq_S, foldM_app, E. cbn [bind foldM Nat.add].
      rewrite usmv_row by (auto; lia). cbn [bind]. split; [reflexivity|]. split; [now rewrite upd_length|].
      intros i. destruct (Nat.eq_dec i k) as [->|N].
      + rewrite upd_nth_same by lia. rewrite V. destruct (Nat.ltb_spec k k), (Nat.ltb_spec k (S k)); try lia. auto.
      + rewrite upd_nth_other by auto. rewrite V. destruct (Nat.ltb_spec i k), (Nat.ltb_spec i (S k)); try lia; auto. }
  apply (G (lrows a)). lia.
Qed.

Lemma jb_times w l m n x r : entries_in m n l -> length x = n -> length r = m ->
  exists r', (let* a := foldM (laccumulate 1) l (lmat_new m n 0) in usmv w a x r) = Ok r' /\
    times_added w (entry_sum l) x r r'.
Proof.
  intros H Lx Lr.
  destruct (entries_ok 1 l (lmat_new m n 0) (lmat_new_ok _ _ _) H) as (a & E & W & R & C & V).
  cbn in R, C. rewrite E. cbn [bind].
  destruct (usmv_ok w a x r W) as (r' & E' & L' & V'); [lia|lia|].
  exists r'. split; [exact E'|]. split; [exact L'|]. intros i Hi. rewrite V', R.
  destruct (Nat.ltb_spec i m); [|lia]. f_equal. f_equal. rewrite C, Lx.
  apply nsum_ext. intros j Hj. rewrite V by (cbn; lia). rewrite lmat_new_entry by lia. ring.
Qed.

Lemma jb_volume_ok jac w x r : entries_in (length r) (length x) (jac x) ->
  exists r', jb_alpha_volume jac w x r = Ok r' /\ times_added w (entry_sum (jac x)) x r r'.
Proof. intros H. apply jb_times; auto. Qed.
Lemma jb_boundary_ok jac w x r : length r = length x -> entries_in (length r) (length x) (jac x) ->
  exists r', jb_alpha_boundary jac w x r = Ok r' /\ times_added w (entry_sum (jac x)) x r r'.
Proof. intros L H. unfold jb_alpha_boundary. rewrite <- L in H |- *. apply jb_times; auto. Qed.

Lemma new_entries l m n : entries_in m n l ->
  exists a, foldM (laccumulate 1) l (lmat_new m n 0) = Ok a /\ lmat_ok a /\ lrows a = m /\ lcols a = n /\
    forall i j, (i < m)%nat -> (j < n)%nat -> entry a i j = entry_sum l i j.
Proof.
  intros H. destruct (entries_ok 1 l (lmat_new m n 0) (lmat_new_ok _ _ _) H) as (a & E & W & R & C & V).
  exists a. split; [exact E|]. split; [exact W|]. split; [exact R|]. split; [exact C|].
  intros i j Hi Hj. rewrite V by assumption.
  rewrite lmat_new_entry by assumption. ring.
Qed.

Lemma jb_skeleton_ok jac ws wn xs xn rs rn :
  let e := jac xs xn in
  entries_in (length rs) (length xs) (e_ss e) -> entries_in (length rs) (length xn) (e_sn e) ->
  entries_in (length rn) (length xs) (e_ns e) -> entries_in (length rn) (length xn) (e_nn e) ->
  exists rs' rn', jb_alpha_skeleton jac ws wn xs xn rs rn = Ok (rs', rn') /\
    length rs' = length rs /\ length rn' = length rn /\
    (forall i, (i < length rs)%nat -> nth i rs' 0 = nth i rs 0 +
       ws * (nsum (length xs) (fun j => entry_sum (e_ss e) i j * nth j xs 0) + nsum (length xn) (fun j => entry_sum (e_sn e) i j * nth j xn 0))) /\
    (forall i, (i < length rn)%nat -> nth i rn' 0 = nth i rn 0 +
       wn * (nsum (length xs) (fun j => entry_sum (e_ns e) i j * nth j xs 0) + nsum (length xn) (fun j => entry_sum (e_nn e) i j * nth j xn 0))).
Proof.
  intros e H1 H2 H3 H4. unfold jb_alpha_skeleton. fold e.
  destruct (new_entries _ _ _ H1) as (a1 & E1 & W1 & R1 & C1 & V1). rewrite E1; cbn [bind].
  destruct (new_entries _ _ _ H2) as (a2 & E2 & W2 & R2 & C2 & V2). rewrite E2; cbn [bind].
  destruct (new_entries _ _ _ H3) as (a3 & E3 & W3 & R3 & C3 & V3). rewrite E3; cbn [bind].
  destruct (new_entries _ _ _ H4) as (a4 & E4 & W4 & R4 & C4 & V4). rewrite E4; cbn [bind].
  destruct (usmv_ok ws a1 xs rs W1) as (s1 & F1 & L1 & U1); [lia|lia|]. rewrite F1; cbn [bind].
  destruct (usmv_ok wn a3 xs rn W3) as (n1 & F2 & L2 & U2); [lia|lia|]. rewrite F2; cbn [bind].
  destruct (usmv_ok ws a2 xn s1 W2) as (s2 & F3 & L3 & U3); [lia|lia|]. rewrite F3; cbn [bind].
  destruct (usmv_ok wn a4 xn n1 W4) as (n2 & F4 & L4 & U4); [lia|lia|]. rewrite F4; cbn [bind].
  exists s2, n2. split; [reflexivity|]. split; [congruence|]. split; [congruence|].
  split; intros i Hi.
  - rewrite U3, U1, R1, R2. destruct (Nat.ltb_spec i (length rs)); [|lia].
    rewrite C1, C2, Rplus_assoc. f_equal. rewrite <- Rmult_plus_distr_l. f_equal. f_equal; apply nsum_ext; intros j Hj.
    + now rewrite V1. + now rewrite V2.
  - rewrite U4, U2, R3, R4. destruct (Nat.ltb_spec i (length rn)); [|lia].
    rewrite C3, C4, Rplus_assoc. f_equal. rewrite <- Rmult_plus_distr_l. f_equal. f_equal; apply nsum_ext; intros j Hj.
    + now rewrite V3. + now rewrite V4.
Qed.

(** ** Iteration *)
Fixpoint steps {A} (k : nat) (f : A -> A) (a : A) : A := match k with O => a | S k' => f (steps k' f a) end.

Lemma iter_row r c : forall k i j, (j + k < c)%nat -> steps k (it_next (mklmat r c [])) (i, j) = (i, (j + k)%nat).
Proof.
  induction k as [|k IH]; intros i j H; cbn [steps]; [now rewrite Nat.add_0_r|].
  rewrite IH by lia. unfold it_next. cbn [lcols]. destruct (Nat.ltb_spec (j + k) (c - 1)); [f_equal; lia|lia].
Qed.
Lemma steps_add {A} (f : A -> A) k l a : steps (k + l) f a = steps k f (steps l f a).
Proof. induction k; cbn; auto. now rewrite IHk. Qed.
Lemma next_shape a p : it_next a p = it_next (mklmat (lrows a) (lcols a) []) p.
Proof. reflexivity. Qed.
Lemma iter_rows a i : (0 < lcols a)%nat -> steps (i * lcols a) (it_next a) it_begin = (i, 0%nat).
Proof.
  intros H. induction i as [|i IH]; [reflexivity|].
  replace (S i * lcols a)%nat with (S (lcols a - 1) + i * lcols a)%nat by lia.
  rewrite steps_add, IH. cbn [steps].
  assert (E : steps (lcols a - 1) (it_next a) (i, 0%nat) = (i, (lcols a - 1)%nat)).
  { change (it_next a) with (it_next (mklmat (lrows a) (lcols a) [])). rewrite iter_row by lia. f_equal. }
  rewrite E. unfold it_next. destruct (Nat.ltb_spec (lcols a - 1) (lcols a - 1)); [lia|auto].
Qed.
Lemma iter_at a i j : (j < lcols a)%nat -> steps (i * lcols a + j) (it_next a) it_begin = (i, j).
Proof.
  intros H. rewrite Nat.add_comm, steps_add, iter_rows by lia.
  change (it_next a) with (it_next (mklmat (lrows a) (lcols a) [])). now rewrite iter_row by lia.
Qed.
Lemma positions_nth r c i j d : (i < r)%nat -> (j < c)%nat -> nth (i * c + j) (positions r c) d = (i, j).
Proof.
  intros Hi Hj. unfold positions.
  assert (G : forall r b, (i < r)%nat -> nth (i * c + j) (flat_map (fun i => map (fun j => (i, j)) (seq 0 c)) (seq b r)) d = ((b + i)%nat, j)).
  { clear r Hi. revert i. induction i as [|i IH]; intros r b H; destruct r as [|r]; try lia; cbn [seq flat_map].
    - rewrite app_nth1 by (rewrite map_length, seq_length; lia). cbn [Nat.mul Nat.add].
      rewrite (nth_indep _ d (b, 0%nat)) by (rewrite map_length, seq_length; lia).
      rewrite (map_nth (fun j => (b, j))). rewrite seq_nth by lia. now rewrite Nat.add_0_r.
    - rewrite app_nth2; rewrite map_length, seq_length; [|lia].
      replace (S i * c + j - c)%nat with (i * c + j)%nat by lia. rewrite IH by lia. f_equal. lia. }
  now rewrite G.
Qed.
Lemma positions_length r c : length (positions r c) = (r * c)%nat.
Proof.
  unfold positions. generalize 0%nat at 2. induction r as [|r IH]; intros b; cbn; auto.
  now rewrite app_length, map_length, seq_length, IH.
Qed.

Lemma iteration a k : (k < lrows a * lcols a)%nat ->
  steps k (it_next a) it_begin = nth k (positions (lrows a) (lcols a)) (0, 0)%nat.
Proof.
  intros H. assert (C : (0 < lcols a)%nat) by nia.
  pose proof (Nat.div_mod k (lcols a) ltac:(lia)) as E.
  pose proof (Nat.mod_upper_bound k (lcols a) ltac:(lia)) as M.
  set (i := (k / lcols a)%nat) in *. set (j := (k mod lcols a)%nat) in *.
  replace k with (i * lcols a + j)%nat by lia.
  rewrite iter_at by assumption. rewrite positions_nth; auto. nia.
Qed.
Lemma iteration_end a : steps (lrows a * lcols a) (it_next a) it_begin = it_end a.
Proof.
  unfold it_end. destruct (Nat.ltb_spec 0 (lcols a)).
  - now apply iter_rows.
  - replace (lrows a * lcols a)%nat with 0%nat by nia. reflexivity.
Qed.
Lemma next_prev a p : (snd p < lcols a)%nat -> it_prev a (it_next a p) = p.
Proof.
  destruct p as (i, j). cbn [snd]. intros H. unfold it_next. destruct (Nat.ltb_spec j (lcols a - 1)); unfold it_prev.
  - destruct (Nat.ltb_spec 0 (S j)); [|lia]. f_equal. lia.
  - destruct (Nat.ltb_spec 0 0); [lia|]. f_equal; lia.
Qed.
