(** Grid view functions, Piola transformation and curls. *)
From Coq Require Import Reals Lra.
From Verif Require Import Common CommonFacts LfsModel LfsSpec LfsProofs FunModel FunSpec FunProofs FunProofs2 FunProofs3.

(** ** DiscreteGridViewFunction *)
Lemma read_len (x : vec) (a : list dof) n : forall k xl xl', foldM (fun xl i => match nth_error a i with
                     | Some d => if i <? length xl then Ok (upd i (x d) xl) else UB
                     | None => UB
                     end) (seq k n) xl = Ok xl' -> length xl' = length (xl : list R).
Proof.
  induction n as [|n IH]; intros k xl xl' E; cbn [seq foldM] in E; [injection E as <-; reflexivity|]. destruct (nth_error (a : list dof) k); [|discriminate].
  destruct (k <? length xl); [|discriminate]. cbn [bind] in E. rewrite (IH _ _ _ E). apply upd_length.
Qed.
Lemma load_usable t room e (x : vec) st st' : usable t room st -> load e x st = Ok st' -> usable t room st'.
Proof.
  intros (Rc & L) E. destruct st as (s, xl). unfold load in E. apply bind_ok in E. destruct E as (s' & B & E). apply bind_ok in E. destruct E as (xl' & F & E).
  injection E as <-. split; cbn [fst snd] in *; [eapply Rebound; eassumption|]. unfold read in F. rewrite (read_len _ _ _ _ _ _ F). exact L.
Qed.

Lemma step_usable fem dim IT t room s o s' : usable t room (snd (fst (fst s))) -> gvf_step fem dim IT s o = Ok s' -> usable t room (snd (fst (fst s'))).
Proof.
  destruct s as (((el, st), x), out). intros U E. destruct o; cbn [gvf_step fst snd] in *.
  - apply bind_ok in E. destruct E as (st' & L & E). injection E as <-. cbn. eapply load_usable; eassumption.
  - injection E as <-. exact U.
  - destruct (fst (fst st)); [|discriminate]. destruct el; [|discriminate]. apply bind_ok in E. destruct E as (fe & _ & E). apply bind_ok in E. destruct E as (y & _ & E).
    injection E as <-. exact U.
  - destruct (fst (fst st)); [|discriminate]. destruct el; [|discriminate]. apply bind_ok in E. destruct E as (fe & _ & E). apply bind_ok in E. destruct E as (y & _ & E).
    injection E as <-. exact U.
  - injection E as <-. exact U.
Qed.
Lemma run_usable fem dim IT t room ops : forall s s', usable t room (snd (fst (fst s))) -> foldM (gvf_step fem dim IT) ops s = Ok s' ->
  usable t room (snd (fst (fst s'))).
Proof.
  induction ops as [|o ops IH]; intros s s' U E; cbn [foldM] in E; [injection E as <-; exact U|]. apply bind_ok in E. destruct E as (s1 & E1 & E).
  eapply IH; [|exact E]. eapply step_usable; eassumption.
Qed.

(** The local function as it is after binding. *)
Definition holds (x : vec) (e : nat) (o n : nat) (fm : nat -> element) (g : gvf) : Prop :=
  fst g = Some e /\ fst (fst (snd g)) = bound_tree e (Leaf o n fm) /\ loaded x e (bound_tree e (Leaf o n fm)) (snd (snd g)).

Lemma value_ok fem dim IT room o n fm x e g x2 out p : ready fem (Leaf o n fm) room e -> inside (fm e) = true -> holds x e o n fm g ->
  exists y, gvf_step fem dim IT (g, x2, out) (Value p) = Ok (g, x2, out ++ [Values y]) /\
    forall r, y r = combination (coeffs x (mkleaf [] o n fm) e) (values (fem [] e) p) r.
Proof.
  intros Rd In1 (H1 & H2 & H3). cbn [gvf_step]. rewrite H1, H2. unfold bound_tree in *. cbn [compute fst] in *. unfold finite_element. rewrite In1. cbn [bind].
  destruct (H3 (mkleaf [] 0 (leaf_size false (fm e)) fm) (or_introl eq_refl) In1) as (L1 & L2). cbn [start len] in *.
  destruct Rd as (C & _ & D). destruct (D _ (or_introl eq_refl) In1) as (_ & _ & D3 & _). cbn [path fe] in D3. specialize (D3 p).
  specialize (C _ (or_introl eq_refl) In1). cbn [fe] in C.
  destruct (axpy_all_ok 0 (snd (snd g)) (coeffs x (mkleaf [] o n fm) e) (values (fem [] e) p)) as (y & Y & E).
  - unfold coeffs. rewrite map_length. cbn [fe]. lia.
  - intros i Hi. apply L2. unfold leaf_size. rewrite In1. lia.
  - rewrite Y. cbn [bind]. eauto.
Qed.
Lemma fold_rows (xl : list R) (vs0 : list (nat -> nat -> R)) (op : (nat -> nat -> R) -> nat -> nat -> R) : forall vs cs k y0,
  length cs = length vs -> (forall i, i < length vs -> nth_error xl (k + i) = nth_error cs i) -> (forall i, nth_error vs0 (k + i) = nth_error vs i) ->
  exists y, foldM (fun (y : nat -> nat -> R) i => match nth_error xl i, nth_error vs0 i with
                              | Some c, Some v => Ok (fun j r => y j r + c * op v j r)%R
                              | _, _ => UB
                              end) (seq k (length vs)) y0 = Ok y /\ forall j r, y j r = (y0 j r + combination cs (map (fun v => op v j) vs) r)%R.
Proof.
  induction vs as [|v vs IH]; intros [|c cs] k y0 L X V0; try discriminate.
  - exists y0. split; [reflexivity|]. intros j r. rewrite combination_nil. lra.
  - cbn [length seq foldM]. pose proof (X 0 ltac:(cbn; lia)) as X0. pose proof (V0 0) as V1. rewrite Nat.add_0_r in X0, V1. rewrite X0, V1. cbn [nth_error bind].
    destruct (IH cs (S k) (fun j r => y0 j r + c * op v j r)%R) as (y & F & E).
    + cbn in L. lia.
    + intros i Hi. replace (S k + i) with (k + S i) by lia. apply (X (S i)). cbn. lia.
    + intros i. replace (S k + i) with (k + S i) by lia. apply V0.
    + exists y. split; [exact F|]. intros j r. rewrite E. cbn [map]. rewrite combination_cons. lra.
Qed.
Lemma derivative_ok fem dim IT room o n fm x e g x2 out p : ready fem (Leaf o n fm) room e -> inside (fm e) = true -> holds x e o n fm g ->
  exists y, gvf_step fem dim IT (g, x2, out) (Derivative p) = Ok (g, x2, out ++ [Rows y]) /\
    forall j k, y j k = combination (coeffs x (mkleaf [] o n fm) e) (map (fun J => umv dim (IT e p) (J j)) (jacobians (fem [] e) p)) k.
Proof.
  intros Rd In1 (H1 & H2 & H3). cbn [gvf_step]. rewrite H1, H2. unfold bound_tree in *. cbn [compute fst] in *. unfold finite_element. rewrite In1. cbn [bind].
  destruct (H3 (mkleaf [] 0 (leaf_size false (fm e)) fm) (or_introl eq_refl) In1) as (L1 & L2). cbn [start len] in *.
  destruct Rd as (C & _ & D). destruct (D _ (or_introl eq_refl) In1) as (_ & _ & _ & D4). cbn [path fe] in D4. specialize (D4 p).
  specialize (C _ (or_introl eq_refl) In1). cbn [fe] in C.
  destruct (fold_rows (snd (snd g)) (jacobians (fem [] e) p) (fun J j k => umv dim (IT e p) (J j) k) (jacobians (fem [] e) p) (coeffs x (mkleaf [] o n fm) e) 0 (fun _ _ => 0%R)) as (y & Y & E).
  - unfold coeffs. rewrite map_length. cbn [fe]. lia.
  - intros i Hi. apply L2. unfold leaf_size. rewrite In1. lia.
  - reflexivity.
  - rewrite Y. cbn [bind]. exists y. split; [reflexivity|]. intros j k. rewrite E. rewrite Rplus_0_l. apply (f_equal (fun l => combination (coeffs x (mkleaf [] o n fm) e) l k)).
    apply map_ext. reflexivity.
Qed.

Definition query (o : op) : bool := match o with Bind _ => false | Unbind => false | _ => true end.
Lemma queries_ok fem dim IT room o n fm x e ops : ready fem (Leaf o n fm) room e -> inside (fm e) = true -> forallb query ops = true ->
  forall g x2 out, holds x e o n fm g -> exists x3 out', foldM (gvf_step fem dim IT) ops (g, x2, out) = Ok (g, x3, out').
Proof.
  intros Rd In1. induction ops as [|q ops IH]; intros Q g x2 out H; [exists x2, out; reflexivity|]. cbn [forallb] in Q. apply andb_prop in Q. destruct Q as (Q1 & Q2). cbn [foldM].
  destruct q; try discriminate.
  - destruct (value_ok fem dim IT room o n fm x e g x2 out p Rd In1 H) as (y & E & _). rewrite E. cbn [bind]. apply IH; assumption.
  - destruct (derivative_ok fem dim IT room o n fm x e g x2 out p Rd In1 H) as (y & E & _). rewrite E. cbn [bind]. apply IH; assumption.
  - cbn [gvf_step bind]. apply IH; assumption.
Qed.

Lemma gvf_ok fem dim IT room o n fm before e mid st0 x0 g x out : ready fem (Leaf o n fm) room e -> inside (fm e) = true ->
  usable (Leaf o n fm) room st0 -> foldM (gvf_step fem dim IT) before ((None, st0), x0, []) = Ok (g, x, out) -> forallb query mid = true ->
  exists g' x' out', foldM (gvf_step fem dim IT) (before ++ Bind e :: mid) ((None, st0), x0, []) = Ok (g', x', out') /\ holds x e o n fm g'.
Proof.
  intros Rd In1 U F Q. pose proof (run_usable fem dim IT _ room before ((None, st0), x0, []) _ U F) as U'. cbn [fst snd] in U'.
  destruct (load_ok fem (Leaf o n fm) room e x (snd g) Rd U') as (st' & Ld & _ & Tr & Lo). rewrite foldM_app, F. cbn [bind foldM gvf_step]. rewrite Ld. cbn [bind].
  assert (H : holds x e o n fm (Some e, st')) by (split; [reflexivity|split; assumption]).
  destruct (queries_ok fem dim IT room o n fm x e mid Rd In1 Q (Some e, st') x out H) as (x3 & out' & E). exists (Some e, st'), x3, out'. split; [exact E|exact H].
Qed.

(** ** Piola *)
Lemma inverse_unique dim J IT inv : inverse_transposed dim J IT -> (forall i j, i < dim -> j < dim -> rsum dim (fun k => IT i k * inv k j)%R = delta i j) ->
  forall i j, i < dim -> j < dim -> inv i j = J j i.
Proof.
  intros H1 H2 i j Hi Hj.
  transitivity (rsum dim (fun l => rsum dim (fun k => J k i * IT k l)%R * inv l j)%R).
  - rewrite (rsum_ext dim _ (fun l => delta i l * inv l j)%R) by (intros l Hl; rewrite H1 by assumption; reflexivity). symmetry. apply (rsum_delta dim (fun l => inv l j) i Hi).
  - rewrite (rsum_ext dim _ (fun l => rsum dim (fun k => J k i * (IT k l * inv l j)))%R).
    + rewrite rsum_swap. rewrite (rsum_ext dim _ (fun k => delta j k * J k i)%R).
      * apply (rsum_delta dim (fun k => J k i) j Hj).
      * intros k Hk. rewrite rsum_scal, H2 by assumption. unfold delta. rewrite Nat.eqb_sym. lra.
    + intros l _. rewrite <- rsum_scal_r. apply rsum_ext. intros k _. lra.
Qed.

Lemma rsum2 f : rsum 2 f = (f 0%nat + f 1%nat)%R. Proof. unfold rsum. cbn. lra. Qed.
Lemma rsum3 f : rsum 3 f = (f 0%nat + f 1%nat + f 2%nat)%R. Proof. unfold rsum. cbn. lra. Qed.

Lemma det2_inv J IT : inverse_transposed 2 J IT -> (det2 J * det2 IT = 1)%R.
Proof.
  intros H. pose proof (H 0 0 ltac:(lia) ltac:(lia)) as A. pose proof (H 0 1 ltac:(lia) ltac:(lia)) as B. pose proof (H 1 0 ltac:(lia) ltac:(lia)) as C.
  pose proof (H 1 1 ltac:(lia) ltac:(lia)) as D. rewrite rsum2 in A, B, C, D. unfold delta in *. cbn in A, B, C, D. unfold det2.
  transitivity ((J 0%nat 0%nat * IT 0%nat 0%nat + J 1%nat 0%nat * IT 1%nat 0%nat) * (J 0%nat 1%nat * IT 0%nat 1%nat + J 1%nat 1%nat * IT 1%nat 1%nat)
    - (J 0%nat 0%nat * IT 0%nat 1%nat + J 1%nat 0%nat * IT 1%nat 1%nat) * (J 0%nat 1%nat * IT 0%nat 0%nat + J 1%nat 1%nat * IT 1%nat 0%nat))%R; [ring|].
  rewrite A, B, C, D. lra.
Qed.
Lemma det3_inv J IT : inverse_transposed 3 J IT -> (det3 J * det3 IT = 1)%R.
Proof.
  intros H.
  assert (E : (det3 J * det3 IT = det3 (fun i j => rsum 3 (fun k => J k i * IT k j)))%R) by (unfold det3; rewrite !rsum3; ring).
  rewrite E. unfold det3. rewrite !H by lia. unfold delta. cbn. lra.
Qed.

(** ** Curl of global finite elements *)
Lemma global_curl3 xl J : length J <= length xl -> (forall M, In M J -> length M = 3 /\ forall r, In r M -> length r = 3) ->
  exists y, global_curl 3 xl J = Ok y /\ length y = 3 /\
    forall a, a < 3 -> nth a y 0%R = rsum (length J) (fun i => nth i xl 0 *
       nth a (match jacobian_to_curl 3 3 (fun r c => nth c (nth r (nth i J []) []) 0%R) with Some l => l | None => [] end) 0)%R.
Proof.
  intros L H. unfold global_curl.
  set (body := fun (y : list R) (i : nat) => _).
  assert (G : forall m, m <= length J -> exists y, foldM body (seq 0 m) (repeat 0%R (curl_dim 3)) = Ok y /\ length y = 3 /\
     forall a, a < 3 -> nth a y 0%R = rsum m (fun i => nth i xl 0 *
       nth a (match jacobian_to_curl 3 3 (fun r c => nth c (nth r (nth i J []) []) 0%R) with Some l => l | None => [] end) 0)%R).
  { induction m as [|m IH]; intros Hm.
    - eexists. split; [reflexivity|]. split; [reflexivity|]. intros [|[|[|a]]] Ha; try lia; reflexivity.
    - destruct (IH ltac:(lia)) as (y & F & Ly & E). rewrite seq_S, foldM_app, F. cbn [bind foldM Nat.add].
      destruct (nth_error xl m) as [c|] eqn:Nx; [|apply nth_error_None in Nx; lia]. destruct (nth_error J m) as [M|] eqn:NM; [|apply nth_error_None in NM; lia].
      destruct (H M (nth_error_In _ _ NM)) as (LM & Lr). destruct M as [|r0 [|r1 [|r2 [|? ?]]]]; try discriminate.
      destruct r0 as [|a00 [|a01 [|a02 [|? ?]]]]; try (specialize (Lr _ (or_introl eq_refl)); discriminate).
      destruct r1 as [|a10 [|a11 [|a12 [|? ?]]]]; try (specialize (Lr _ (or_intror (or_introl eq_refl))); discriminate).
      destruct r2 as [|a20 [|a21 [|a22 [|? ?]]]]; try (specialize (Lr _ (or_intror (or_intror (or_introl eq_refl)))); discriminate).
      destruct y as [|y0 [|y1 [|y2 [|? ?]]]]; try discriminate.
      eexists. split; [unfold body; rewrite Nx, NM; cbn; reflexivity|]. split; [reflexivity|]. intros a Ha. rewrite rsum_S, <- (E a Ha). rewrite (nth_error_nth _ _ 0%R Nx), (nth_error_nth _ _ [] NM).
      destruct a as [|[|[|a]]]; try lia; cbn; lra. }
  apply (G (length J) (le_n _)).
Qed.
