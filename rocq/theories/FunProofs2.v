(** Discrete grid functions. *)
From Coq Require Import Reals Lra.
From Verif Require Import Common CommonFacts LfsModel LfsSpec LfsProofs FunModel FunSpec FunProofs.

(** ** Reached states *)
Lemma write_len pos d a a' : write pos d a = Ok a' -> length a' = length a.
Proof. unfold write. destruct (pos <? length a); [|discriminate]. intros E. injection E as <-. apply upd_length. Qed.
Lemma store_len ks : forall pos a a', store_all pos ks a = Ok a' -> length a' = length a.
Proof.
  induction ks as [|((g, i), k) ks IH]; intros pos a a' E; cbn in E; [injection E as <-; reflexivity|]. apply bind_ok in E.
  destruct E as (a1 & W & E). rewrite (IH _ _ _ E). apply write_len in W. exact W.
Qed.
Lemma push_len k n : forall pos a a', push_range pos n k a = Ok a' -> length a' = length a.
Proof.
  induction n as [|n IH]; intros pos a a' E; cbn in E; [injection E as <-; reflexivity|]. destruct (nth_error a pos); [|discriminate].
  rewrite (IH _ _ _ E). apply upd_length.
Qed.
Lemma fill_len e t : forall a a', fill false e t a = Ok a' -> length a' = length a.
Proof.
  induction t as [o n fm|o n ch IH] using lfs_ind'; intros a a' E.
  - cbn in E. unfold dof_indices in E. destruct (inside (fm e)); [|injection E as <-; reflexivity]. eapply store_len, E.
  - rewrite fill_inner in E. revert a a' E. generalize 0 as k. induction IH as [|c r Hc Hr IHr]; intros k a a' E; cbn [fill_list] in E.
    + injection E as <-. reflexivity.
    + apply bind_ok in E. destruct E as (a1 & E1 & E). apply bind_ok in E. destruct E as (a2 & E2 & E). rewrite (IHr _ _ _ E), (push_len _ _ _ _ _ E2), (Hc _ _ E1). reflexivity.
Qed.
Lemma reached_inv t room s : reached t room s -> same t (fst s) /\ room <= length (snd s).
Proof.
  induction 1 as [a L|e (t1, a1) (t2, a2) R (S & L) B]; cbn [fst snd] in *; [split; [apply same_refl|exact L]|].
  destruct (bound _ _ _ _ _ _ B) as (-> & F). split; [eapply same_trans; [exact S|apply same_compute]|]. rewrite (fill_len _ _ _ _ F). exact L.
Qed.

(** ** Sums *)
Lemma combination_nil vs r : combination [] vs r = 0%R. Proof. reflexivity. Qed.
Lemma combination_cons c cs v vs r : combination (c :: cs) (v :: vs) r = (c * v r + combination cs vs r)%R.
Proof. reflexivity. Qed.

Lemma fold_combination {V} (xl : list R) (vs0 : list V) (o : nat) (op : V -> nat -> R) : forall vs cs k y0,
  length cs = length vs -> (forall i, i < length vs -> nth_error xl (o + (k + i)) = nth_error cs i) -> (forall i, nth_error vs0 (k + i) = nth_error vs i) ->
  exists y, foldM (fun y i => match nth_error xl (o + i), nth_error vs0 i with
                              | Some c, Some v => Ok (fun r => y r + c * op v r)%R
                              | _, _ => UB
                              end) (seq k (length vs)) y0 = Ok y /\ forall r, y r = (y0 r + combination cs (map op vs) r)%R.
Proof.
  induction vs as [|v vs IH]; intros [|c cs] k y0 L X V0; try discriminate.
  - exists y0. split; [reflexivity|]. intros r. rewrite combination_nil. lra.
  - cbn [length seq foldM]. pose proof (X 0 ltac:(cbn; lia)) as X0. pose proof (V0 0) as V1. rewrite Nat.add_0_r in X0, V1. rewrite X0, V1. cbn [nth_error bind].
    destruct (IH cs (S k) (fun r => y0 r + c * op v r)%R) as (y & F & E).
    + cbn in L. lia.
    + intros i Hi. replace (S k + i) with (k + S i) by lia. apply (X (S i)). cbn. lia.
    + intros i. replace (S k + i) with (k + S i) by lia. apply V0.
    + exists y. split; [exact F|]. intros r. rewrite E. cbn [map]. rewrite combination_cons. lra.
Qed.

Lemma axpy_all_ok o xl cs yb : length cs = length yb -> (forall i, i < length yb -> nth_error xl (o + i) = nth_error cs i) ->
  exists y, axpy_all o xl yb = Ok y /\ forall r, y r = combination cs yb r.
Proof.
  intros L X. destruct (fold_combination xl yb o (fun v => v) yb cs 0 (fun _ => 0%R) L X (fun i => eq_refl)) as (y & F & E).
  exists y. split; [exact F|]. intros r. rewrite E, map_id. lra.
Qed.
Lemma axpy_n_ok o n xl cs J (op : (nat -> nat -> R) -> nat -> R) : length cs = length J -> length J = n ->
  (forall i, i < n -> nth_error xl (o + i) = nth_error cs i) ->
  exists y, axpy_n o n xl J op = Ok y /\ forall r, y r = combination cs (map op J) r.
Proof.
  intros L Ln X. subst n. destruct (fold_combination xl J o op J cs 0 (fun _ => 0%R) L X (fun i => eq_refl)) as (y & F & E).
  exists y. split; [exact F|]. intros r. rewrite E. lra.
Qed.

(** ** Reading *)
Lemma read_fold (x : vec) (a ds : list dof) : forall k xl0 xl, length ds <= length xl -> length xl0 = k ->
  (forall i d, nth_error ds i = Some d -> nth_error a (k + i) = Some d) ->
  foldM (fun xl i => match nth_error a i with
                     | Some d => if i <? length xl then Ok (upd i (x d) xl) else UB
                     | None => UB
                     end) (seq k (length ds)) (xl0 ++ xl) = Ok (xl0 ++ map x ds ++ skipn (length ds) xl : list R).
Proof.
  induction ds as [|d ds IH]; intros k xl0 xl L Lk A; [reflexivity|]. destruct xl as [|v xl]; [cbn in L; lia|]. cbn [length seq foldM].
  pose proof (A 0 d eq_refl) as A0. rewrite Nat.add_0_r in A0. rewrite A0.
  assert (Lt : (k <? length (xl0 ++ v :: xl)) = true) by (apply Nat.ltb_lt; rewrite app_length; cbn; lia). rewrite Lt. cbn [bind].
  assert (U : upd k (x d) (xl0 ++ v :: xl) = (xl0 ++ [x d]) ++ xl).
  { subst k. clear. induction xl0 as [|a xl0 IH]; [reflexivity|]. cbn. rewrite IH. reflexivity. }
  rewrite U, IH.
  - rewrite <- app_assoc. reflexivity.
  - cbn in L. lia.
  - rewrite app_length. cbn. lia.
  - intros i d' N. replace (S k + i) with (k + S i) by lia. apply A, N.
Qed.
Lemma read_ok x ds rest xl : length ds <= length xl -> read (length ds) (ds ++ rest) x xl = Ok (map x ds ++ skipn (length ds) xl).
Proof.
  intros L. apply (read_fold x (ds ++ rest) ds 0 [] xl L eq_refl). intros i d N. cbn. rewrite nth_error_app1; [exact N|].
  apply nth_error_Some. rewrite N. discriminate.
Qed.

(** The coefficients of a leaf of the bound tree, in the array [xl]. *)
Definition loaded (x : vec) (e : nat) (T : lfs) (xl : list R) : Prop :=
  forall l, In l (leaves T) -> inside (fe l e) = true -> len l = length (coeffs x l e) /\
    forall i, i < len l -> nth_error xl (start l + i) = nth_error (coeffs x l e) i.

Lemma loaded_map fem x e T ds rest xl : (forall l, In l (leaves T) -> good fem e (ds ++ rest) l) -> length ds = size T ->
  (forall l, In l (leaves T) -> start l + len l <= size T) -> loaded x e T (map x ds ++ xl).
Proof.
  intros G Ls Lt l I In1. specialize (G l I). unfold good in G. rewrite In1 in G. destruct G as (G1 & _ & G3). unfold coeffs. rewrite map_length.
  split; [exact G1|]. intros i Hi. specialize (Lt l I). rewrite nth_error_app1 by (rewrite map_length; lia). rewrite !nth_error_map.
  destruct (nth_error (locals (fe l e)) i) as [c|] eqn:Nc; [|apply nth_error_None in Nc; lia]. specialize (G3 i c Nc).
  rewrite nth_error_app1 in G3 by lia. rewrite G3. reflexivity.
Qed.

Lemma tree_bounds e t : forall l, In l (leaves (bound_tree e t)) -> start l + len l <= size (bound_tree e t).
Proof.
  intros l I. destruct (compute_spec false e t 0) as (_ & A2 & _ & A4 & _ & _). pose proof (tiles_in _ _ _ A4 I). unfold bound_tree in *. lia.
Qed.

Lemma load_ok fem t room e x st : ready fem t room e -> usable t room st ->
  exists st', load e x st = Ok st' /\ usable t room st' /\ fst (fst st') = bound_tree e t /\ loaded x e (bound_tree e t) (snd st').
Proof.
  intros Rd (Rc & Lx). destruct st as ((t1, a1), xl). cbn [fst snd] in *. destruct (reached_inv _ _ _ Rc) as (S & La). cbn [fst snd] in *.
  destruct (bind_ready fem t room e t1 a1 Rd S La) as (rest & B & L2 & S2 & L3 & G). unfold load. rewrite B. cbn [bind fst snd].
  assert (Ls : size (bound_tree e t) <= room) by (destruct Rd as (_ & Rd & _); rewrite leaf_sum in Rd; exact Rd).
  rewrite <- L3, read_ok by lia. cbn [bind]. eexists. split; [reflexivity|]. split; [|split; [reflexivity|]].
  - split; cbn [fst snd].
    + eapply Rebound; [exact Rc|exact B].
    + rewrite app_length, map_length, skipn_length. lia.
  - cbn [snd]. eapply loaded_map; [exact G|exact L3|apply tree_bounds].
Qed.

(** ** A leaf and its bound version *)
Lemma bound_nth e t k l : nth_error (leaves t) k = Some l ->
  exists l', nth_error (leaves (bound_tree e t)) k = Some l' /\ path l' = path l /\ fe l' = fe l.
Proof.
  intros N. destruct (compute_spec false e t 0) as (_ & _ & _ & _ & A5 & _). fold (bound_tree e t) in A5.
  pose proof (f_equal (fun L => nth_error L k) A5) as E. cbn beta in E. rewrite !nth_error_map, N in E. cbn [option_map] in E.
  destruct (nth_error (leaves (bound_tree e t)) k) as [l'|]; [|discriminate]. exists l'. injection E as E1 E2. auto.
Qed.
Lemma coeffs_eq x e l l' : path l' = path l -> fe l' = fe l -> coeffs x l' e = coeffs x l e.
Proof. intros E1 E2. unfold coeffs. rewrite E1, E2. reflexivity. Qed.

Lemma dgf_ok fem t room x e p st o n fm : t = Leaf o n fm -> ready fem t room e -> inside (fm e) = true -> usable t room st ->
  exists st' y, dgf fem x e p st = Ok (st', y) /\ usable t room st' /\
    forall r, y r = combination (coeffs x (mkleaf [] o n fm) e) (values (fem [] e) p) r.
Proof.
  intros Et Rd In1 U. destruct (load_ok fem t room e x st Rd U) as (st' & Ld & U' & Tr & Lo). unfold dgf. rewrite Ld. cbn [bind]. rewrite Tr.
  subst t. unfold bound_tree in *. cbn [compute fst] in *. unfold finite_element. rewrite In1. cbn [bind].
  destruct (Lo (mkleaf [] 0 (leaf_size false (fm e)) fm) (or_introl eq_refl) In1) as (L1 & L2). cbn [start len] in *.
  destruct Rd as (C & _ & D). destruct (D _ (or_introl eq_refl) In1) as (_ & _ & D3 & _). cbn [path fe] in D3. specialize (D3 p).
  specialize (C _ (or_introl eq_refl) In1). cbn [fe] in C.
  destruct (axpy_all_ok 0 (snd st') (coeffs x (mkleaf [] o n fm) e) (values (fem [] e) p)) as (y & Y & E).
  - unfold coeffs. rewrite map_length. cbn [fe]. lia.
  - intros i Hi. apply L2. unfold leaf_size. rewrite In1. lia.
  - rewrite Y. cbn [bind]. eauto.
Qed.

(** ** Children *)
Lemma children_leaves ch : (forall c, In c ch -> exists o' n' fm, c = Leaf o' n' fm) -> forall j k o' n' fm,
  nth_error ch k = Some (Leaf o' n' fm) <-> nth_error (leaves_list j ch) k = Some (mkleaf [j + k] o' n' fm).
Proof.
  induction ch as [|c ch IH]; intros H j k o' n' fm; [destruct k; cbn; split; discriminate|]. destruct (H c (or_introl eq_refl)) as (o1 & n1 & f1 & ->).
  cbn [leaves_list leaves map under path start len fe app]. destruct k as [|k]; cbn [nth_error].
  - rewrite Nat.add_0_r. split; intros E; injection E as -> -> ->; reflexivity.
  - rewrite IH by (intros; apply H; right; assumption). rewrite Nat.add_succ_comm. reflexivity.
Qed.
Lemma children_bound e t n : children t n -> children (bound_tree e t) n.
Proof.
  intros (o & s & ch & -> & L & H). unfold bound_tree. rewrite compute_inner. destruct (compute_list false e 0 ch) as (ch', o2) eqn:E. cbn [fst].
  exists 0, (o2 - 0), ch'. split; [reflexivity|]. subst n. revert o2 ch' E. generalize 0 as oo. induction ch as [|c ch IH]; intros oo o2 ch' E; cbn [compute_list] in E.
  - injection E as <- _. auto.
  - destruct (H c (or_introl eq_refl)) as (o1 & n1 & f1 & ->). cbn [compute] in E.
    destruct (compute_list false e (oo + leaf_size false (f1 e)) ch) as (r', o3) eqn:E'. injection E as <- _.
    destruct (IH (fun c I => H c (or_intror I)) _ _ _ E') as (L & H'). split; [cbn; congruence|]. intros c [<-|I]; [eauto|apply H', I].
Qed.
Lemma child_leaf t n k : children t n -> k < n -> exists l, nth_error (leaves t) k = Some l /\ path l = [k] /\ In l (leaves t) /\
  child t k = Ok (start l, len l, fe l).
Proof.
  intros (o & s & ch & -> & L & H) Hk. destruct (nth_error ch k) as [c|] eqn:N; [|apply nth_error_None in N; lia].
  destruct (H c (nth_error_In _ _ N)) as (o' & n' & fm & ->). rewrite leaves_inner. exists (mkleaf [k] o' n' fm).
  pose proof (proj1 (children_leaves ch H 0 k o' n' fm) N) as M. cbn [Nat.add] in M.
  repeat split; [exact M|exact (nth_error_In _ _ M)|]. cbn [child start len fe]. rewrite N. reflexivity.
Qed.
Lemma children_degree t n : children t n -> degree t = n.
Proof. intros (o & s & ch & -> & L & _). exact L. Qed.

Lemma foldM_list {A} (f : nat -> res A) (P : nat -> A -> Prop) : forall m k acc, (forall j, k <= j < k + m -> exists a, f j = Ok a /\ P j a) ->
  exists l, foldM (fun y j => let* v := f j in Ok (y ++ [v])) (seq k m) acc = Ok (acc ++ l) /\ length l = m /\
    forall i a, nth_error l i = Some a -> P (k + i) a.
Proof.
  induction m as [|m IH]; intros k acc H.
  - exists []. rewrite app_nil_r. repeat split. intros [|i] a; discriminate.
  - cbn [seq foldM]. destruct (H k ltac:(lia)) as (a & E & Pa). rewrite E. cbn [bind]. destruct (IH (S k) (acc ++ [a])) as (l & F & L & Q); [intros; apply H; lia|].
    exists (a :: l). rewrite F, <- app_assoc. repeat split; [cbn; lia|]. intros [|i] b N; cbn in N.
    + injection N as <-. rewrite Nat.add_0_r. exact Pa.
    + replace (k + S i) with (S k + i) by lia. apply Q, N.
Qed.

Lemma fold_ext {A B} (f g : B -> A -> res B) : (forall b a, f b a = g b a) -> forall l b, foldM f l b = foldM g l b.
Proof. intros H. induction l as [|a l IH]; intros b; [reflexivity|]. cbn [foldM]. rewrite H. destruct (g b a); cbn [bind]; auto. Qed.

(** The data of a child on the element. *)
Lemma child_ok fem t room e x xl N k l : ready fem t room e -> children t N -> loaded x e (bound_tree e t) xl ->
  nth_error (leaves t) k = Some l -> k < N -> inside (fe l e) = true ->
  exists o n, child (bound_tree e t) k = Ok (o, n, fe l) /\ path l = [k] /\ n = length (coeffs x l e) /\ n = basis (fe l e) /\
    (forall i, i < n -> nth_error xl (o + i) = nth_error (coeffs x l e) i) /\
    (forall p, length (values (fem [k] e) p) = n) /\ (forall p, length (jacobians (fem [k] e) p) = n).
Proof.
  intros Rd Ch Lo Nl Hk In1. destruct (child_leaf _ _ k (children_bound e t N Ch) Hk) as (l' & N' & P' & I' & Ec).
  destruct (bound_nth e t k l Nl) as (l2 & N2 & P2 & F2). rewrite N' in N2. injection N2 as <-. rewrite F2 in Ec. exists (start l'), (len l').
  destruct (Lo l' I') as (L1 & L2); [congruence|]. rewrite (coeffs_eq x e l l' P2 F2) in *.
  destruct Rd as (C & _ & D). destruct (D l (nth_error_In _ _ Nl) In1) as (_ & _ & D3 & D4). specialize (C l (nth_error_In _ _ Nl) In1).
  rewrite <- P2, P' in D3, D4. unfold coeffs in L1. rewrite map_length in L1. repeat split; auto; try (intros p; rewrite ?D3, ?D4; lia); try congruence.
  - unfold coeffs. rewrite map_length. exact L1.
Qed.

Lemma vdgf_ok fem t room N dimR remap x e p st : children t N -> ready fem t room e -> usable t room st ->
  (forall k, k < dimR -> remap k < N /\ forall l, nth_error (leaves t) (remap k) = Some l -> inside (fe l e) = true) ->
  exists st' y, vdgf fem dimR remap x e p st = Ok (st', y) /\ usable t room st' /\ length y = dimR /\
    forall k v l, nth_error y k = Some v -> nth_error (leaves t) (remap k) = Some l ->
      v = combination (coeffs x l e) (values (fem [remap k] e) p) 0.
Proof.
  intros Ch Rd U H. destruct (load_ok fem t room e x st Rd U) as (st' & Ld & U' & Tr & Lo). unfold vdgf. rewrite Ld. cbn [bind]. rewrite Tr.
  destruct (foldM_list (fun k => let* (o, n, fm) := child (bound_tree e t) (remap k) in let* fe := finite_element fem [remap k] e fm in
      let* v := axpy_all o (snd st') (values fe p) in Ok (v 0))
    (fun k v => forall l, nth_error (leaves t) (remap k) = Some l -> v = combination (coeffs x l e) (values (fem [remap k] e) p) 0) dimR 0 []) as (y & F & L & Q).
  - intros k Hk. destruct (H k ltac:(lia)) as (Hr & Hin). destruct (child_leaf t N (remap k) Ch Hr) as (l & Nl & _). specialize (Hin l Nl).
    destruct (child_ok fem t room e x (snd st') N (remap k) l Rd Ch Lo Nl Hr Hin) as (o & n & Ec & Pl & Ln & _ & Xl & Lv & _). rewrite Ec. cbn [bind].
    unfold finite_element. rewrite Hin. cbn [bind]. destruct (axpy_all_ok o (snd st') (coeffs x l e) (values (fem [remap k] e) p)) as (v & V & E).
    + rewrite Lv. lia.
    + intros i Hi. rewrite Lv in Hi. apply Xl, Hi.
    + rewrite V. cbn [bind]. eexists. split; [reflexivity|]. intros l' N'. rewrite Nl in N'. injection N' as <-. apply E.
  - cbn [app] in F. exists st', y. split; [|split; [exact U'|split; [exact L|]]].
    + assert (EQ : foldM (fun y0 k => let* (o, n, fm) := child (bound_tree e t) (remap k) in let* fe := finite_element fem [remap k] e fm in
         let* v := axpy_all o (snd st') (values fe p) in Ok (y0 ++ [v 0])) (seq 0 dimR) [] = Ok y).
      { rewrite <- F. apply fold_ext. intros acc k.
        destruct (child (bound_tree e t) (remap k)) as [((o, n), fm)| |]; cbn [bind]; try reflexivity.
        destruct (finite_element fem [remap k] e fm); cbn [bind]; try reflexivity. destruct (axpy_all o (snd st') (values _ p)); reflexivity. }
      rewrite EQ. reflexivity.
    + intros k v l Nv Nl. apply (Q k v Nv l Nl).
Qed.

(** ** Interpolation and evaluation *)
Lemma reproduces fem room f t elements a x c :
  (forall e, In e elements -> ready fem t room e /\ exists gs, assigns e f t gs) -> room <= length a ->
  (forall e gs k l g, In e elements -> assigns e f t gs -> nth_error (leaves t) k = Some l -> nth_error gs k = Some g -> inside (fe l e) = true ->
     unisolvent (fem (path l) e) (basis (fe l e)) /\ forall p r, g p r = combination (coeffs c l e) (values (fem (path l) e) p) r) ->
  exists s x', interpolate fem elements f (t, a) x = Ok (s, x') /\
    forall e l i d, In e elements -> In l (leaves t) -> inside (fe l e) = true -> nth_error (locals (fe l e)) i = Some d -> x' (named (path l) d) = c (named (path l) d).
Proof.
  intros H La Sp.
  assert (V : forall e d v, In e elements -> local_value fem f t e d v -> v = c d).
  { intros e d v I (gs & k & l & g & i & q & A & Nl & Ng & In1 & Nq & <- & Nv). destruct (Sp e gs k l g I A Nl Ng In1) as (Un & Eq).
    destruct (H e I) as ((C & _ & _) & _). specialize (C l (nth_error_In _ _ Nl) In1).
    rewrite (Un g (coeffs c l e)) in Nv; [|unfold coeffs; rewrite map_length; exact C|exact Eq]. unfold coeffs in Nv. rewrite nth_error_map, Nq in Nv.
    injection Nv as <-. reflexivity. }
  destruct (conforming_ok fem room f t elements a x H La) as (s & x' & F & W & _).
  { intros e e' d v v' I I' L1 L2. rewrite (V e d v I L1), (V e' d v' I' L2). reflexivity. }
  exists s, x'. split; [exact F|]. intros e l i q I Il In1 Nq. destruct (H e I) as ((C & _ & D) & gs & A). apply In_nth_error in Il. destruct Il as (k & Nl).
  pose proof (proj1 (assigns_length e) _ _ _ A) as Lg. destruct (nth_error gs k) as [g|] eqn:Ng.
  2:{ apply nth_error_None in Ng. assert (k < length (leaves t)) by (apply nth_error_Some; rewrite Nl; discriminate). lia. }
  destruct (D l (nth_error_In _ _ Nl) In1) as (_ & D2 & _). specialize (C l (nth_error_In _ _ Nl) In1). specialize (D2 g).
  destruct (nth_error (interpolation (fem (path l) e) g) i) as [v|] eqn:Nv.
  2:{ apply nth_error_None in Nv. assert (i < length (locals (fe l e))) by (apply nth_error_Some; rewrite Nq; discriminate). lia. }
  assert (Lv : local_value fem f t e (named (path l) q) v) by (exists gs, k, l, g, i, q; repeat split; assumption).
  rewrite (W _ _ _ I Lv). exact (V _ _ _ I Lv).
Qed.
