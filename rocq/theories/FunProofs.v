(** Interpolation. *)
From Coq Require Import Reals.
From Verif Require Import Common CommonFacts LfsModel LfsSpec LfsProofs FunModel FunSpec.

Definition apply_pairs (l : list (dof * R)) (x : vec) : vec := fold_left (fun x dv => set x (fst dv) (snd dv)) l x.
Lemma apply_app l l' x : apply_pairs (l ++ l') x = apply_pairs l' (apply_pairs l x).
Proof. apply fold_left_app. Qed.
Lemma apply_other l : forall x d, ~ In d (map fst l) -> apply_pairs l x d = x d.
Proof.
  induction l as [|(d0, v) l IH]; intros x d N; [reflexivity|]. cbn in *. rewrite IH by tauto. unfold set.
  destruct (dof_eq_dec d d0); [subst; tauto|reflexivity].
Qed.
Lemma apply_in l : forall x d v, NoDup (map fst l) -> In (d, v) l -> apply_pairs l x d = v.
Proof.
  induction l as [|(d0, v0) l IH]; intros x d v N I; [destruct I|]. cbn in *. inversion N; subst. destruct I as [E|I].
  - injection E as -> ->. rewrite apply_other by assumption. unfold set. destruct (dof_eq_dec d d); [reflexivity|contradiction].
  - apply IH; assumption.
Qed.

Section fem.
  Variable fem : list nat -> nat -> fel.

  Definition leaf_pairs (e : nat) (l : leaf) (g : point -> nat -> R) : list (dof * R) :=
    if inside (fe l e) then combine (map (named (path l)) (locals (fe l e))) (interpolation (fem (path l) e) g) else [].
  Definition all_pairs (e : nat) (ls : list leaf) (gs : list (point -> nat -> R)) : list (dof * R) :=
    flat_map (fun lg => leaf_pairs e (fst lg) (snd lg)) (combine ls gs).

  (** The array holds the DOF indices of the leaf. *)
  Definition good (e : nat) (a : list dof) (l : leaf) : Prop :=
    if inside (fe l e) then
      len l = length (locals (fe l e)) /\ (forall g, length (interpolation (fem (path l) e) g) = len l) /\
      (forall i c, nth_error (locals (fe l e)) i = Some c -> nth_error a (start l + i) = Some (named (path l) c))
    else len l = 0.
  Definition lift (p : list nat) (l : leaf) : leaf := mkleaf (p ++ path l) (start l) (len l) (fe l).

  Lemma lift_under p k ls : map (lift p) (map (under k) ls) = map (lift (p ++ [k])) ls.
  Proof. rewrite map_map. apply map_ext. intros l. unfold lift, under. cbn. rewrite <- app_assoc. reflexivity. Qed.
  Lemma lift_nil ls : map (lift []) ls = ls.
  Proof. rewrite <- (map_id ls) at 2. apply map_ext. intros []. reflexivity. Qed.

  Lemma write_sub_ok a ds vs : forall o x, length ds = length vs -> (forall i d, nth_error ds i = Some d -> nth_error a (o + i) = Some d) ->
    write_sub o (length vs) a vs x = Ok (apply_pairs (combine ds vs) x).
  Proof.
    intros o x L H. unfold write_sub.
    assert (G : forall ds' vs' k x, length ds' = length vs' -> (forall i d, nth_error ds' i = Some d -> nth_error a (o + (k + i)) = Some d) ->
       (forall i, nth_error vs (k + i) = nth_error vs' i) ->
       foldM (fun x i => match nth_error a (o + i), nth_error vs i with Some d, Some v => Ok (set x d v) | _, _ => UB end) (seq k (length vs')) x
       = Ok (apply_pairs (combine ds' vs') x)).
    { induction ds' as [|d ds' IH]; intros [|v vs'] k y L' H1 H2; try discriminate; [reflexivity|]. cbn [seq length foldM].
      pose proof (H1 0 d eq_refl) as A0. pose proof (H2 0) as V0. rewrite Nat.add_0_r in A0, V0. rewrite A0, V0. cbn [nth_error bind].
      cbn [combine]. change (apply_pairs ((d, v) :: combine ds' vs') y) with (apply_pairs (combine ds' vs') (set y d v)).
      apply IH; [cbn in L'; lia| |].
      - intros i d' N. replace (S k + i) with (k + S i) by lia. apply H1. exact N.
      - intros i. replace (S k + i) with (k + S i) by lia. apply H2. }
    apply G; auto.
  Qed.

  Lemma leaf_ok e g a p o n fm x : good e a (mkleaf p o n fm) -> inside (fm e) = true ->
    leaf_unchecked fem e g a p o n fm x = Ok (apply_pairs (leaf_pairs e (mkleaf p o n fm) g) x).
  Proof.
    unfold good, leaf_unchecked, leaf_pairs, finite_element. cbn [fe path start len]. intros G I. rewrite I in *. cbn [bind].
    destruct G as (G1 & G2 & G3). rewrite <- (G2 g). apply write_sub_ok; [rewrite map_length, G2; lia|].
    intros i d N. rewrite nth_error_map in N. destruct (nth_error (locals (fm e)) i) eqn:E; [|discriminate]. injection N as <-. apply G3, E.
  Qed.
  Lemma leaf_leaf_ok e g a p o n fm x : good e a (mkleaf p o n fm) ->
    leaf_leaf fem e g a p o n fm x = Ok (apply_pairs (leaf_pairs e (mkleaf p o n fm) g) x).
  Proof.
    intros G. unfold leaf_leaf. destruct (n =? 0) eqn:Z.
    - apply Nat.eqb_eq in Z. subst n. unfold good, leaf_pairs in *. cbn [fe path start len] in *. destruct (inside (fm e)); [|reflexivity].
      destruct G as (G & _). destruct (locals (fm e)); [reflexivity|discriminate].
    - assert (I : inside (fm e) = true).
      { unfold good in G. cbn [fe len] in G. destruct (inside (fm e)); [reflexivity|]. subst n. discriminate. }
      apply leaf_ok; assumption.
  Qed.

  Lemma all_pairs_app e ls ls' gs gs' : length ls = length gs ->
    all_pairs e (ls ++ ls') (gs ++ gs') = all_pairs e ls gs ++ all_pairs e ls' gs'.
  Proof.
    intros L. unfold all_pairs. rewrite <- flat_map_app. f_equal. revert gs L.
    induction ls as [|l ls IH]; intros [|g gs] L; try discriminate; [reflexivity|]. cbn. rewrite IH by (cbn in L; lia). reflexivity.
  Qed.

  Lemma count_leaves t : leaf_count t = length (leaves t).
  Proof.
    induction t as [|o n ch IH] using lfs_ind'; [reflexivity|]. rewrite leaves_inner. cbn [leaf_count]. generalize 0 as k.
    induction IH as [|c r Hc Hr IHr]; intros k; [reflexivity|]. cbn [map leaves_list]. rewrite app_length, map_length, <- (IHr (S k)), <- Hc.
    reflexivity.
  Qed.

  Lemma scalar_ok e g a t : forall p x, (forall l, In l (leaves t) -> good e a (lift p l) /\ inside (fe l e) = true) ->
    from_scalar fem e g a p t x = Ok (apply_pairs (all_pairs e (map (lift p) (leaves t)) (repeat g (length (leaves t)))) x).
  Proof.
    induction t as [o n fm|o n ch IH] using lfs_ind'; intros p x H.
    - cbn [from_scalar leaves]. destruct (H _ (or_introl eq_refl)) as (H1 & H2). cbn [fe] in H2. unfold lift in H1. cbn in H1.
      rewrite app_nil_r in H1. rewrite leaf_ok by assumption. unfold all_pairs, lift. cbn [map combine flat_map repeat length fst snd path start len fe leaves]. rewrite !app_nil_r. reflexivity.
    - rewrite leaves_inner in *. cbn [from_scalar]. revert x H. generalize 0 as k.
      induction IH as [|c r Hc Hr IHr]; intros k x H; [reflexivity|]. cbn [leaves_list] in *.
      rewrite Hc. 2:{ intros l I. assert (J : In (under k l) (map (under k) (leaves c) ++ leaves_list (S k) r)) by (apply in_or_app; left; apply in_map, I).
        destruct (H _ J) as (H1 & H2). split; [|exact H2]. unfold lift, under in *. cbn [path start len fe] in *. rewrite <- app_assoc. exact H1. }
      cbn [bind]. rewrite IHr by (intros l I; apply H, in_or_app; right; exact I).
      rewrite map_app, app_length, repeat_app, all_pairs_app, lift_under, map_length, apply_app by (rewrite !map_length, repeat_length; reflexivity).
      reflexivity.
  Qed.

  Lemma vector_ok e g a t : forall p i x, (forall l, In l (leaves t) -> good e a (lift p l) /\ inside (fe l e) = true) ->
    from_vector fem e g a p t (i, x) = Ok (i + length (leaves t),
      apply_pairs (all_pairs e (map (lift p) (leaves t)) (map (fun i => fun y _ => g y i) (seq i (length (leaves t))))) x).
  Proof.
    induction t as [o n fm|o n ch IH] using lfs_ind'; intros p i x H.
    - cbn [from_vector leaves]. destruct (H _ (or_introl eq_refl)) as (H1 & H2). cbn [fe] in H2. unfold lift in H1. cbn in H1.
      rewrite app_nil_r in H1. rewrite leaf_ok by assumption. unfold all_pairs, lift. cbn [map combine flat_map seq length fst snd path start len fe bind]. rewrite !app_nil_r, Nat.add_comm. reflexivity.
    - rewrite leaves_inner in *. cbn [from_vector]. revert i x H. generalize 0 as k.
      induction IH as [|c r Hc Hr IHr]; intros k i x H; [cbn; rewrite Nat.add_0_r; reflexivity|]. cbn [leaves_list] in *.
      rewrite Hc. 2:{ intros l I. assert (J : In (under k l) (map (under k) (leaves c) ++ leaves_list (S k) r)) by (apply in_or_app; left; apply in_map, I).
        destruct (H _ J) as (H1 & H2). split; [|exact H2]. unfold lift, under in *. cbn [path start len fe] in *. rewrite <- app_assoc. exact H1. }
      cbn [bind]. rewrite IHr by (intros l I; apply H, in_or_app; right; exact I).
      rewrite map_app, app_length, map_length, seq_app, (map_app (fun i y _ => g y i)), all_pairs_app, lift_under, apply_app
        by (rewrite !map_length, seq_length; reflexivity).
      rewrite Nat.add_assoc. reflexivity.
  Qed.
End fem.

Scheme assigns_mind := Induction for assigns Sort Prop
  with assigns_all_mind := Induction for assigns_all Sort Prop.
Combined Scheme assigns_both from assigns_mind, assigns_all_mind.

Lemma assigns_length e : (forall f t gs, assigns e f t gs -> length gs = length (leaves t)) /\
  (forall fs ch gs, assigns_all e fs ch gs -> forall k, length gs = length (leaves_list k ch)).
Proof.
  apply (assigns_both e (fun f t gs _ => length gs = length (leaves t)) (fun fs ch gs _ => forall k, length gs = length (leaves_list k ch))).
  - reflexivity.
  - intros. apply repeat_length.
  - intros d g o n ch _ <- _. rewrite map_length, seq_length. reflexivity.
  - intros fs o n ch gs _ IH. rewrite leaves_inner. apply IH.
  - reflexivity.
  - intros f fs c ch g gs _ IH1 _ IH2 k. cbn [leaves_list]. rewrite !app_length, map_length, IH1, (IH2 (S k)). reflexivity.
Qed.

Fixpoint visit_list fem e a p k fs ch x : res vec :=
  match fs, ch with
  | [], [] => Ok x
  | f :: fs', c :: ch' => let* x := visit_pair fem e a (p ++ [k]) f c x in visit_list fem e a p (S k) fs' ch' x
  | _, _ => Throw
  end.
Lemma visit_inner fem e a p fs o n ch x : visit_pair fem e a p (FInner fs) (Inner o n ch) x = visit_list fem e a p 0 fs ch x.
Proof.
  cbn [visit_pair]. revert ch x. generalize 0 as k. induction fs as [|f fs IH]; intros k [|c ch] x; try reflexivity.
  cbn [visit_list]. destruct (visit_pair fem e a (p ++ [k]) f c x); cbn [bind]; [apply IH|reflexivity|reflexivity].
Qed.

Lemma visit_ok fem e a : (forall f t gs, assigns e f t gs -> forall p x, (forall l, In l (leaves t) -> good fem e a (lift p l)) ->
    visit_pair fem e a p f t x = Ok (apply_pairs (all_pairs fem e (map (lift p) (leaves t)) gs) x)) /\
  (forall fs ch gs, assigns_all e fs ch gs -> forall p k x, (forall l, In l (leaves_list k ch) -> good fem e a (lift p l)) ->
    visit_list fem e a p k fs ch x = Ok (apply_pairs (all_pairs fem e (map (lift p) (leaves_list k ch)) gs) x)).
Proof.
  apply (assigns_both e
    (fun f t gs _ => forall p x, (forall l, In l (leaves t) -> good fem e a (lift p l)) ->
       visit_pair fem e a p f t x = Ok (apply_pairs (all_pairs fem e (map (lift p) (leaves t)) gs) x))
    (fun fs ch gs _ => forall p k x, (forall l, In l (leaves_list k ch) -> good fem e a (lift p l)) ->
       visit_list fem e a p k fs ch x = Ok (apply_pairs (all_pairs fem e (map (lift p) (leaves_list k ch)) gs) x))).
  - intros d g o n fm p x G. cbn [visit_pair]. specialize (G _ (or_introl eq_refl)). unfold lift in G. cbn in G. rewrite app_nil_r in G.
    rewrite leaf_leaf_ok by exact G. unfold all_pairs, lift. cbn [map combine flat_map repeat length fst snd path start len fe leaves]. rewrite !app_nil_r. reflexivity.
  - intros g o n ch In1 p x G. cbn [visit_pair Nat.eqb]. apply scalar_ok. intros l I. split; [apply G, I|apply In1, I].
  - intros d g o n ch D Ld In1 p x G. cbn [visit_pair]. apply Nat.eqb_neq in D. rewrite D, count_leaves, Ld, Nat.eqb_refl. cbn [negb].
    rewrite vector_ok by (intros l I; split; [apply G, I|apply In1, I]). cbn [bind]. rewrite Ld. reflexivity.
  - intros fs o n ch gs _ IH p x G. rewrite visit_inner, leaves_inner in *. apply IH. exact G.
  - intros p k x _. reflexivity.
  - intros f fs c ch g gs A1 IH1 A2 IH2 p k x G. cbn [leaves_list visit_list] in *. rewrite IH1.
    2:{ intros l I. assert (J : In (under k l) (map (under k) (leaves c) ++ leaves_list (S k) ch)) by (apply in_or_app; left; apply in_map, I).
        specialize (G _ J). unfold lift, under in *. cbn [path start len fe] in *. rewrite <- app_assoc. exact G. }
    cbn [bind]. rewrite IH2 by (intros l I; apply G, in_or_app; right; exact I).
    rewrite map_app, all_pairs_app, lift_under, apply_app by (rewrite !map_length; symmetry; apply (proj1 (assigns_length e)) in A1; exact A1).
    reflexivity.
Qed.

(** ** Binding *)
Lemma same_refl t : same t t.
Proof. induction t as [|o n ch IH] using lfs_ind'; [reflexivity|]. cbn. induction IH; auto. Qed.

Definition bound_tree (e : nat) (t : lfs) : lfs := fst (compute false e 0 t).

Lemma leaf_transfer e t : forall l, In l (leaves (bound_tree e t)) -> exists l', In l' (leaves t) /\ path l = path l' /\ fe l = fe l'.
Proof.
  intros l I. destruct (compute_spec false e t 0) as (_ & _ & _ & _ & A5 & _).
  assert (J : In (path l, fe l) (map (fun x => (path x, fe x)) (leaves t))).
  { rewrite <- A5. apply in_map_iff. exists l. auto. }
  apply in_map_iff in J. destruct J as (y & E & J). injection E as E1 E2. exists y. auto.
Qed.

Lemma bind_ready fem t room e t1 a1 : ready fem t room e -> same t t1 -> room <= length a1 ->
  let T := bound_tree e t in exists rest,
  bind_to false e (t1, a1) = Ok (T, names e (leaves T) ++ rest) /\ length (names e (leaves T) ++ rest) = length a1 /\ same t T /\
  length (names e (leaves T)) = size T /\
  (forall l, In l (leaves T) -> good fem e (names e (leaves T) ++ rest) l).
Proof.
  intros (C & L & D) S La T. rewrite leaf_sum in L.
  assert (ET : fst (compute false e 0 t1) = T) by (unfold T, bound_tree; rewrite (compute_same _ _ _ _ _ S); reflexivity).
  destruct (compute_spec false e t 0) as (A1 & A2 & A3 & A4 & A5 & A6). fold (bound_tree e t) in A1, A2, A4, A5, A6. fold T in A1, A2, A4, A5, A6.
  assert (C1 : consistent e t1).
  { apply (consistent_list t1 T); [|apply (consistent_list T t); assumption].
    destruct (compute_spec false e t1 0) as (_ & _ & _ & _ & B5 & _). rewrite ET in B5. symmetry. exact B5. }
  pose proof (bind_spec e t1 a1 C1) as B. cbn zeta in B. rewrite ET in B. specialize (B ltac:(unfold T, bound_tree; lia)).
  pose proof (consistent_list _ _ e A5 C) as C'. pose proof (names_length false e _ eq_refl A6 C') as NL.
  exists (skipn (size T) a1). split; [exact B|]. split; [|split; [|split]].
  - rewrite app_length, skipn_length. unfold T, bound_tree in *. lia.
  - apply same_compute.
  - lia.
  - intros l I. unfold good. pose proof (A6 l I) as F. unfold leaf_size in F. pose proof (C' l I) as F2. destruct (inside (fe l e)) eqn:In1; [|exact F].
    specialize (F2 eq_refl). split; [lia|]. split.
    + destruct (leaf_transfer e t l I) as (l' & I' & -> & E2). rewrite E2 in *. intros g. destruct (D l' I' In1) as (_ & D2 & _). rewrite D2. lia.
    + intros i c N. assert (Li : i < len l) by (rewrite F, <- F2; apply nth_error_Some; rewrite N; discriminate).
      pose proof (tiles_in _ _ _ A4 I) as Q. rewrite nth_error_app1 by lia.
      pose proof (names_at e (leaves T) 0 l i c A4 I A6 C' Li N) as R. rewrite Nat.sub_0_r in R. exact R.
Qed.

Lemma all_pairs_tree fem e t gs : all_pairs fem e (leaves (bound_tree e t)) gs = all_pairs fem e (leaves t) gs.
Proof.
  destruct (compute_spec false e t 0) as (_ & _ & _ & _ & A5 & _). fold (bound_tree e t) in A5. revert A5. generalize (leaves (bound_tree e t)) as L1.
  generalize (leaves t) as L2. unfold all_pairs. induction L2 as [|l2 L2 IH] in gs |- *; intros [|l1 L1] E; try discriminate; [reflexivity|].
  injection E as E1 E2 E3. destruct gs as [|g gs]; [reflexivity|]. cbn. rewrite (IH gs L1) by exact E3. f_equal.
  unfold leaf_pairs. rewrite E1, E2. reflexivity.
Qed.

Lemma assigns_tree e e' : (forall f t gs, assigns e f t gs -> forall o, assigns e f (fst (compute false e' o t)) gs) /\
  (forall fs ch gs, assigns_all e fs ch gs -> forall o, assigns_all e fs (fst (compute_list false e' o ch)) gs).
Proof.
  assert (L : forall o n ch o', length (leaves (fst (compute false e' o' (Inner o n ch)))) = length (leaves (Inner o n ch))).
  { intros o n ch o'. destruct (compute_spec false e' (Inner o n ch) o') as (_ & _ & _ & _ & A5 & _). apply (f_equal (@length _)) in A5.
    rewrite !map_length in A5. exact A5. }
  assert (I1 : forall o n ch o', (forall l, In l (leaves (Inner o n ch)) -> inside (fe l e) = true) ->
     forall l, In l (leaves (fst (compute false e' o' (Inner o n ch)))) -> inside (fe l e) = true).
  { intros o n ch o' H l I. destruct (compute_spec false e' (Inner o n ch) o') as (_ & _ & _ & _ & A5 & _).
    assert (J : In (path l, fe l) (map (fun x => (path x, fe x)) (leaves (Inner o n ch)))) by (rewrite <- A5; apply in_map_iff; exists l; auto).
    apply in_map_iff in J. destruct J as (y & E & J). injection E as _ E2. rewrite <- E2. apply H, J. }
  apply (assigns_both e (fun f t gs _ => forall o, assigns e f (fst (compute false e' o t)) gs)
    (fun fs ch gs _ => forall o, assigns_all e fs (fst (compute_list false e' o ch)) gs)).
  - intros. constructor.
  - intros g o n ch H o'. rewrite <- (L o n ch o'). specialize (I1 o n ch o' H). rewrite compute_inner in *.
    destruct (compute_list false e' o' ch) as (ch', o2). cbn [fst] in *. constructor. exact I1.
  - intros d g o n ch D Ld H o'. specialize (L o n ch o'). specialize (I1 o n ch o' H). rewrite compute_inner in *.
    destruct (compute_list false e' o' ch) as (ch', o2). cbn [fst] in *. constructor; [exact D|congruence|exact I1].
  - intros fs o n ch gs _ IH o'. rewrite compute_inner. specialize (IH o'). destruct (compute_list false e' o' ch). cbn [fst] in *. constructor. exact IH.
  - intros. constructor.
  - intros f fs c ch g gs _ IH1 _ IH2 o. cbn [compute_list]. specialize (IH1 o). destruct (compute false e' o c) as (c', o1). specialize (IH2 o1).
    destruct (compute_list false e' o1 ch). cbn [fst] in *. constructor; assumption.
Qed.

Lemma assigns_fun e : (forall f t gs, assigns e f t gs -> forall gs', assigns e f t gs' -> gs = gs') /\
  (forall fs ch gs, assigns_all e fs ch gs -> forall gs', assigns_all e fs ch gs' -> gs = gs').
Proof.
  apply (assigns_both e (fun f t gs _ => forall gs', assigns e f t gs' -> gs = gs') (fun fs ch gs _ => forall gs', assigns_all e fs ch gs' -> gs = gs')).
  - intros d g o n fm gs' A. inversion A; subst. reflexivity.
  - intros g o n ch H gs' A. inversion A; subst; [reflexivity|congruence].
  - intros d g o n ch D L H gs' A. inversion A; subst; [congruence|reflexivity].
  - intros fs o n ch gs _ IH gs' A. inversion A; subst. apply IH. assumption.
  - intros gs' A. inversion A. reflexivity.
  - intros f fs c ch g gs _ IH1 _ IH2 gs' A. inversion A; subst. f_equal; [apply IH1|apply IH2]; assumption.
Qed.

Lemma nth_combine {X Y} (xs : list X) : forall (ys : list Y) i x y, nth_error xs i = Some x -> nth_error ys i = Some y ->
  nth_error (combine xs ys) i = Some (x, y).
Proof. induction xs as [|x0 xs IH]; intros [|y0 ys] [|j] x y N1 N2; try discriminate; cbn in *; [congruence|]. apply IH; assumption. Qed.

(** ** The wanted coefficients *)
Lemma wanted fem f t e gs d v : assigns e f t gs -> (local_value fem f t e d v <-> In (d, v) (all_pairs fem e (leaves t) gs)).
Proof.
  intros A. split.
  - intros (gs' & k & l & g & i & c & A' & Nl & Ng & In1 & Nc & <- & Nv). rewrite <- (proj1 (assigns_fun e) _ _ _ A _ A') in Ng.
    unfold all_pairs. apply in_flat_map. exists (l, g). split.
    + apply (nth_error_In _ k). apply nth_combine; assumption.
    + cbn [fst snd]. unfold leaf_pairs. rewrite In1. apply (nth_error_In _ i). apply nth_combine; [|exact Nv]. rewrite nth_error_map, Nc. reflexivity.
  - intros I. unfold all_pairs in I. apply in_flat_map in I. destruct I as ((l, g) & I & J). cbn [fst snd] in J. apply In_nth_error in I. destruct I as (k & K).
    assert (G : forall (X Y : Type) (xs : list X) (ys : list Y) i x y, nth_error (combine xs ys) i = Some (x, y) -> nth_error xs i = Some x /\ nth_error ys i = Some y).
    { induction xs as [|x0 xs IH]; intros [|y0 ys] [|j] x y N; try discriminate; cbn in *; [injection N as -> ->; auto|]. apply IH, N. }
    destruct (G _ _ _ _ _ _ _ K) as (Nl & Ng). unfold leaf_pairs in J. destruct (inside (fe l e)) eqn:In1; [|destruct J].
    apply In_nth_error in J. destruct J as (i & J). destruct (G _ _ _ _ _ _ _ J) as (Nd & Nv). rewrite nth_error_map in Nd.
    destruct (nth_error (locals (fe l e)) i) as [c|] eqn:Nc; [|discriminate]. injection Nd as <-.
    exists gs, k, l, g, i, c. repeat split; auto.
Qed.

Lemma keys_nodup fem room f t e gs : ready fem t room e -> assigns e f t gs -> NoDup (map fst (all_pairs fem e (leaves t) gs)).
Proof.
  intros (C & _ & D) A. apply (proj1 (assigns_length e)) in A.
  assert (G : forall L gs, length gs = length L -> (forall l, In l L -> In l (leaves t)) -> map fst (all_pairs fem e L gs) = names e L).
  { clear gs A. induction L as [|l L IH]; intros [|g gs] Lg Sub; try discriminate; [reflexivity|]. unfold all_pairs, names in *. cbn [combine flat_map map].
    rewrite map_app, IH by (cbn in *; auto; lia). f_equal. cbn [fst snd]. unfold leaf_pairs. destruct (inside (fe l e)) eqn:In1; [|reflexivity].
    destruct (D l (Sub l (or_introl eq_refl)) In1) as (_ & D2 & _). specialize (C l (Sub l (or_introl eq_refl)) In1). specialize (D2 g).
    assert (E : length (map (named (path l)) (locals (fe l e))) = length (interpolation (fem (path l) e) g)) by (rewrite map_length; lia).
    clear - E. revert E. generalize (interpolation (fem (path l) e) g). generalize (map (named (path l)) (locals (fe l e))).
    induction l0 as [|d ds IH]; intros [|v vs] E; try discriminate; [reflexivity|]. cbn. rewrite IH by (cbn in E; lia). reflexivity. }
  rewrite G by auto. apply names_nodup; [apply leaves_paths|]. intros x I J. apply D; assumption.
Qed.

(** One element. *)
Lemma element_ok fem room f t e t1 a1 x gs : ready fem t room e -> assigns e f t gs -> same t t1 -> room <= length a1 ->
  exists t2 a2, bind_to false e (t1, a1) = Ok (t2, a2) /\ same t t2 /\ length a2 = length a1 /\
    visit_pair fem e a2 [] f t2 x = Ok (apply_pairs (all_pairs fem e (leaves t) gs) x).
Proof.
  intros Rd A S L. destruct (bind_ready _ _ _ _ _ _ Rd S L) as (rest & B & La & S2 & _ & G). eexists; eexists; split; [exact B|].
  split; [exact S2|]. split; [exact La|]. rewrite (proj1 (visit_ok fem e _) f _ gs).
  - rewrite lift_nil, all_pairs_tree. reflexivity.
  - apply (proj1 (assigns_tree e e)). exact A.
  - intros l I. replace (lift [] l) with l by (destruct l; reflexivity). apply G, I.
Qed.

Lemma interpolate_ok fem room f t elements : forall t1 a1 x,
  (forall e, In e elements -> ready fem t room e /\ exists gs, assigns e f t gs) -> same t t1 -> room <= length a1 ->
  exists t2 a2 x', interpolate fem elements f (t1, a1) x = Ok ((t2, a2), x') /\ same t t2 /\ length a2 = length a1 /\
    (forall d, (forall e v, In e elements -> ~ local_value fem f t e d v) -> x' d = x d) /\
    (forall before e after d v, elements = before ++ e :: after -> local_value fem f t e d v ->
       (forall e' v', In e' after -> ~ local_value fem f t e' d v') -> x' d = v).
Proof.
  unfold interpolate. induction elements as [|e els IH]; intros t1 a1 x H S L.
  - exists t1, a1, x. split; [reflexivity|]. split; [exact S|]. split; [reflexivity|]. split; [reflexivity|].
    intros before e after d v E. destruct before; discriminate.
  - destruct (H e (or_introl eq_refl)) as (Rd & gs & A). destruct (element_ok fem room f t e t1 a1 x gs Rd A S L) as (t2 & a2 & B & S2 & L2 & V).
    cbn [foldM]. rewrite B. cbn [bind fst snd]. rewrite V. cbn [bind].
    destruct (IH t2 a2 (apply_pairs (all_pairs fem e (leaves t) gs) x)) as (t3 & a3 & x' & F & S3 & L3 & U & W).
    { intros e' I. apply H. right. exact I. } { exact S2. } { lia. }
    exists t3, a3, x'. split; [exact F|]. split; [exact S3|]. split; [lia|]. split.
    + intros d N. rewrite U by (intros e' v I; apply N; right; exact I). apply apply_other. intros I. apply in_map_iff in I.
      destruct I as ((d', v) & E & I). cbn in E. subst d'. apply (N e v (or_introl eq_refl)). apply (wanted fem f t e gs); assumption.
    + intros before e0 after d v E Lv Aft. destruct before as [|b before]; cbn in E; injection E as E1 E2.
      * subst e0 after. rewrite U by exact Aft. apply apply_in; [eapply keys_nodup; eassumption|]. apply (wanted fem f t e gs); assumption.
      * eapply W; eassumption.
Qed.

(** Whether an element wants a coefficient for a DOF is decidable. *)
Lemma wants_dec fem f t e d : (exists gs, assigns e f t gs) -> (exists v, local_value fem f t e d v) \/ (forall v, ~ local_value fem f t e d v).
Proof.
  intros (gs & A). destruct (in_dec dof_eq_dec d (map fst (all_pairs fem e (leaves t) gs))) as [I|I].
  - left. apply in_map_iff in I. destruct I as ((d', v) & E & I). cbn in E. subst d'. exists v. apply (wanted fem f t e gs); assumption.
  - right. intros v Lv. apply I. apply (wanted fem f t e gs) in Lv; [|exact A]. apply in_map_iff. exists (d, v). auto.
Qed.

Lemma last_wanting fem f t d elements : (forall e, In e elements -> exists gs, assigns e f t gs) ->
  (exists e v, In e elements /\ local_value fem f t e d v) ->
  exists before e after v, elements = before ++ e :: after /\ local_value fem f t e d v /\ forall e' v', In e' after -> ~ local_value fem f t e' d v'.
Proof.
  induction elements as [|e els IH]; intros H (e0 & v0 & I & Lv); [destruct I|].
  assert (Dec : (exists e v, In e els /\ local_value fem f t e d v) \/ (forall e v, In e els -> ~ local_value fem f t e d v)).
  { clear - H. induction els as [|e1 els IH]; [right; intros ? ? []|]. destruct IH as [(e2 & v & I & Lv)|N].
    - intros e' I. apply H. destruct I as [->|I]; [left; reflexivity|right; right; exact I].
    - left. exists e2, v. split; [right; exact I|exact Lv].
    - destruct (wants_dec fem f t e1 d) as [(v & Lv)|N1]; [apply H; right; left; reflexivity| |].
      + left. exists e1, v. split; [left; reflexivity|exact Lv].
      + right. intros e2 v [<-|I]; [apply N1|apply N, I]. }
  destruct Dec as [W|N].
  - destruct (IH (fun e' I' => H e' (or_intror I')) W) as (b & e1 & af & v & E & L1 & L2). exists (e :: b), e1, af, v. rewrite E. auto.
  - destruct I as [->|I]; [|destruct (N _ _ I Lv)]. exists [], e0, els, v0. auto.
Qed.

Lemma conforming_ok fem room f t elements a x : (forall e, In e elements -> ready fem t room e /\ exists gs, assigns e f t gs) ->
  room <= length a -> conforming fem f t elements ->
  exists s x', interpolate fem elements f (t, a) x = Ok (s, x') /\
    (forall e d v, In e elements -> local_value fem f t e d v -> x' d = v) /\
    (forall d, (forall e v, In e elements -> ~ local_value fem f t e d v) -> x' d = x d).
Proof.
  intros H L Cf. destruct (interpolate_ok fem room f t elements t a x H (same_refl t) L) as (t2 & a2 & x' & F & _ & _ & U & W).
  exists (t2, a2), x'. split; [exact F|]. split; [|exact U]. intros e d v I Lv.
  destruct (last_wanting fem f t d elements) as (b & e1 & af & v1 & E & L1 & L2); [intros e' I'; apply H, I'|exists e, v; auto|].
  rewrite (W b e1 af d v1 E L1 L2). eapply Cf; [| |exact L1|exact Lv]; [rewrite E; apply in_or_app; right; left; reflexivity|exact I].
Qed.
