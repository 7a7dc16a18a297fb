(** The explicit driver computes the ideal explicit step. *)
From Coq Require Import Reals.
From Verif Require Import CommonFacts MethodSpec MethodProofs.
Local Open Scope nat_scope.

Section X.
  Context {V : Type} (v0 : V).
  Variables (c : xcall V) (m0 : mem V).
  Let n0 := next m0.
  Hypothesis (Hs : 1 <= xs_ c) (Hold : xold_ c < n0) (Hnew : xnew_ c < n0) (Hne : xold_ c <> xnew_ c)
    (Hlive : forall x, In x (live m0) -> x < n0).

  Record xinv (r : nat) (xs : list nat) (m : mem V) (us : list V) (cur start : V) : Prop := {
    x_xs : xs = xold_ c :: seq n0 (r - 1);
    x_live : live m = rev (seq n0 (r - 1)) ++ live m0;
    x_next : next m = n0 + (r - 1);
    x_val : forall l, l < n0 -> l <> xold_ c -> val m l = val m0 l;
    x_us : map (val m) xs = us ++ [cur];
    x_len : length us = r - 1;
    x_bad : bad m = bad m0;
    x_start : start = if r =? 1 then val m0 (xnew_ c) else cur }.

  Lemma xs_split r : 1 <= r -> exists xs0 p, xold_ c :: seq n0 (r - 1) = xs0 ++ [p] /\ length xs0 = r - 1 /\ ~ In p xs0 /\
    nth (r - 1) (xold_ c :: seq n0 (r - 1)) O = p /\ (p = xold_ c \/ n0 <= p < n0 + (r - 1)).
  Proof.
    intro Hr. destruct r as [|[|r]]; [lia| |].
    - exists [], (xold_ c). cbn. auto 10.
    - exists (xold_ c :: seq n0 r), (n0 + r). replace (S (S r) - 1) with (S r) by lia. rewrite seq_S.
      split; [reflexivity|]. split; [cbn; now rewrite seq_length|]. split.
      + intros [E|E]; [lia|]. apply in_seq in E. lia.
      + split; [|lia]. cbn [nth]. rewrite app_nth2 by (rewrite seq_length; lia). rewrite seq_length, Nat.sub_diag. reflexivity.
  Qed.

  Lemma map_put (f : nat -> V) p v xs0 : ~ In p xs0 ->
    map (fun k => if k =? p then v else f k) (xs0 ++ [p]) = map f xs0 ++ [v].
  Proof.
    intro H. rewrite map_app. cbn [map]. rewrite Nat.eqb_refl. f_equal. apply map_ext_in. intros x Hx.
    destruct (Nat.eqb_spec x p); [now subst|reflexivity].
  Qed.

  Definition reached (r : nat) (xs' : list nat) (m' : mem V) (U : list V) : Prop :=
    xs' = xold_ c :: seq n0 (xs_ c - 1) ++ [xnew_ c] /\ live m' = rev (seq n0 (xs_ c - 1)) ++ live m0 /\ bad m' = bad m0 /\
    next m0 <= next m' /\ length U = S (xs_ c) /\
    map (val m') xs' = U /\ (forall l, l < n0 -> l <> xold_ c -> l <> xnew_ c -> val m' l = val m0 l).

  Lemma xstages_ideal k : forall r xs m us cur start dt, xinv r xs m us cur start -> 1 <= r -> r + S k = S (xs_ c) ->
    match ideal_explicit c (S k) r us cur start dt with
    | Some (U, dt') => exists xs' m', xstages v0 c (S k) r xs m dt = (Some (xs', m', dt'), m') /\ reached r xs' m' U
    | None => exists m', xstages v0 c (S k) r xs m dt = (None, m') /\
        (forall l, l < n0 -> l <> xold_ c -> l <> xnew_ c -> val m' l = val m0 l)
    end.
  Proof.
    induction k as [|k IH]; intros r xs m us cur start dt I Hr Hk; destruct I as [X L N Vv U Len B St].
    all: destruct (xs_split r Hr) as (xs0 & p & E & E0 & NI & Ep & Pp).
    all: assert (Uc : val m p = cur /\ map (val m) xs0 = us)
      by (rewrite X, E, map_app in U; cbn [map] in U; apply app_inj_tail in U; tauto); destruct Uc as [Uc Uu].
    all: assert (R1 : (1 <? r) = negb (r =? 1)) by (destruct (Nat.eqb_spec r 1), (Nat.ltb_spec 1 r); try reflexivity; lia).
    - (* last stage *)
      assert (r = xs_ c) by lia. subst r.
      cbn [ideal_explicit xstages]. rewrite Nat.eqb_refl. rewrite X, Ep.
      set (m2 := if 1 <? xs_ c then put (xnew_ c) (val m p) m else m).
      assert (Pn : p <> xnew_ c) by (destruct Pp; [congruence|lia]).
      assert (G : val m2 (xnew_ c) = start).
      { unfold m2. rewrite R1, St. destruct (Nat.eqb_spec (xs_ c) 1); cbn [negb].
        - apply Vv; auto.
        - rewrite val_put, Nat.eqb_refl. exact Uc. }
      assert (G2 : forall l, l <> xnew_ c -> val m2 l = val m l).
      { intros l Hl. unfold m2. destruct (1 <? xs_ c); [|reflexivity]. rewrite val_put. destruct (Nat.eqb_spec l (xnew_ c)); [contradiction|reflexivity]. }
      assert (G3 : live m2 = live m /\ next m2 = next m /\ bad m2 = bad m) by (unfold m2; destruct (1 <? xs_ c); auto).
      destruct G3 as (G3 & G4 & G5).
      assert (Hx0 : forall x, In x xs0 -> x <> xnew_ c).
      { intros x Hx. assert (Hx' : In x (xold_ c :: seq n0 (xs_ c - 1))) by (rewrite E; apply in_app_iff; auto).
        destruct Hx' as [<-|Hx']; [congruence|]. apply in_seq in Hx'. lia. }
      set (m3 := put p (limit_before c (val m2 p)) m2).
      assert (V3 : map (val m3) (xold_ c :: seq n0 (xs_ c - 1)) = us ++ [limit_before c cur]).
      { rewrite E. unfold m3, put; cbn [val]. rewrite map_put by auto. rewrite (G2 p Pn), Uc. f_equal. rewrite <- Uu.
        apply map_ext_in. intros x Hx. apply G2. auto. }
      rewrite V3.
      assert (G' : val m3 (xnew_ c) = start).
      { unfold m3. rewrite val_put. destruct (Nat.eqb_spec (xnew_ c) p); [congruence|exact G]. }
      rewrite G'.
      destruct (system c (xs_ c) _ _ start) as [v|].
      + eexists; eexists. split; [reflexivity|]. unfold reached. cbn [put live bad next]. rewrite <- app_comm_cons.
        split; [reflexivity|]. unfold m3. cbn [put live bad next].
        split; [now rewrite G3, L|]. split; [congruence|]. split; [rewrite G4, N; fold n0; lia|].
        split; [rewrite !app_length; cbn; lia|]. fold m3.
        split.
        * rewrite app_comm_cons, map_app. apply f_equal2; [|cbn [map]; now rewrite val_put, Nat.eqb_refl].
          rewrite <- V3. apply map_ext_in. intros x Hx. rewrite val_put. destruct (Nat.eqb_spec x (xnew_ c)) as [->|]; [|reflexivity].
          exfalso. destruct Hx as [Hx|Hx]; [congruence|]. apply in_seq in Hx. lia.
        * intros l Hl Ho Hn. change (val (put (xnew_ c) (limit_after c v) m3) l = val m0 l). rewrite val_put.
          destruct (Nat.eqb_spec l (xnew_ c)); [contradiction|].
          unfold m3. rewrite val_put. destruct (Nat.eqb_spec l p); [exfalso; destruct Pp; [congruence|lia]|].
          rewrite G2 by auto. now apply Vv.
      + eexists. split; [reflexivity|]. intros l Hl Ho Hn. unfold m3. rewrite val_put.
        destruct (Nat.eqb_spec l p); [exfalso; destruct Pp; [congruence|lia]|]. rewrite G2 by auto. now apply Vv.
    - assert (Hrs : r <> xs_ c) by lia. apply Nat.eqb_neq in Hrs.
      change (ideal_explicit c (S (S k)) r us cur start dt) with
        (let us := us ++ [limit_before c cur] in
         let dt := if (r =? 1)%nat then Rmin (suggest c us) dt else dt in
         match system c r us dt start with
         | None => None
         | Some v => ideal_explicit c (S k) (S r) us (limit_after c v) (limit_after c v) dt
         end).
      remember (S k) as k1. cbn [xstages]. rewrite Hrs. cbn [alloc]. rewrite N, X, Ep.
      set (l := n0 + (r - 1)).
      set (m1 := put l v0 (mkmem (val m) (l :: live m) (S l) (bad m))).
      set (m2 := put l (val m1 (if 1 <? r then p else xnew_ c)) m1).
      assert (Pl : p < l) by (unfold l; lia).
      assert (G2 : forall x, x <> l -> val m2 x = val m x).
      { intros x Hx. unfold m2, m1. rewrite !val_put. destruct (Nat.eqb_spec x l); [contradiction|reflexivity]. }
      assert (G : val m2 l = start).
      { unfold m2. rewrite val_put, Nat.eqb_refl. unfold m1. rewrite val_put. rewrite R1, St. destruct (Nat.eqb_spec r 1); cbn [negb].
        - destruct (Nat.eqb_spec (xnew_ c) l); [unfold l in *; lia|]. apply Vv; auto.
        - destruct (Nat.eqb_spec p l); [lia|]. exact Uc. }
      set (m3 := put p (limit_before c (val m2 p)) m2).
      assert (V3 : map (val m3) (xold_ c :: seq n0 (r - 1)) = us ++ [limit_before c cur]).
      { rewrite E. unfold m3. change (val (put p (limit_before c (val m2 p)) m2)) with (fun k => if k =? p then limit_before c (val m2 p) else val m2 k).
        rewrite map_put by auto. rewrite (G2 p) by lia. rewrite Uc. f_equal. rewrite <- Uu.
        apply map_ext_in. intros x Hx. apply G2.
        assert (Hx' : In x (xold_ c :: seq n0 (r - 1))) by (rewrite E; apply in_app_iff; auto).
        destruct Hx' as [<-|Hx']; [unfold l; lia|]. apply in_seq in Hx'. unfold l. lia. }
      rewrite V3.
      assert (G' : val m3 l = start).
      { unfold m3. rewrite val_put. destruct (Nat.eqb_spec l p); [lia|exact G]. }
      rewrite G'. cbn zeta.
      set (dt1 := if r =? 1 then _ else dt).
      destruct (system c r _ dt1 start) as [v|].
      + subst k1. apply (IH (S r)); [|lia|lia].
        assert (S1 : seq n0 (S r - 1) = seq n0 (r - 1) ++ [l]).
        { replace (S r - 1) with (S (r - 1)) by lia. now rewrite seq_S. }
        split.
        * rewrite S1. reflexivity.
        * cbn [put live m3 m2 m1]. unfold m3, m2, m1. cbn [put live]. rewrite S1, rev_app_distr, L. reflexivity.
        * unfold m3, m2, m1. cbn [put next]. unfold l. lia.
        * intros x Hx Ho. rewrite val_put. destruct (Nat.eqb_spec x l); [unfold l in *; lia|].
          unfold m3. rewrite val_put. destruct (Nat.eqb_spec x p); [exfalso; destruct Pp; [congruence|lia]|].
          rewrite G2 by auto. now apply Vv.
        * change (val (put l (limit_after c v) m3)) with (fun k => if k =? l then limit_after c v else val m3 k).
          rewrite map_put; [now rewrite V3|]. intros [H|H]; [unfold l in *; lia|]. apply in_seq in H. unfold l in *. lia.
        * rewrite app_length. cbn. lia.
        * unfold m3, m2, m1. cbn [put bad]. exact B.
        * destruct (Nat.eqb_spec (S r) 1); [lia|reflexivity].
      + eexists. split; [reflexivity|]. intros x Hx Ho Hn. unfold m3. rewrite val_put.
        destruct (Nat.eqb_spec x p); [exfalso; destruct Pp; [congruence|lia]|]. rewrite G2 by (unfold l; lia). now apply Vv.
  Qed.

  Theorem xapply_ideal dt :
    match ideal_explicit c (xs_ c) 1 [] (val m0 (xold_ c)) (val m0 (xnew_ c)) dt with
    | Some (U, dt') => exists m', xapply v0 c m0 dt = (Some dt', m') /\
        val m' (xnew_ c) = nth (xs_ c) U v0 /\ val m' (xold_ c) = nth 0 U v0 /\
        (forall l, l < n0 -> l <> xold_ c -> l <> xnew_ c -> val m' l = val m0 l) /\ live m' = live m0 /\ bad m' = bad m0
    | None => exists m', xapply v0 c m0 dt = (None, m') /\
        (forall l, l < n0 -> l <> xold_ c -> l <> xnew_ c -> val m' l = val m0 l)
    end.
  Proof.
    pose proof (xstages_ideal (xs_ c - 1) 1 [xold_ c] m0 [] (val m0 (xold_ c)) (val m0 (xnew_ c)) dt) as H.
    replace (S (xs_ c - 1)) with (xs_ c) in H by lia.
    assert (I : xinv 1 [xold_ c] m0 [] (val m0 (xold_ c)) (val m0 (xnew_ c))).
    { split; cbn; auto. }
    specialize (H I (le_n 1) ltac:(lia)). unfold xapply.
    destruct (ideal_explicit c (xs_ c) 1 [] _ _ dt) as [[U dt']|].
    - destruct H as (xs' & m' & -> & -> & HL & HB & HN & Len & HU & HV).
      assert (SX : slice 1 (xs_ c - 1) (xold_ c :: seq n0 (xs_ c - 1) ++ [xnew_ c]) = seq n0 (xs_ c - 1)).
      { unfold slice. cbn [skipn]. rewrite firstn_app, seq_length, Nat.sub_diag. cbn. rewrite app_nil_r.
        rewrite <- (seq_length (xs_ c - 1) n0) at 1. apply firstn_all. }
      rewrite SX.
      destruct (delete_seq n0 (xs_ c - 1) (live m0) m' Hlive HL) as (D1 & D2 & D3 & D4).
      eexists. split; [reflexivity|]. rewrite D1, D2, D3. split; [|split; [|auto]].
      + rewrite <- HU. cbn [map]. rewrite map_app. replace (xs_ c) with (S (xs_ c - 1)) at 1 by lia. cbn [nth].
        rewrite app_nth2; rewrite map_length, seq_length; [|lia]. now rewrite Nat.sub_diag.
      + rewrite <- HU. reflexivity.
    - destruct H as (m' & -> & HV). eauto.
  Qed.
End X.
