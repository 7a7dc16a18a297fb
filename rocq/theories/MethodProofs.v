From Coq Require Import FunctionalExtensionality.
From Verif Require Import CommonFacts MethodSpec.
Local Open Scope nat_scope.

Section P.
  Context {V : Type} (v0 : V).
  Notation mem := (mem V).

  Lemma delete_all_app ls ls' (m : mem) : delete_all (ls ++ ls') m = delete_all ls' (delete_all ls m).
  Proof. unfold delete_all. apply fold_left_app. Qed.

  Lemma remove_filter l (ls : list nat) : remove Nat.eq_dec l ls = filter (fun x => negb (x =? l)) ls.
  Proof. induction ls as [|x ls IH]; cbn; [reflexivity|]. destruct (Nat.eq_dec l x), (Nat.eqb_spec x l); subst; cbn; rewrite ?IH; congruence. Qed.

  Lemma delete_all_spec ls : forall m : mem, NoDup ls -> incl ls (live m) ->
    live (delete_all ls m) = filter (fun x => negb (existsb (Nat.eqb x) ls)) (live m) /\
    bad (delete_all ls m) = bad m /\ val (delete_all ls m) = val m /\ next (delete_all ls m) = next m.
  Proof.
    induction ls as [|l ls IH]; intros m ND I; cbn [delete_all fold_left].
    { split; [|auto]. generalize (live m). induction l as [|x l IH]; [reflexivity|]. cbn [filter existsb negb] in *. now rewrite <- IH. }
    inversion ND as [|? ? NI ND']; subst.
    assert (E : existsb (Nat.eqb l) (live m) = true).
    { apply existsb_exists. exists l. split; [apply I; left; reflexivity|apply Nat.eqb_refl]. }
    destruct (IH (delete l m) ND') as (A & B & C & D).
    { intros x Hx. unfold delete; cbn [live]. rewrite remove_filter. apply filter_In. split; [apply I; right; exact Hx|].
      destruct (Nat.eqb_spec x l); [subst; contradiction|reflexivity]. }
    unfold delete_all in A, B, C, D. rewrite A, B, C, D. unfold delete; cbn [live bad val next]. rewrite E, orb_false_r.
    split; [|auto]. rewrite remove_filter. clear. induction (live m) as [|x r IH]; cbn; [reflexivity|].
    destruct (x =? l); cbn; [exact IH|]. destruct (existsb (Nat.eqb x) ls); cbn; rewrite IH; reflexivity.
  Qed.

  Lemma existsb_seq x n k : existsb (Nat.eqb x) (seq n k) = true <-> n <= x < n + k.
  Proof.
    rewrite existsb_exists. split.
    - intros (y & Hy & E). apply Nat.eqb_eq in E. subst. apply in_seq in Hy. lia.
    - intros H. exists x. rewrite in_seq, Nat.eqb_refl. split; [lia|reflexivity].
  Qed.

  Lemma delete_seq n k (live0 : list nat) (m : mem) : (forall x, In x live0 -> x < n) -> live m = rev (seq n k) ++ live0 ->
    live (delete_all (seq n k) m) = live0 /\
    bad (delete_all (seq n k) m) = bad m /\ val (delete_all (seq n k) m) = val m /\ next (delete_all (seq n k) m) = next m.
  Proof.
    intros B L. destruct (delete_all_spec (seq n k) m) as (A & H).
    - apply seq_NoDup.
    - rewrite L. intros x Hx. apply in_app_iff. left. now apply in_rev in Hx.
    - split; [|exact H]. rewrite A, L, filter_app.
      assert (E1 : forall l, (forall x, In x l -> n <= x < n + k) -> filter (fun x => negb (existsb (Nat.eqb x) (seq n k))) l = []).
      { induction l as [|x l IH]; intros Hl; cbn; [reflexivity|]. rewrite (proj2 (existsb_seq x n k)) by (apply Hl; left; reflexivity).
        cbn. apply IH. intros y Hy. apply Hl. right; exact Hy. }
      rewrite E1.
      2:{ intros x Hx. apply in_rev in Hx. apply in_seq in Hx. lia. }
      cbn [app]. clear -B. induction live0 as [|x l IH]; cbn; [reflexivity|].
      destruct (existsb (Nat.eqb x) (seq n k)) eqn:E.
      { apply existsb_seq in E. specialize (B x (or_introl eq_refl)). lia. }
      cbn. f_equal. apply IH. intros y Hy. apply B. now right.
  Qed.

  (** ** The stages *)
  Section Step.
    Variables (c : call V) (m0 : mem).
    Let n0 := next m0.
    Hypothesis (Hs : 1 <= s c) (Hold : xold c < n0) (Hnew : xnew c < n0) (Hlive : forall x, In x (live m0) -> x < n0).
    Let u := val m0 (xnew c).

    Record inv (r : nat) (xs : list nat) (m : mem) (us : list V) (start : V) : Prop := {
      i_xs : xs = xold c :: seq n0 (r - 1);
      i_live : live m = rev (seq n0 (r - 1)) ++ live m0;
      i_next : next m = n0 + (r - 1);
      i_val : forall l, l < n0 -> val m l = val m0 l;
      i_us : map (val m) xs = us;
      i_bad : bad m = bad m0;
      i_start : start = if r =? 1 then u else val m (nth (r - 1) xs O) }.

    Lemma val_put l v (m : mem) k : val (put l v m) k = if k =? l then v else val m k. Proof. reflexivity. Qed.
    Lemma slice_xs l r : slice 1 (r - 1) (xold c :: seq n0 (r - 1) ++ l) = seq n0 (r - 1).
    Proof. unfold slice. cbn [skipn]. rewrite firstn_app, seq_length, Nat.sub_diag. cbn. rewrite app_nil_r. rewrite <- (seq_length (r - 1) n0) at 1. apply firstn_all. Qed.

    Lemma nth_xs r : 1 < r -> nth (r - 1) (xold c :: seq n0 (r - 1)) O = n0 + (r - 2).
    Proof. intros H. destruct r as [|[|r]]; [lia|lia|]. cbn [Nat.sub nth]. rewrite Nat.sub_0_r. rewrite seq_nth by lia. lia. Qed.

    (** guess of stage r after allocation *)
    Lemma stage_guess r m xs us start : inv r xs m us start -> 1 <= r <= s c ->
      let last := r =? s c in
      let (l, m1) := if last then (xnew c, m) else alloc v0 m in
      let previous := nth (r - 1) xs O in
      let m2 :=
          match interpolate c with
          | None =>
              if last then (if 1 <? r then put l (val m1 previous) m1 else m1)
              else put l (val m1 (if 1 <? r then previous else xnew c)) m1
          | Some f => put l (f r (val m1 (if r =? 1 then xnew c else previous))) m1
          end in
      val m2 l = match interpolate c with None => start | Some f => f r start end /\
      (forall k, k <> l -> (k < n0 + (r - 1))%nat -> val m2 k = val m k) /\
      live m2 = (if last then live m else n0 + (r - 1) :: live m) /\ next m2 = (if last then next m else S (next m)) /\ bad m2 = bad m /\
      l = (if last then xnew c else n0 + (r - 1)).
    Proof.
      intros I Hr. cbn zeta. destruct I as [X L N Vv U B St].
      assert (P : val m (if r =? 1 then xnew c else nth (r - 1) xs O) = start).
      { rewrite St. destruct (r =? 1); [now rewrite Vv|reflexivity]. }
      assert (Q : nth (r - 1) xs O <> n0 + (r - 1)).
      { rewrite X. destruct (Nat.eqb_spec r 1) as [->|]; [cbn; lia|]. rewrite nth_xs by lia. lia. }
      assert (R1 : (1 <? r) = negb (r =? 1)).
      { destruct (Nat.eqb_spec r 1), (Nat.ltb_spec 1 r); try reflexivity; lia. }
      destruct (Nat.eqb_spec r (s c)) as [Er|Er].
      - destruct (interpolate c) as [f|].
        + split; [cbn [put val]; rewrite Nat.eqb_refl; now rewrite P|]. split; [|auto].
          intros k Hk _. cbn [put val]. destruct (Nat.eqb_spec k (xnew c)); [contradiction|reflexivity].
        + rewrite R1. destruct (Nat.eqb_spec r 1) as [E1|E1]; cbn [negb].
          * split; [rewrite <- P; reflexivity|]. auto.
          * split; [cbn [put val]; rewrite Nat.eqb_refl; exact P|]. split; [|auto].
            intros k Hk _. cbn [put val]. destruct (Nat.eqb_spec k (xnew c)); [contradiction|reflexivity].
      - cbn [alloc]. rewrite !N.
        assert (P' : forall w, val (put (n0 + (r - 1)) w (mkmem (val m) (n0 + (r - 1) :: live m) (S (n0 + (r - 1))) (bad m))) (if r =? 1 then xnew c else nth (r - 1) xs O) = start).
        { intros w. cbn [put val]. destruct (Nat.eqb_spec (if r =? 1 then xnew c else nth (r - 1) xs O) (n0 + (r - 1))) as [E|E]; [|exact P].
          exfalso. destruct (r =? 1); [lia|congruence]. }
        destruct (interpolate c) as [f|].
        + split; [rewrite val_put, Nat.eqb_refl; now rewrite P'|]. split; [|auto].
          intros k Hk _. cbn [put val]. destruct (Nat.eqb_spec k (n0 + (r - 1))); [contradiction|reflexivity].
        + split. { rewrite val_put, Nat.eqb_refl. rewrite R1. destruct (r =? 1); exact (P' v0). }
          split; [|auto].
          intros k Hk _. cbn [put val]. destruct (Nat.eqb_spec k (n0 + (r - 1))); [contradiction|reflexivity].
    Qed.

    Lemma stages_ideal k : forall r xs m us start acc, inv r xs m us start -> 1 <= r -> r + S k = S (s c) ->
      let '(ok, xs', m', w) := stages v0 c (S k) r xs m acc in
      let '(iok, us', iw) := ideal_stages (solve c) (interpolate c) (S k) r start us acc in
      ok = iok /\ w = iw /\ bad m' = bad m0 /\ next m0 <= next m' /\
      (forall l, l < n0 -> val m' l = if l =? xnew c then nth (s c) us' u else val m0 l) /\
      if ok then xs' = xold c :: seq n0 (s c - 1) ++ [xnew c] /\ live m' = rev (seq n0 (s c - 1)) ++ live m0
      else live m' = live m0.
    Proof.
      induction k as [|k IH]; intros r xs m us start acc I Hr Hk.
      all: pose proof (stage_guess r m xs us start I ltac:(lia)) as G; cbn zeta in G.
      - (* last stage *)
        assert (r = s c) by lia. subst r. rewrite Nat.eqb_refl in G.
        cbn [stages ideal_stages]. rewrite Nat.eqb_refl.
        destruct I as [X L N Vv U B St].
        set (m2 := match interpolate c with None => _ | Some _ => _ end) in *.
        destruct G as (G1 & G2 & G3 & G4 & G5 & _). rewrite G1, U.
        destruct (solve c (s c) us (match interpolate c with None => start | Some f => f (s c) start end)) as [[ok v] w].
        assert (Lus : length us = s c). { rewrite <- U, X, map_length. cbn. rewrite seq_length. lia. }
        assert (Nth : nth (s c) (us ++ [v]) u = v). { rewrite app_nth2 by lia. rewrite Lus, Nat.sub_diag. reflexivity. }
        assert (VV : forall l, l < n0 -> (if l =? xnew c then v else val m2 l) = (if l =? xnew c then v else val m0 l)).
        { intros l Hl. destruct (Nat.eqb_spec l (xnew c)); [reflexivity|]. rewrite G2 by (auto; lia). now apply Vv. }
        destruct ok.
        + split; [reflexivity|]. split; [reflexivity|]. cbn [put bad next val live].
          split; [congruence|]. split; [rewrite G4, N; fold n0; lia|].
          split. { intros l Hl. rewrite Nth. now apply VV. }
          split; [now rewrite X|now rewrite G3].
        + split; [reflexivity|]. split; [reflexivity|]. rewrite Nat.ltb_irrefl.
          assert (SX : slice 1 (s c - 1) xs = seq n0 (s c - 1)). { rewrite X, <- (app_nil_r (seq n0 (s c - 1))) at 1. apply slice_xs. }
          rewrite SX.
          destruct (delete_seq n0 (s c - 1) (live m0) (put (xnew c) v m2) Hlive) as (D1 & D2 & D3 & D4). { cbn [put live]. now rewrite G3. }
          rewrite D1, D2, D3, D4. cbn [put bad next val].
          split; [congruence|]. split; [rewrite G4, N; fold n0; lia|].
          split; [|reflexivity]. intros l Hl. rewrite Nth. now apply VV.
      - assert (Hrs : r <> s c) by lia. apply Nat.eqb_neq in Hrs.
        cbn [stages ideal_stages] in IH |- *. rewrite Hrs in *.
        pose proof I as I'. destruct I' as [X L N Vv U B St]. cbn [alloc] in *.
        set (m2 := match interpolate c with None => _ | Some _ => _ end) in *.
        destruct G as (G1 & G2 & G3 & G4 & G5 & G6). rewrite G1, U.
        destruct (solve c r us (match interpolate c with None => start | Some f => f r start end)) as [[ok v] w].
        rewrite G6 in *.
        destruct ok.
        + refine (IH (S r) (xs ++ [n0 + (r - 1)]) (put (n0 + (r - 1)) v m2) (us ++ [v]) v (add_stats acc w) _ ltac:(lia) ltac:(lia)).
          assert (S1 : seq n0 (S r - 1) = seq n0 (r - 1) ++ [n0 + (r - 1)]).
          { replace (S r - 1) with (S (r - 1)) by lia. now rewrite seq_S. }
          split.
          * rewrite X, S1. reflexivity.
          * cbn [put live]. rewrite G3, S1, rev_app_distr, L. reflexivity.
          * cbn [put next]. rewrite G4. lia.
          * intros l Hl. cbn [put val]. destruct (Nat.eqb_spec l (n0 + (r - 1))); [lia|]. rewrite G2 by (auto; lia). now apply Vv.
          * rewrite map_app. cbn [map]. rewrite val_put, Nat.eqb_refl. f_equal. rewrite <- U. apply map_ext_in. intros l Hl.
            rewrite val_put.
            assert (l < n0 + (r - 1)). { rewrite X in Hl. destruct Hl as [<-|Hl]; [lia|]. apply in_seq in Hl. lia. }
            destruct (Nat.eqb_spec l (n0 + (r - 1))); [lia|]. apply G2; auto.
          * cbn [put bad]. congruence.
          * destruct (Nat.eqb_spec (S r) 1); [lia|].
            replace (S r - 1) with r by lia. rewrite X. rewrite app_nth2 by (cbn; rewrite seq_length; lia).
            cbn [length]. rewrite seq_length. replace (r - S (r - 1)) with 0 by lia. cbn [nth]. rewrite val_put, Nat.eqb_refl. reflexivity.
        + split; [reflexivity|]. split; [reflexivity|].
          assert (SX : slice 1 (r - 1) xs = seq n0 (r - 1)). { rewrite X, <- (app_nil_r (seq n0 (r - 1))) at 1. apply slice_xs. }
          rewrite SX. destruct (Nat.ltb_spec r (s c)); [|lia].
          change (delete (n0 + (r - 1)) (delete_all (seq n0 (r - 1)) (put (n0 + (r - 1)) v m2))) with
            (delete_all [n0 + (r - 1)] (delete_all (seq n0 (r - 1)) (put (n0 + (r - 1)) v m2))).
          rewrite <- delete_all_app, <- seq_S.
          destruct (delete_seq n0 (S (r - 1)) (live m0) (put (n0 + (r - 1)) v m2) Hlive) as (D1 & D2 & D3 & D4).
          { cbn [put live]. rewrite G3, seq_S, rev_app_distr, L. reflexivity. }
          rewrite D1, D2, D3, D4. cbn [put bad next val].
          split; [congruence|]. split; [rewrite G4; fold n0; lia|]. split; [|reflexivity].
          assert (Lus : length us = r). { rewrite <- U, X, map_length. cbn. rewrite seq_length. lia. }
          intros l Hl. destruct (Nat.eqb_spec l (n0 + (r - 1))); [lia|]. rewrite G2 by (auto; lia). rewrite Vv by lia.
          rewrite nth_overflow by (rewrite app_length; cbn; lia).
          destruct (Nat.eqb_spec l (xnew c)); [subst; reflexivity|reflexivity].
    Qed.

    (** One call of apply. *)
    Theorem apply_ideal o :
      let '(ok, (m', o')) := apply v0 c (m0, o) in
      let '(iok, sigma, w) := ideal_apply c (val m0) in
      ok = iok /\ (forall l, l < n0 -> val m' l = sigma l) /\ live m' = live m0 /\ bad m' = bad m0 /\ next m0 <= next m' /\
      o' = mkmethod (add_part (total o) w) (if ok then add_part (successful o) w else successful o) (if ok then S (step o) else step o).
    Proof.
      unfold apply, ideal_apply, ideal_step.
      pose proof (stages_ideal (s c - 1) 1 [xold c] m0 [val m0 (xold c)] u no_stats) as H.
      replace (S (s c - 1)) with (s c) in H by lia.
      assert (I : inv 1 [xold c] m0 [val m0 (xold c)] u).
      { split; cbn; auto; unfold n0; lia. }
      specialize (H I (le_n 1) ltac:(lia)). fold u.
      destruct (stages v0 c (s c) 1 [xold c] m0 no_stats) as [[[ok xs'] m'] w].
      destruct (ideal_stages (solve c) (interpolate c) (s c) 1 u [val m0 (xold c)] no_stats) as [[iok us'] iw].
      destruct H as (-> & -> & Hb & Hn & Hv & H). destruct iok.
      - destruct H as [-> HL]. rewrite slice_xs.
        destruct (delete_seq n0 (s c - 1) (live m0) m' Hlive HL) as (D1 & D2 & D3 & D4).
        rewrite D1, D2, D3, D4. auto 10.
      - auto 10.
    Qed.
  End Step.

  (** ** Histories *)
  Lemma ideal_ext (c : call V) sg sg' : sg (xold c) = sg' (xold c) -> sg (xnew c) = sg' (xnew c) ->
    let '(ok, t, w) := ideal_apply c sg in let '(ok', t', w') := ideal_apply c sg' in
    ok = ok' /\ w = w' /\ forall l, sg l = sg' l -> t l = t' l.
  Proof.
    intros E E'. unfold ideal_apply. rewrite E, E'. destruct (ideal_step c (sg' (xold c)) (sg' (xnew c))) as [[ok v] w].
    split; [reflexivity|]. split; [reflexivity|]. intros l H. now rewrite H.
  Qed.

  Definition oks (l : list (bool * stats)) : list stats := map snd (filter fst l).

  Lemma add_stats_assoc p q r : add_stats (add_stats p q) r = add_stats p (add_stats q r).
  Proof. destruct p, q, r. unfold add_stats; cbn. f_equal; try ring. Qed.
  Lemma add_stats_0 p : add_stats no_stats p = p.
  Proof. destruct p. unfold add_stats; cbn. f_equal; ring. Qed.
  Lemma add_stats_0r p : add_stats p no_stats = p.
  Proof. destruct p. unfold add_stats; cbn. f_equal; ring. Qed.
  Lemma sum_stats_from l : forall p, fold_left add_stats l p = add_stats p (sum_stats l).
  Proof.
    unfold sum_stats. induction l as [|q l IH]; intros p; cbn [fold_left]; [now rewrite add_stats_0r|].
    rewrite IH, (IH (add_stats no_stats q)), add_stats_0, add_stats_assoc. reflexivity.
  Qed.
  Lemma sum_stats_cons q l : sum_stats (q :: l) = add_stats q (sum_stats l).
  Proof. unfold sum_stats at 1. cbn [fold_left]. now rewrite add_stats_0, sum_stats_from. Qed.

  Theorem history_ideal N cs : forall (m : mem) o sg, N <= next m ->
    (forall c, In c cs -> 1 <= s c /\ xold c < N /\ xnew c < N) ->
    (forall x, In x (live m) -> x < next m) -> (forall l, l < N -> val m l = sg l) ->
    let (m', o') := history v0 cs (m, o) in
    let (l, sg') := ideal_history cs sg in
    (forall x, x < N -> val m' x = sg' x) /\ live m' = live m /\ bad m' = bad m /\
    o' = mkmethod (mkpart (timesteps (total o) + length l) (add_stats (work (total o)) (sum_stats (map snd l))))
                  (mkpart (timesteps (successful o) + length (oks l)) (add_stats (work (successful o)) (sum_stats (oks l))))
                  (step o + length (oks l)).
  Proof.
    induction cs as [|c cs IH]; intros m o sg HN Hc Hl Hv.
    - cbn. split; [auto|]. split; [reflexivity|]. split; [reflexivity|].
      change (sum_stats []) with no_stats. rewrite !add_stats_0r, !Nat.add_0_r. destruct o as [[] [] ]; reflexivity.
    - unfold history. cbn [fold_left ideal_history].
      destruct (Hc c (or_introl eq_refl)) as (H1 & H2 & H3).
      pose proof (apply_ideal c m H1 ltac:(lia) ltac:(lia) Hl o) as A.
      pose proof (ideal_ext c (val m) sg (Hv _ H2) (Hv _ H3)) as X.
      destruct (apply v0 c (m, o)) as [ok [m' o']]. destruct (ideal_apply c (val m)) as [[ok1 t] w].
      destruct (ideal_apply c sg) as [[ok2 t'] w']. destruct X as (-> & -> & X). destruct A as (-> & A1 & A2 & A3 & A4 & ->).
      cbn [snd].
      specialize (IH m' (mkmethod (add_part (total o) w') (if ok2 then add_part (successful o) w' else successful o) (if ok2 then S (step o) else step o)) t').
      unfold history in IH.
      destruct (fold_left _ cs _) as [m'' o'']. destruct (ideal_history cs t') as [l sg''].
      destruct IH as (B1 & B2 & B3 & ->).
      { lia. }
      { intros c' Hc'. apply Hc. now right. }
      { rewrite A2. intros x Hx. specialize (Hl x Hx). lia. }
      { intros x Hx. rewrite A1 by lia. apply X. auto. }
      split; [exact B1|]. split; [congruence|]. split; [congruence|].
      cbn [map snd total successful step timesteps work length]. unfold oks. cbn [filter fst].
      rewrite sum_stats_cons. destruct ok2; cbn [map length snd]; rewrite ?sum_stats_cons; cbn [add_part timesteps work]; rewrite ?add_stats_assoc; f_equal; try (f_equal; lia); try lia.
  Qed.
End P.
