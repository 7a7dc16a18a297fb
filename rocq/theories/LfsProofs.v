(** Binding a local function space. *)
From Verif Require Import LfsModel LfsSpec CommonFacts.

Lemma lfs_ind' (P : lfs -> Prop) : (forall o n f, P (Leaf o n f)) -> (forall o n ch, Forall P ch -> P (Inner o n ch)) -> forall t, P t.
Proof.
  intros HL HI. fix IH 1. intros [o n f|o n ch]; [apply HL|]. apply HI.
  induction ch as [|c r IHr]; constructor; [apply IH|exact IHr].
Qed.

(** list versions of the nested recursions *)
Fixpoint compute_list fast e o ch := match ch with
  | [] => ([], o)
  | c :: r => let (c', o1) := compute fast e o c in let (r', o2) := compute_list fast e o1 r in (c' :: r', o2) end.
Lemma compute_inner fast e o o0 n0 ch : compute fast e o (Inner o0 n0 ch) =
  let (ch', o') := compute_list fast e o ch in (Inner o (o' - o) ch', o').
Proof.
  cbn [compute].
  assert (H : forall ch o, (fix go o ch := match ch with
           | [] => ([], o)
           | c :: r => let (c', o1) := compute fast e o c in let (r', o2) := go o1 r in (c' :: r', o2)
           end) o ch = compute_list fast e o ch).
  { clear. induction ch as [|c r IH]; intros o; [reflexivity|]. cbn [compute_list]. destruct (compute fast e o c). rewrite IH. reflexivity. }
  rewrite H. reflexivity.
Qed.
Fixpoint leaves_list k ch := match ch with [] => [] | c :: r => map (under k) (leaves c) ++ leaves_list (S k) r end.
Lemma leaves_inner o n ch : leaves (Inner o n ch) = leaves_list 0 ch.
Proof.
  cbn [leaves]. generalize 0. induction ch as [|c r IH]; intros k; [reflexivity|]. cbn [leaves_list]. rewrite IH. reflexivity.
Qed.
Fixpoint fill_list fast e k ch a := match ch with
  | [] => Ok a
  | c :: r => let* a1 := fill fast e c a in
              let* a2 := (if fast then Ok a1 else push_range (offset c) (size c) k a1) in fill_list fast e (S k) r a2 end.
Lemma fill_inner fast e o n ch a : fill fast e (Inner o n ch) a = fill_list fast e 0 ch a.
Proof.
  cbn [fill]. generalize 0 as k. revert a. induction ch as [|c r IH]; intros a k; [reflexivity|]. cbn [fill_list].
  destruct (fill fast e c a); cbn [bind]; try reflexivity. destruct (if fast then _ else _); cbn [bind]; [apply IH|reflexivity|reflexivity].
Qed.

Lemma total_app l l' : total (l ++ l') = total l + total l'.
Proof. unfold total. rewrite map_app. apply sum_nat_app. Qed.
Lemma total_under k l : total (map (under k) l) = total l.
Proof. unfold total. rewrite map_map. reflexivity. Qed.
Lemma tiles_app l : forall l' o, tiles o (l ++ l') <-> tiles o l /\ tiles (o + total l) l'.
Proof.
  induction l as [|x l IH]; intros l' o; cbn [app tiles].
  - unfold total. cbn. rewrite Nat.add_0_r. tauto.
  - rewrite IH. unfold total. cbn. rewrite Nat.add_assoc. tauto.
Qed.
Lemma tiles_under k l : forall o, tiles o (map (under k) l) <-> tiles o l.
Proof. induction l as [|x l IH]; intros o; cbn [map tiles]; [tauto|]. cbn [under start len]. rewrite IH. tauto. Qed.

(** ** Sizes *)
Lemma compute_spec fast e t : forall o, let r := compute fast e o t in
  offset (fst r) = o /\ size (fst r) = total (leaves (fst r)) /\ snd r = o + size (fst r) /\ tiles o (leaves (fst r)) /\
  map (fun x => (path x, fe x)) (leaves (fst r)) = map (fun x => (path x, fe x)) (leaves t) /\
  (forall x, In x (leaves (fst r)) -> len x = leaf_size fast (fe x e)).
Proof.
  induction t as [o0 n0 f|o0 n0 ch IH] using lfs_ind'; intros o.
  - cbn. unfold total. cbn. repeat split; try lia; try reflexivity. intros x [<-|[]]. reflexivity.
  - cbn zeta. rewrite compute_inner.
    assert (L : forall o k, let r := compute_list fast e o ch in
              snd r = o + total (leaves_list k (fst r)) /\ tiles o (leaves_list k (fst r)) /\
              map (fun x => (path x, fe x)) (leaves_list k (fst r)) = map (fun x => (path x, fe x)) (leaves_list k ch) /\
              (forall x, In x (leaves_list k (fst r)) -> len x = leaf_size fast (fe x e))).
    { clear - IH. induction IH as [|c r Hc Hr IHr]; intros o k.
      - cbn. unfold total. cbn. repeat split; try lia; intros x [].
      - cbn zeta. cbn [compute_list]. destruct (Hc o) as (A & B & C & D & E & F). destruct (compute fast e o c) as (c', o1).
        cbn [fst snd] in *. destruct (IHr o1 (S k)) as (G1 & G2 & G3 & G4). destruct (compute_list fast e o1 r) as (r', o2). cbn [fst snd] in *.
        cbn [leaves_list]. rewrite total_app, total_under. split; [lia|]. split; [|split].
        + apply tiles_app. split; [apply tiles_under, D|]. rewrite total_under. replace (o + total (leaves c')) with o1 by lia. exact G2.
        + rewrite !map_app, G3. f_equal. rewrite !map_map. cbn [under path fe].
          change (map (fun x => (k :: path x, fe x)) (leaves c') = map (fun x => (k :: path x, fe x)) (leaves c)).
          rewrite <- (map_map (fun x => (path x, fe x)) (fun y => (k :: fst y, snd y))), E, map_map. reflexivity.
        + intros x I. apply in_app_or in I. destruct I as [I|I]; [|apply G4, I]. apply in_map_iff in I. destruct I as (y & <- & I).
          cbn. apply F, I. }
    destruct (L o 0) as (A & B & C & D). destruct (compute_list fast e o ch) as (ch', o'). cbn [fst snd] in *.
    rewrite !leaves_inner. cbn [offset size]. repeat split; try lia; assumption.
Qed.

(** ** Filling *)
Lemma write_at d mid0 (pre post : list dof) : write (length pre) d (pre ++ mid0 :: post) = Ok (pre ++ d :: post).
Proof.
  unfold write. rewrite app_length. cbn [length]. destruct (Nat.ltb_spec (length pre) (length pre + S (length post))); [|lia].
  rewrite upd_app_r, Nat.sub_diag by lia. reflexivity.
Qed.
Lemma store_all_spec ks : forall pre mid post, length mid = length ks ->
  store_all (length pre) ks (pre ++ mid ++ post) = Ok (pre ++ map (named []) ks ++ post).
Proof.
  induction ks as [|((g, i), k) ks IH]; intros pre mid post L.
  - destruct mid; [reflexivity|discriminate].
  - destruct mid as [|m mid]; [discriminate|]. cbn [store_all app]. rewrite write_at. cbn [bind map].
    replace (pre ++ mkdof g i [k] :: mid ++ post) with ((pre ++ [mkdof g i [k]]) ++ mid ++ post) by (rewrite <- app_assoc; reflexivity).
    replace (S (length pre)) with (length (pre ++ [mkdof g i [k]])) by (rewrite app_length; cbn; lia).
    rewrite IH by (cbn in L; lia). rewrite <- app_assoc. reflexivity.
Qed.
Lemma push_range_spec k mid : forall pre post,
  push_range (length pre) (length mid) k (pre ++ mid ++ post) = Ok (pre ++ map (push k) mid ++ post).
Proof.
  induction mid as [|m mid IH]; intros pre post; [reflexivity|]. cbn [push_range length app map].
  rewrite nth_error_app2, Nat.sub_diag by lia. cbn [nth_error]. rewrite upd_app_r, Nat.sub_diag by lia. cbn [upd].
  replace (pre ++ push k m :: mid ++ post) with ((pre ++ [push k m]) ++ mid ++ post) by (rewrite <- app_assoc; reflexivity).
  replace (S (length pre)) with (length (pre ++ [push k m])) by (rewrite app_length; cbn; lia).
  rewrite IH, <- app_assoc. reflexivity.
Qed.

(** The DOF indices of a list of leaves. *)
Definition names (e : nat) (l : list leaf) : list dof :=
  flat_map (fun x => if inside (fe x e) then map (named (path x)) (locals (fe x e)) else []) l.
Lemma names_app e l l' : names e (l ++ l') = names e l ++ names e l'. Proof. apply flat_map_app. Qed.
Lemma names_under e k l : names e (map (under k) l) = map (push k) (names e l).
Proof.
  induction l as [|x l IH]; [reflexivity|]. unfold names in *. cbn [map flat_map under fe path]. rewrite map_app, IH. f_equal.
  destruct (inside (fe x e)); [|reflexivity]. rewrite map_map. apply map_ext. intros ((g, i), q). reflexivity.
Qed.
Lemma names_length fast e l : fast = false -> (forall x, In x l -> len x = leaf_size fast (fe x e)) ->
  (forall x, In x l -> inside (fe x e) = true -> length (locals (fe x e)) = basis (fe x e)) -> length (names e l) = total l.
Proof.
  intros -> H C. induction l as [|x l IH]; [reflexivity|]. unfold names, total in *. cbn [flat_map map sum_nat fold_right].
  rewrite app_length, IH by (intros; try apply H; try apply C; auto; right; assumption). unfold sum_nat. f_equal.
  rewrite (H x) by (left; reflexivity). unfold leaf_size. pose proof (C x (or_introl eq_refl)). destruct (inside (fe x e)); [|reflexivity].
  rewrite map_length. auto.
Qed.
Lemma consistent_list t' t e : map (fun x => (path x, fe x)) (leaves t') = map (fun x => (path x, fe x)) (leaves t) ->
  consistent e t -> consistent e t'.
Proof.
  intros E C x I. assert (In (path x, fe x) (map (fun x => (path x, fe x)) (leaves t))) as J.
  { rewrite <- E. apply in_map_iff. exists x. auto. }
  apply in_map_iff in J. destruct J as (y & Ey & J). injection Ey as _ Ef. rewrite <- Ef. apply C, J.
Qed.

Lemma fill_spec e t : forall pre mid post, consistent e t ->
  let t' := fst (compute false e (length pre) t) in length mid = size t' ->
  fill false e t' (pre ++ mid ++ post) = Ok (pre ++ names e (leaves t') ++ post).
Proof.
  induction t as [o0 n0 f|o0 n0 ch IH] using lfs_ind'; intros pre mid post C.
  - cbn [compute fst fill size leaves]. intros L. unfold names. cbn [flat_map fe path]. rewrite app_nil_r.
    unfold dof_indices. pose proof (C _ (or_introl eq_refl)) as C0. cbn [fe] in C0. unfold leaf_size in L. destruct (inside (f e)).
    + apply store_all_spec. rewrite C0 by reflexivity. exact L.
    + destruct mid; [reflexivity|discriminate].
  - cbn zeta. rewrite compute_inner.
    assert (CL : forall x, In x (leaves_list 0 ch) -> inside (fe x e) = true -> length (locals (fe x e)) = basis (fe x e)).
    { rewrite <- (leaves_inner o0 n0). exact C. }
    assert (S0 : size (fst (compute false e (length pre) (Inner o0 n0 ch))) = total (leaves (fst (compute false e (length pre) (Inner o0 n0 ch))))).
    { apply compute_spec. }
    rewrite compute_inner in S0. clear C. revert S0.
    assert (G : forall k pre mid post, (forall x, In x (leaves_list k ch) -> inside (fe x e) = true -> length (locals (fe x e)) = basis (fe x e)) ->
        let ch' := fst (compute_list false e (length pre) ch) in length mid = total (leaves_list k ch') ->
        fill_list false e k ch' (pre ++ mid ++ post) = Ok (pre ++ names e (leaves_list k ch') ++ post)).
    { clear - IH. induction IH as [|c r Hc Hr IHr]; intros k pre mid post C.
      - cbn. intros L. destruct mid; [reflexivity|discriminate].
      - cbn [compute_list leaves_list] in *. destruct (compute_spec false e c (length pre)) as (A1 & A2 & A3 & A4 & A5 & A6).
        assert (Cc : consistent e c).
        { intros x I. apply (C (under k x)). apply in_or_app. left. apply in_map, I. }
        specialize (Hc pre). pose proof (consistent_list _ _ e A5 Cc) as Cc'.
        destruct (compute false e (length pre) c) as (c', o1). cbn [fst snd] in *. cbn zeta.
        destruct (compute_list false e o1 r) as (r', o2) eqn:CR. cbn [fst]. cbn [leaves_list]. rewrite total_app, total_under. intros L.
        pose proof (names_length false e (leaves c') eq_refl A6 Cc') as NL.
        rewrite <- (firstn_skipn (size c') mid), <- app_assoc. cbn [fill_list].
        rewrite Hc by (try exact Cc; rewrite firstn_length; lia). cbn [bind].
        replace (push_range (offset c') (size c')) with (push_range (length pre) (length (names e (leaves c')))) by (rewrite A1; f_equal; lia).
        rewrite push_range_spec. cbn [bind]. rewrite app_assoc.
        assert (O1 : o1 = length (pre ++ map (push k) (names e (leaves c')))) by (rewrite app_length, map_length; lia).
        rewrite O1 in CR. specialize (IHr (S k) (pre ++ map (push k) (names e (leaves c'))) (skipn (size c') mid) post).
        rewrite CR in IHr. cbn [fst] in IHr. rewrite IHr.
        + rewrite names_app, names_under, <- !app_assoc. reflexivity.
        + intros x I. apply C. apply in_or_app. auto.
        + rewrite skipn_length. lia. }
    specialize (G 0 pre mid post CL). cbn zeta in G. destruct (compute_list false e (length pre) ch) as (ch', o'). cbn [fst] in *.
    rewrite leaves_inner. intros S0 L. rewrite fill_inner. apply G. lia.
Qed.

Lemma bind_spec e t a : consistent e t -> let t' := fst (compute false e 0 t) in size t' <= length a ->
  bind_to false e (t, a) = Ok (t', names e (leaves t') ++ skipn (size t') a).
Proof.
  intros C t' L. unfold bind_to. cbn [fst snd]. fold t'.
  rewrite <- (firstn_skipn (size t') a) at 1. pose proof (fill_spec e t [] (firstn (size t') a) (skipn (size t') a) C) as F.
  cbn [app length] in F. fold t' in F. rewrite F by (rewrite firstn_length; lia). reflexivity.
Qed.

(** ** Tiling *)
Lemma tiles_in l : forall o x, tiles o l -> In x l -> o <= start x /\ start x + len x <= o + total l.
Proof.
  induction l as [|y l IH]; intros o x T I; [destruct I|]. cbn [tiles] in T. destruct T as (T1 & T2). unfold total. cbn [map sum_nat fold_right].
  destruct I as [->|I]; [unfold sum_nat; lia|]. specialize (IH _ _ T2 I). unfold total, sum_nat in *. lia.
Qed.
Lemma tiles_cover l : forall o j, tiles o l -> o <= j < o + total l -> exists n x, nth_error l n = Some x /\ start x <= j < start x + len x.
Proof.
  induction l as [|y l IH]; intros o j T J; unfold total, sum_nat in *; cbn [map fold_right tiles] in *; [lia|]. destruct T as (T1 & T2).
  destruct (Nat.lt_ge_cases j (o + len y)).
  - exists 0, y. split; [reflexivity|]. lia.
  - destruct (IH (o + len y) j T2) as (n & x & N & K); [lia|]. exists (S n), x. auto.
Qed.
Lemma tiles_uniq l : forall o j n x n' x', tiles o l -> nth_error l n = Some x -> nth_error l n' = Some x' ->
  start x <= j < start x + len x -> start x' <= j < start x' + len x' -> n = n'.
Proof.
  induction l as [|y l IH]; intros o j n x n' x' T N N' J J'; [destruct n; discriminate|]. cbn [tiles] in T. destruct T as (T1 & T2).
  destruct n, n'; cbn in N, N'; [reflexivity| | |f_equal; exact (IH _ _ _ _ _ _ T2 N N' J J')].
  - injection N as <-. apply nth_error_In in N'. pose proof (tiles_in _ _ _ T2 N'). lia.
  - injection N' as <-. apply nth_error_In in N. pose proof (tiles_in _ _ _ T2 N). lia.
Qed.
Lemma names_at e l : forall o x i c, tiles o l -> In x l ->
  (forall x, In x l -> len x = leaf_size false (fe x e)) ->
  (forall x, In x l -> inside (fe x e) = true -> length (locals (fe x e)) = basis (fe x e)) ->
  i < len x -> nth_error (locals (fe x e)) i = Some c -> nth_error (names e l) (start x - o + i) = Some (named (path x) c).
Proof.
  induction l as [|y l IH]; intros o x i c T I F C Li N; [destruct I|]. cbn [tiles] in T. destruct T as (T1 & T2).
  assert (LY : length (names e [y]) = len y).
  { rewrite (names_length false e [y] eq_refl); [unfold total; cbn; lia|intros z [<-|[]]; apply F; left; reflexivity|
      intros z [<-|[]]; apply C; left; reflexivity]. }
  change (y :: l) with ([y] ++ l). rewrite names_app. destruct I as [->|I].
  - rewrite nth_error_app1 by lia. rewrite T1, Nat.sub_diag. cbn [Nat.add]. unfold names. cbn [flat_map]. rewrite app_nil_r.
    pose proof (F x (or_introl eq_refl)) as Fx. unfold leaf_size in Fx. destruct (inside (fe x e)); [|lia].
    rewrite nth_error_map, N. reflexivity.
  - pose proof (tiles_in _ _ _ T2 I). rewrite nth_error_app2 by lia. replace (start x - o + i - length (names e [y])) with (start x - (o + len y) + i) by lia.
    apply IH; auto; intros; [apply F|apply C]; auto; right; assumption.
Qed.

(** ** Paths of leaves *)
Lemma leaves_list_path ch : forall k x, In x (leaves_list k ch) -> exists j p, path x = j :: p /\ k <= j.
Proof.
  induction ch as [|c r IH]; intros k x I; [destruct I|]. cbn in I. apply in_app_or in I. destruct I as [I|I].
  - apply in_map_iff in I. destruct I as (y & <- & I). cbn. exists k, (path y). auto.
  - destruct (IH _ _ I) as (j & p & E & L). exists j, p. split; [exact E|lia].
Qed.
Lemma nodup_app {A} (l l' : list A) : NoDup l -> NoDup l' -> (forall x, In x l -> In x l' -> False) -> NoDup (l ++ l').
Proof.
  intros H H' D. induction H as [|x l X N IH]; [exact H'|]. cbn. constructor.
  - intros I. apply in_app_or in I. destruct I as [I|I]; [auto|]. apply (D x); [left; reflexivity|exact I].
  - apply IH. intros y I. apply D. right. exact I.
Qed.
Lemma leaves_paths t : NoDup (map path (leaves t)).
Proof.
  induction t as [o n f|o n ch IH] using lfs_ind'.
  - cbn. constructor; [intros []|constructor].
  - rewrite leaves_inner. generalize 0. induction IH as [|c r Hc Hr IHr]; intros k; cbn [leaves_list map]; [constructor|].
    rewrite map_app. apply nodup_app; [|apply IHr|].
    + rewrite map_map. cbn [under path]. rewrite <- (map_map path (cons k)). apply FinFun.Injective_map_NoDup; [|exact Hc].
      intros p q E. injection E as E. exact E.
    + intros p I J. apply in_map_iff in I. destruct I as (x & <- & I). apply in_map_iff in I. destruct I as (y & <- & I).
      apply in_map_iff in J. destruct J as (z & E & J). apply leaves_list_path in J. destruct J as (j & q & E' & L). cbn in E.
      rewrite E' in E. injection E as -> _. lia.
Qed.
Lemma names_nodup e l : NoDup (map path l) -> (forall x, In x l -> inside (fe x e) = true -> NoDup (locals (fe x e))) -> NoDup (names e l).
Proof.
  induction l as [|x l IH]; intros H F; [constructor|]. cbn [map] in H. apply NoDup_cons_iff in H. destruct H as (H1 & H2).
  unfold names. cbn [flat_map]. apply nodup_app; [|apply IH; auto; intros; apply F; auto; right; assumption|].
  - pose proof (F x (or_introl eq_refl)) as Fx. destruct (inside (fe x e)); [|constructor].
    apply FinFun.Injective_map_NoDup; [|auto]. intros ((g, i), k) ((g', i'), k') E. unfold named in E. injection E as -> -> ->. reflexivity.
  - intros d I J. destruct (inside (fe x e)); [|destruct I]. apply in_map_iff in I. destruct I as (((g, i), k) & <- & I).
    apply in_flat_map in J. destruct J as (y & Y & J). destruct (inside (fe y e)); [|destruct J].
    apply in_map_iff in J. destruct J as (((g', i'), k') & E & J). unfold named in E. injection E as _ _ _ E.
    apply (f_equal (@rev nat)) in E. rewrite !rev_involutive in E. apply H1. rewrite <- E. apply in_map, Y.
Qed.

(** ** Every node covers the range of its leaves *)
Lemma compute_list_nth fast e ch : forall o k j c', nth_error (fst (compute_list fast e o ch)) j = Some c' ->
  exists c b a, c' = fst (compute fast e (o + total b) c) /\
    leaves_list k (fst (compute_list fast e o ch)) = b ++ map (under (k + j)) (leaves c') ++ a.
Proof.
  induction ch as [|d r IH]; intros o k j c' N; [destruct j; discriminate|]. cbn [compute_list] in *.
  destruct (compute_spec fast e d o) as (_ & A2 & A3 & _).
  destruct (compute fast e o d) as (d', o1) eqn:D. specialize (IH o1 (S k)). destruct (compute_list fast e o1 r) as (r', o2). cbn [fst snd] in *.
  destruct j as [|j]; cbn in N.
  - injection N as <-. exists d, [], (leaves_list (S k) r'). unfold total at 1. cbn. rewrite !Nat.add_0_r, D. auto.
  - destruct (IH j c' N) as (c & b & a & E1 & E2). exists c, (map (under k) (leaves d') ++ b), a.
    rewrite total_app, total_under, Nat.add_assoc, <- A2, <- A3. split; [exact E1|]. cbn [leaves_list]. rewrite E2, <- app_assoc.
    replace (S k + j) with (k + S j) by lia. reflexivity.
Qed.
Lemma node_spec fast e p : forall t o s, node_at (fst (compute fast e o t)) p = Some s ->
  exists b a, leaves (fst (compute fast e o t)) = b ++ map (fun l => mkleaf (p ++ path l) (start l) (len l) (fe l)) (leaves s) ++ a /\
    offset s = o + total b /\ size s = total (leaves s).
Proof.
  induction p as [|k p IH]; intros t o s N.
  - cbn in N. injection N as <-. exists [], []. destruct (compute_spec fast e t o) as (A & B & _). rewrite app_nil_r, A, B. split; [|split; auto].
    + cbn [app]. rewrite <- map_id at 1. apply map_ext. intros []. reflexivity.
  - revert N. destruct t as [o0 n0 f|o0 n0 ch]; [discriminate|]. rewrite compute_inner. pose proof (compute_list_nth fast e ch o 0 k) as CN.
    destruct (compute_list fast e o ch) as (ch', o'). cbn [fst node_at] in *. destruct (nth_error ch' k) as [c'|] eqn:K; [|discriminate].
    intros N. destruct (CN _ eq_refl) as (c & b0 & a0 & -> & E0). destruct (IH _ _ _ N) as (b & a & E & O & S1).
    rewrite leaves_inner. cbn [Nat.add] in E0.
    exists (b0 ++ map (under k) b), (map (under k) a ++ a0). split; [|split; [|exact S1]].
    + rewrite E0, E, !map_app, map_map, <- !app_assoc. reflexivity.
    + rewrite total_app, total_under, O. lia.
Qed.

(** ** Leaves as nodes *)
Lemma in_leaves_list ch : forall k x, In x (leaves_list k ch) <->
  exists j c y, nth_error ch j = Some c /\ In y (leaves c) /\ x = under (k + j) y.
Proof.
  induction ch as [|c r IH]; intros k x; cbn [leaves_list].
  - split; [intros []|intros (j & c & y & N & _)]. destruct j; discriminate.
  - rewrite in_app_iff, IH, in_map_iff. split.
    + intros [(y & <- & I)|(j & c' & y & N & I & ->)].
      * exists 0, c, y. rewrite Nat.add_0_r. auto.
      * exists (S j), c', y. replace (k + S j) with (S k + j) by lia. auto.
    + intros ([|j] & c' & y & N & I & ->); cbn in N.
      * injection N as <-. left. exists y. rewrite Nat.add_0_r. auto.
      * right. exists j, c', y. replace (k + S j) with (S k + j) by lia. auto.
Qed.
Lemma node_leaf p : forall t o n f, node_at t p = Some (Leaf o n f) <-> In (mkleaf p o n f) (leaves t).
Proof.
  induction p as [|k p IH]; intros t o n f.
  - destruct t as [o' n' f'|o' n' ch].
    + cbn. split; [intros E; injection E as -> -> ->; auto|intros [E|[]]; injection E as -> -> ->; reflexivity].
    + rewrite leaves_inner. cbn. split; [discriminate|]. intros I. apply in_leaves_list in I. destruct I as (j & c & y & _ & _ & E). discriminate.
  - destruct t as [o' n' f'|o' n' ch].
    + cbn. split; [discriminate|]. intros [E|[]]. discriminate.
    + rewrite leaves_inner. cbn [node_at]. rewrite in_leaves_list. cbn [Nat.add]. split.
      * destruct (nth_error ch k) as [c|] eqn:K; [|discriminate]. intros N. apply IH in N. exists k, c, (mkleaf p o n f). auto.
      * intros (j & c & y & N & I & E). destruct y as [p1 o1 n1 f1]. unfold under in E. injection E as -> -> -> -> ->. cbn [Nat.add] in N. rewrite N. apply IH, I.
Qed.

Lemma bound fast e t a t' a' : bind_to fast e (t, a) = Ok (t', a') -> t' = fst (compute fast e 0 t) /\ fill fast e t' a = Ok a'.
Proof. intros B. unfold bind_to in B. apply bind_ok in B. destruct B as (a1 & F & B). injection B as <- <-. auto. Qed.

Lemma local_index_bijective : forall fast e t a t' a', bind_to fast e (t, a) = Ok (t', a') ->
  (forall j, j < size t' -> exists p s i, node_at t' p = Some s /\ (exists o n f, s = Leaf o n f) /\ i < size s /\ local_index s i = j /\
     forall p' s' i', node_at t' p' = Some s' -> (exists o n f, s' = Leaf o n f) -> i' < size s' -> local_index s' i' = j -> p' = p /\ i' = i) /\
  (forall p s i, node_at t' p = Some s -> i < size s -> local_index s i < size t').
Proof.
  intros fast e t a t' a' B. apply bound in B. destruct B as (-> & _). destruct (compute_spec fast e t 0) as (A1 & A2 & A3 & A4 & A5 & A6).
  set (t' := fst (compute fast e 0 t)) in *. split.
  - intros j J. rewrite A2 in J. destruct (tiles_cover _ 0 j A4) as (n & x & N & K); [lia|]. destruct x as [p o l f]. cbn in K.
    pose proof (nth_error_In _ _ N) as I. exists p, (Leaf o l f), (j - o). split; [apply node_leaf, I|]. split; [eauto|]. cbn [size].
    unfold local_index. cbn [offset]. split; [lia|]. split; [lia|]. intros p' s' i' N' (o' & l' & f' & ->) L' E'. cbn in L', E'.
    apply node_leaf in N'. apply In_nth_error in N'. destruct N' as (n' & N').
    assert (n = n').
    { eapply (tiles_uniq _ 0 j _ _ _ _ A4 N N'); cbn; lia. }
    subst n'. rewrite N in N'. injection N' as -> -> -> ->. split; [reflexivity|lia].
  - intros p s i N L. destruct (node_spec fast e p t 0 s N) as (b & r & E & O & S1). fold t' in E. rewrite A2, E, !total_app.
    unfold local_index. rewrite O. replace (total (map _ (leaves s))) with (total (leaves s)) by (unfold total; rewrite map_map; reflexivity). lia.
Qed.

Lemma leaf_sum e t : sum_nat (map (fun x => if inside (fe x e) then basis (fe x e) else 0) (leaves t)) = size (fst (compute false e 0 t)).
Proof.
  destruct (compute_spec false e t 0) as (A1 & A2 & A3 & A4 & A5 & A6). rewrite A2. unfold total.
  rewrite (map_ext_in len (fun x => leaf_size false (fe x e))) by exact A6.
  transitivity (sum_nat (map (fun y => leaf_size false (snd y e)) (map (fun x => (path x, fe x)) (leaves t)))).
  - rewrite map_map. reflexivity.
  - rewrite <- A5, map_map. reflexivity.
Qed.

Lemma dof_indices_spec : forall e t a, consistent e t ->
  sum_nat (map (fun x => if inside (fe x e) then basis (fe x e) else 0) (leaves t)) <= length a ->
  exists t' a', bind_to false e (t, a) = Ok (t', a') /\ length a' = length a /\ skipn (size t') a' = skipn (size t') a /\
    forall p o n f i g x k, node_at t' p = Some (Leaf o n f) -> inside (f e) = true -> nth_error (locals (f e)) i = Some (g, x, k) ->
      i < n /\ nth_error a' (local_index (Leaf o n f) i) = Some (mkdof g x (k :: rev p)).
Proof.
  intros e t a C L. rewrite leaf_sum in L. destruct (compute_spec false e t 0) as (A1 & A2 & A3 & A4 & A5 & A6).
  pose proof (bind_spec e t a C L) as B. cbn zeta in B. set (t' := fst (compute false e 0 t)) in *.
  pose proof (consistent_list _ _ e A5 C) as C'. pose proof (names_length false e _ eq_refl A6 C') as NL.
  eexists; eexists; split; [exact B|]. split; [|split].
  - rewrite app_length, skipn_length. lia.
  - rewrite skipn_app, skipn_all2 by lia. replace (size t' - length (names e (leaves t'))) with 0 by lia. reflexivity.
  - intros p o n f i g x k N I K. apply node_leaf in N. unfold local_index. cbn [offset].
    assert (Ln : i < n).
    { pose proof (A6 _ N) as F1. pose proof (C' _ N) as F2. cbn [fe len] in *. unfold leaf_size in F1. rewrite I in F1.
      rewrite F1, <- F2 by exact I. apply nth_error_Some. rewrite K. discriminate. }
    split; [exact Ln|]. pose proof (tiles_in _ _ _ A4 N) as Q. cbn in Q. rewrite nth_error_app1 by lia.
    pose proof (names_at e (leaves t') 0 _ i (g, x, k) A4 N A6 C' Ln K) as R. cbn [start path named] in R. rewrite Nat.sub_0_r in R. exact R.
Qed.
Lemma dof_indices_distinct : forall e t a t' a', consistent e t -> size t' <= length a ->
  (forall x, In x (leaves t) -> inside (fe x e) = true -> NoDup (locals (fe x e))) ->
  bind_to false e (t, a) = Ok (t', a') -> NoDup (firstn (size t') a').
Proof.
  intros e t a t' a' C L D B. destruct (bound _ _ _ _ _ _ B) as (-> & _). destruct (compute_spec false e t 0) as (A1 & A2 & A3 & A4 & A5 & A6).
  pose proof (bind_spec e t a C L) as B'. cbn zeta in B'. set (t' := fst (compute false e 0 t)) in *. rewrite B in B'. injection B' as ->.
  pose proof (consistent_list _ _ e A5 C) as C'. pose proof (names_length false e _ eq_refl A6 C') as NL.
  rewrite A2, <- NL. rewrite firstn_app, Nat.sub_diag, firstn_all. cbn [firstn]. rewrite app_nil_r.
  apply names_nodup; [apply leaves_paths|]. intros x I. assert (J : In (path x, fe x) (map (fun x => (path x, fe x)) (leaves t))).
  { rewrite <- A5. apply in_map_iff. exists x. auto. }
  apply in_map_iff in J. destruct J as (y & E & J). injection E as _ <-. apply D, J.
Qed.
Lemma dof_index_recovers : forall e t a t' a' j d, consistent e t -> size t' <= length a -> bind_to false e (t, a) = Ok (t', a') ->
  j < size t' -> nth_error a' j = Some d ->
  exists o n f, node_at t' (rev (tl (ti d))) = Some (Leaf o n f) /\ o <= j < o + n /\
    nth_error (locals (f e)) (j - o) = Some (gt d, ei d, hd 0 (ti d)).
Proof.
  intros e t a t' a' j d C L B J N. destruct (bound _ _ _ _ _ _ B) as (E & _). destruct (compute_spec false e t 0) as (A1 & A2 & A3 & A4 & A5 & A6).
  destruct (dof_indices_spec e t a C) as (t1 & a1 & B1 & _ & _ & G); [rewrite leaf_sum, <- E; exact L|]. rewrite B in B1. injection B1 as <- <-.
  rewrite <- E in *. destruct (tiles_cover _ 0 j A4) as (n & x & Nx & K); [lia|]. destruct x as [p o l f]. cbn in K.
  pose proof (nth_error_In _ _ Nx) as I. pose proof (A6 _ I) as F1. pose proof (consistent_list _ _ e A5 C _ I) as F2. cbn [fe len] in F1, F2.
  unfold leaf_size in F1. destruct (inside (f e)) eqn:IN; [|lia]. specialize (F2 eq_refl).
  destruct (nth_error (locals (f e)) (j - o)) as [((g, y), k)|] eqn:M; [|apply nth_error_None in M; lia].
  destruct (G p o l f (j - o) g y k (proj2 (node_leaf _ _ _ _ _) I) IN M) as (_ & Q). unfold local_index in Q. cbn [offset] in Q.
  replace (o + (j - o)) with j in Q by lia. rewrite N in Q. injection Q as ->. cbn [ti tl hd gt ei]. rewrite rev_involutive.
  exists o, l, f. split; [apply node_leaf, I|]. auto.
Qed.

(** ** Histories *)
Fixpoint same (t t' : lfs) {struct t} : Prop :=
  match t, t' with
  | Leaf _ _ f, Leaf _ _ f' => f = f'
  | Inner _ _ ch, Inner _ _ ch' =>
      (fix go ch ch' := match ch, ch' with [], [] => True | c :: r, c' :: r' => same c c' /\ go r r' | _, _ => False end) ch ch'
  | _, _ => False
  end.
Lemma compute_same fast e t : forall o t', same t t' -> compute fast e o t = compute fast e o t'.
Proof.
  induction t as [o0 n0 f|o0 n0 ch IH] using lfs_ind'; intros o t' S.
  - destruct t' as [o1 n1 f'|]; [|destruct S]. cbn in S. subst f'. reflexivity.
  - destruct t' as [|o1 n1 ch']; [destruct S|]. rewrite !compute_inner. cbn [same] in S.
    enough (compute_list fast e o ch = compute_list fast e o ch') as -> by reflexivity. clear - IH S. revert o ch' S.
    induction IH as [|c r Hc Hr IHr]; intros o ch' S; destruct ch' as [|c' r']; try destruct S; [reflexivity|].
    cbn [compute_list]. rewrite (Hc o c') by assumption. destruct (compute fast e o c'). rewrite (IHr _ r') by assumption. reflexivity.
Qed.
Lemma same_compute fast e t : forall o, same t (fst (compute fast e o t)).
Proof.
  induction t as [o0 n0 f|o0 n0 ch IH] using lfs_ind'; intros o; [reflexivity|]. rewrite compute_inner.
  destruct (compute_list fast e o ch) as (ch', o') eqn:E. cbn [fst same]. revert o ch' o' E.
  induction IH as [|c r Hc Hr IHr]; intros o ch' o' E; cbn [compute_list] in E.
  - injection E as <- _. exact I.
  - specialize (Hc o). destruct (compute fast e o c) as (c', o1). specialize (IHr o1). destruct (compute_list fast e o1 r) as (r', o2).
    injection E as <- _. split; [exact Hc|]. eapply IHr. reflexivity.
Qed.
Lemma same_trans t : forall t1 t2, same t t1 -> same t1 t2 -> same t t2.
Proof.
  induction t as [o0 n0 f|o0 n0 ch IH] using lfs_ind'; intros [|o1 n1 ch1] [|o2 n2 ch2] S S'; cbn [same] in *; try contradiction; [congruence|].
  revert ch1 ch2 S S'. induction IH as [|c r Hc Hr IHr]; intros [|c1 r1] [|c2 r2] S S'; try contradiction; [exact I|].
  destruct S, S'. split; [eapply Hc|eapply IHr]; eassumption.
Qed.
Lemma bind_history : forall es e t a a0, (forall e', In e' (e :: es) -> consistent e' t /\
    sum_nat (map (fun x => if inside (fe x e') then basis (fe x e') else 0) (leaves t)) <= length a) -> length a0 = length a ->
  exists s t' a1 a2, foldM (fun s e => bind_to false e s) es (t, a) = Ok s /\ bind_to false e s = Ok (t', a1) /\
    bind_to false e (t, a0) = Ok (t', a2) /\ firstn (size t') a1 = firstn (size t') a2.
Proof.
  intros es e t a a0 H La.
  assert (G : forall es' t1 a1, (forall e', In e' es' -> In e' es) -> same t t1 -> (forall e', consistent e' t -> consistent e' t1) -> length a1 = length a ->
     exists t2 a2, foldM (fun s e => bind_to false e s) es' (t1, a1) = Ok (t2, a2) /\ same t t2 /\ (forall e', consistent e' t -> consistent e' t2) /\ length a2 = length a).
  { induction es' as [|x es' IH]; intros t1 a1 Sub S C L; [exists t1, a1; auto|]. destruct (H x) as (Cx & Lx); [right; apply Sub; left; reflexivity|].
    rewrite leaf_sum, (compute_same _ _ _ _ _ S) in Lx. destruct (dof_indices_spec x t1 a1 (C _ Cx)) as (t2 & a2 & B & L2 & _); [rewrite leaf_sum, L; exact Lx|].
    cbn [foldM]. rewrite B. cbn [bind]. destruct (bound _ _ _ _ _ _ B) as (-> & _). apply IH.
    - intros e' I. apply Sub. right. exact I.
    - eapply same_trans; [exact S|]. apply same_compute.
    - intros e' C'. eapply consistent_list; [|exact (C _ C')]. apply compute_spec.
    - congruence. }
  destruct (G es t a) as (t2 & a2 & F & S & C & L); auto.
  { clear. induction t as [|o n ch IH] using lfs_ind'; [reflexivity|]. cbn. induction IH; auto. }
  destruct (H e (or_introl eq_refl)) as (Ce & Le). rewrite leaf_sum in Le.
  exists (t2, a2), (fst (compute false e 0 t)). pose proof (bind_spec e t a0 Ce) as B0. cbn zeta in B0. rewrite <- La in Le. specialize (B0 Le).
  pose proof (bind_spec e t2 a2 (C _ Ce)) as B2. cbn zeta in B2. rewrite <- (compute_same false e t 0 t2 S) in B2. specialize (B2 ltac:(lia)).
  eexists; eexists. split; [exact F|]. split; [exact B2|]. split; [exact B0|].
  destruct (compute_spec false e t 0) as (A1 & A2 & A3 & A4 & A5 & A6). rewrite A2, <- (names_length false e _ eq_refl A6 (consistent_list _ _ e A5 Ce)).
  rewrite !firstn_app, !Nat.sub_diag. reflexivity.
Qed.
