(** Nested vectors: access and iteration. *)
From Coq Require Import Reals Sorting.Sorted.
From Verif Require Import Common CommonFacts IstlModel IstlSpec.

Lemma nvec_ind' (P : nvec -> Prop) : (forall l, P (Field l)) -> (forall l, (forall c, In c l -> P c) -> P (Block l)) -> forall v, P v.
Proof.
  intros HF HB. fix F 1. intros [l|l]; [apply HF|]. apply HB. induction l as [|c l IH]; [intros ? []|]. intros c' [<- | I]; [apply F|apply IH, I].
Qed.

Lemma access_block l ci r : access (Block l) ci (S r) =
  match nth_error ci r with Some k => match nth_error l k with Some c => let* p := access c ci r in Ok (k :: p) | None => UB end | None => UB end.
Proof.
  cbn [access]. destruct (nth_error ci r) as [k|]; [|reflexivity]. 
  assert (H : forall j, (fix go l j := match l, j with c :: _, 0 => let* p := access c ci r in Ok (k :: p) | _ :: l, S j => go l j | [], _ => UB end) l j =
    match nth_error l j with Some c => let* p := access c ci r in Ok (k :: p) | None => UB end); [|apply H].
  induction l as [|c l IH]; intros [|j]; try reflexivity. apply IH.
Qed.
Lemma access_field l ci r : access (Field l) ci r =
  if length l =? 1 then if r <=? 1 then Ok [0] else UB
  else if r =? 1 then match nth_error ci 0 with Some k => if k <? length l then Ok [k] else UB | None => UB end else UB.
Proof. destruct l as [|a [|b l]]; reflexivity. Qed.

(** ** Entries in order *)
Fixpoint entries (v : nvec) : list path :=
  match v with
  | Field l => map (fun k => [k]) (seq 0 (length l))
  | Block l => (fix go l k := match l with [] => [] | c :: l => map (cons k) (entries c) ++ go l (S k) end) l 0
  end.
Fixpoint ents (l : list nvec) (k : nat) : list path := match l with [] => [] | c :: l => map (cons k) (entries c) ++ ents l (S k) end.
Lemma entries_block l : entries (Block l) = ents l 0.
Proof. cbn [entries]. generalize 0. induction l as [|c l IH]; intros k; [reflexivity|]. cbn [ents]. f_equal. Qed.

Lemma in_ents l : forall k p, In p (ents l k) <-> exists j c q, nth_error l j = Some c /\ p = (k + j) :: q /\ In q (entries c).
Proof.
  induction l as [|c l IH]; intros k p; cbn [ents].
  - split; [intros []|]. intros (j & c & q & N & _). destruct j; discriminate.
  - rewrite in_app_iff, IH, in_map_iff. split.
    + intros [(q & <- & I)|(j & c' & q & N & -> & I)].
      * exists 0, c, q. rewrite Nat.add_0_r. auto.
      * exists (S j), c', q. split; [exact N|]. split; [f_equal; lia|exact I].
    + intros ([|j] & c' & q & N & -> & I).
      * cbn in N. injection N as ->. left. exists q. rewrite Nat.add_0_r. auto.
      * right. exists j, c', q. split; [exact N|]. split; [f_equal; lia|exact I].
Qed.
Lemma in_entries v : forall p, In p (entries v) <-> exists x, get v p = Some x.
Proof.
  induction v as [l|l IH] using nvec_ind'; intros p.
  - cbn [entries]. rewrite in_map_iff. split.
    + intros (k & <- & I). apply in_seq in I. cbn [get]. destruct (nth_error l k) as [x|] eqn:E; [eauto|]. apply nth_error_None in E. lia.
    + intros (x & G). destruct p as [|k [|? ?]]; try discriminate. exists k. split; [reflexivity|]. apply in_seq. cbn in G.
      assert (k < length l) by (apply nth_error_Some; rewrite G; discriminate). lia.
  - rewrite entries_block, in_ents. split.
    + intros (j & c & q & N & -> & I). cbn [Nat.add get]. rewrite N. apply IH; [eapply nth_error_In, N|exact I].
    + intros (x & G). destruct p as [|k p]; [discriminate|]. cbn in G. destruct (nth_error l k) as [c|] eqn:N; [|discriminate]. exists k, c, p.
      split; [exact N|]. split; [reflexivity|]. apply IH; [eapply nth_error_In, N|eauto].
Qed.

Lemma sorted_app {A} (R : A -> A -> Prop) l1 : forall l2, StronglySorted R l1 -> StronglySorted R l2 -> (forall a b, In a l1 -> In b l2 -> R a b) -> StronglySorted R (l1 ++ l2).
Proof.
  induction l1 as [|a l1 IH]; intros l2 S1 S2 H; [exact S2|]. inversion S1; subst. cbn. constructor.
  - apply IH; auto. intros x y I J. apply H; [right; exact I|exact J].
  - apply Forall_app. split; [assumption|]. apply Forall_forall. intros b I. apply H; [left; reflexivity|exact I].
Qed.
Lemma sorted_map {A B} (R : A -> A -> Prop) (Q : B -> B -> Prop) (f : A -> B) l : (forall a b, R a b -> Q (f a) (f b)) -> StronglySorted R l -> StronglySorted Q (map f l).
Proof.
  intros H S. induction S as [|a l S IH F]; [constructor|]. cbn. constructor; [exact IH|]. apply Forall_forall. intros b I. apply in_map_iff in I. destruct I as (x & <- & I).
  apply H. rewrite Forall_forall in F. apply F, I.
Qed.
Lemma sorted_seq n : forall k, StronglySorted lt (seq k n).
Proof. induction n as [|n IH]; intros k; cbn; constructor; [apply IH|]. apply Forall_forall. intros x I. apply in_seq in I. lia. Qed.
Lemma sorted_entries v : StronglySorted lex_lt (entries v).
Proof.
  induction v as [l|l IH] using nvec_ind'.
  - cbn [entries]. apply (sorted_map lt); [intros a b L; apply Lex_here, L|apply sorted_seq].
  - rewrite entries_block. generalize 0. induction l as [|c l IHl]; intros k; cbn [ents]; [constructor|].
    apply sorted_app.
    + apply (sorted_map lex_lt); [intros a b L; apply Lex_later, L|]. apply IH. left. reflexivity.
    + apply IHl. intros c' I. apply IH. right. exact I.
    + intros a b Ia Ib. apply in_map_iff in Ia. destruct Ia as (q & <- & _). apply in_ents in Ib. destruct Ib as (j & c' & q' & _ & -> & _). apply Lex_here. lia.
Qed.
Lemma lex_irrefl p : ~ lex_lt p p.
Proof. induction p as [|i p IH]; intros H; inversion H; subst; [lia|auto]. Qed.
Lemma sorted_nodup l : StronglySorted lex_lt l -> NoDup l.
Proof.
  intros S. induction S as [|a l S IH F]; constructor; [|exact IH]. intros I. rewrite Forall_forall in F. apply (lex_irrefl a), F, I.
Qed.
Lemma split_unique {A} (p : A) e1 : forall e2 d1 d2, NoDup (e1 ++ p :: e2) -> e1 ++ p :: e2 = d1 ++ p :: d2 -> e2 = d2.
Proof.
  induction e1 as [|a e1 IH]; intros e2 [|b d1] d2 N E; cbn in *.
  - injection E as E. exact E.
  - injection E as -> E. inversion N as [|? ? NI ND]; subst. destruct NI. apply in_or_app. right. left. reflexivity.
  - injection E as -> E. inversion N as [|? ? NI ND]; subst. destruct NI. apply in_or_app. right. left. reflexivity.
  - injection E as -> E. inversion N as [|? ? NI ND]; subst. apply (IH _ _ _ ND E).
Qed.

(** ** The iterator *)
Fixpoint position (b : nvec) (l : nat) (t : tuple) (p : path) {struct p} : Prop :=
  match b, p with
  | Field xs, [k] => k < length xs /\ (length xs <> 1 -> t l = (k, length xs))
  | Block bs, k :: q => t l = (k, length bs) /\ exists c, nth_error bs k = Some c /\ position c (S l) t q
  | _, _ => False
  end.
Lemma position_ext b : forall l t t' p, (forall l', l <= l' -> t' l' = t l') -> position b l t p -> position b l t' p.
Proof.
  induction b as [xs|bs IH] using nvec_ind'; intros l t t' [|k q] H P; try contradiction.
  - cbn in *. destruct q; [|contradiction]. destruct P as (P1 & P2). split; [exact P1|]. intros N. rewrite H by lia. apply P2, N.
  - cbn in *. destruct P as (P1 & c & N & P2). split; [rewrite H by lia; exact P1|]. exists c. split; [exact N|]. apply (IH c (nth_error_In _ _ N) _ t); [|exact P2].
    intros l' L. apply H. lia.
Qed.

Lemma start_block bs l pre t cur : start (Block bs) l pre t cur = scan_from l pre cur bs 0 (set_level l (0, length bs) t).
Proof.
  cbn [start]. generalize (set_level l (0, length bs) t). generalize 0. induction bs as [|c r IH]; intros k t'; [reflexivity|]. cbn [scan_from].
  destruct (start c (S l) (pre ++ [k]) t' cur) as ((ok, t1), cur1). destruct ok; [reflexivity|]. apply IH.
Qed.
Lemma start_field xs l pre t cur : start (Field xs) l pre t cur =
  if length xs =? 1 then (true, t, pre ++ [0]) else if 0 =? length xs then (false, set_level l (0, length xs) t, cur) else (true, set_level l (0, length xs) t, pre ++ [0]).
Proof. destruct xs as [|a [|b xs]]; reflexivity. Qed.

Definition start_good (b : nvec) : Prop := forall l pre t cur, exists ok t' cur', start b l pre t cur = (ok, t', cur') /\ (forall l', l' < l -> t' l' = t l') /\
  match entries b with [] => ok = false | q :: _ => ok = true /\ cur' = pre ++ q /\ position b l t' q end.

Lemma set_same l x t : set_level l x t l = x. Proof. unfold set_level. rewrite Nat.eqb_refl. reflexivity. Qed.
Lemma set_other l l' x t : l' <> l -> set_level l x t l' = t l'. Proof. intros H. unfold set_level. apply Nat.eqb_neq in H. rewrite H. reflexivity. Qed.

Lemma scan_ok l pre cur n r : (forall c, In c r -> start_good c) -> forall k t, t l = (k, n) -> exists ok t' cur', scan_from l pre cur r k t = (ok, t', cur') /\
  (forall l', l' < l -> t' l' = t l') /\
  match ents r k with
  | [] => ok = false
  | q :: _ => ok = true /\ cur' = pre ++ q /\ exists j c q', q = (k + j) :: q' /\ nth_error r j = Some c /\ t' l = (k + j, n) /\ position c (S l) t' q'
  end.
Proof.
  induction r as [|c r IH]; intros G k t T.
  - exists false, t, cur. split; [reflexivity|]. split; [reflexivity|]. reflexivity.
  - cbn [scan_from ents]. destruct (G c (or_introl eq_refl) (S l) (pre ++ [k]) t cur) as (ok & t' & cur' & E & K & M). rewrite E.
    destruct (entries c) as [|q es].
    + subst ok. cbn [map app]. destruct (IH (fun c' I => G c' (or_intror I)) (S k) (set_level l (S k, snd (t' l)) t')) as (ok2 & t2 & cur2 & E2 & K2 & M2).
      { rewrite set_same. rewrite K by lia. rewrite T. reflexivity. }
      exists ok2, t2, cur2. split; [exact E2|]. split.
      * intros l' L. rewrite K2 by exact L. rewrite set_other by lia. apply K. lia.
      * destruct (ents r (S k)) as [|q es]; [exact M2|]. destruct M2 as (A & B & j & c' & q' & C1 & C2 & C3 & C4). split; [exact A|]. split; [exact B|].
        exists (S j), c', q'. replace (k + S j) with (S k + j) by lia. auto.
    + destruct M as (-> & -> & P). cbn [map app]. exists true, t', ((pre ++ [k]) ++ q). split; [reflexivity|]. split; [intros l' L; apply K; lia|].
      split; [reflexivity|]. split; [rewrite <- app_assoc; reflexivity|]. exists 0, c, q. rewrite Nat.add_0_r. split; [reflexivity|]. split; [reflexivity|].
      split; [|exact P]. rewrite K by lia. exact T.
Qed.
Lemma start_ok b : start_good b.
Proof.
  induction b as [xs|bs IH] using nvec_ind'; intros l pre t cur.
  - rewrite start_field. cbn [entries]. destruct xs as [|a [|b xs]].
    + cbn. do 3 eexists. split; [reflexivity|]. split; [|reflexivity]. intros l' L. apply set_other. lia.
    + cbn. do 3 eexists. split; [reflexivity|]. split; [reflexivity|]. split; [reflexivity|]. split; [reflexivity|]. split; [lia|]. congruence.
    + cbn [length Nat.eqb seq map]. do 3 eexists. split; [reflexivity|]. split; [intros l' L; apply set_other; lia|]. split; [reflexivity|]. split; [reflexivity|].
      split; [cbn; lia|]. intros _. rewrite set_same. reflexivity.
  - rewrite start_block, entries_block. destruct (scan_ok l pre cur (length bs) bs IH 0 (set_level l (0, length bs) t) (set_same _ _ _)) as (ok & t' & cur' & E & K & M).
    exists ok, t', cur'. split; [exact E|]. split; [intros l' L; rewrite K by exact L; apply set_other; lia|].
    destruct (ents bs 0) as [|q es]; [exact M|]. destruct M as (A & B & j & c & q' & -> & N & T & P). split; [exact A|]. split; [exact B|]. cbn [position Nat.add] in *. eauto.
Qed.

Lemma advance_field xs l pre t cur : advance (Field xs) l pre t cur =
  if length xs =? 1 then Ok (false, t, cur) else let it := S (fst (t l)) in let t := set_level l (it, snd (t l)) t in
    if it =? snd (t l) then Ok (false, t, cur) else Ok (true, t, pre ++ [it]).
Proof. destruct xs as [|a [|b xs]]; reflexivity. Qed.
Lemma advance_block bs l pre t cur k0 n : t l = (k0, n) -> advance (Block bs) l pre t cur =
  match nth_error bs k0 with
  | Some c => let* (ok, t1, cur1) := advance c (S l) (pre ++ [k0]) t cur in
              if (ok : bool) then Ok (true, t1, cur1)
              else let k := S (fst (t1 l)) in Ok (scan_from l pre cur (skipn (S k0) bs) k (set_level l (k, snd (t1 l)) t1))
  | None => UB
  end.
Proof.
  intros T. cbn [advance]. rewrite T. cbn [fst].
  match goal with |- ?f bs k0 = _ => assert (H : forall bs j, f bs j = match nth_error bs j with
    | Some c => let* (ok, t1, cur1) := advance c (S l) (pre ++ [k0]) t cur in
                if (ok : bool) then Ok (true, t1, cur1) else let k := S (fst (t1 l)) in Ok (scan_from l pre cur (skipn (S j) bs) k (set_level l (k, snd (t1 l)) t1))
    | None => UB end); [|apply H] end.
  clear. induction bs as [|c r IH]; intros [|j]; try reflexivity. cbn [nth_error]. rewrite IH. reflexivity.
Qed.

Lemma ents_split bs : forall k0 k c, nth_error bs k = Some c ->
  ents bs k0 = ents (firstn k bs) k0 ++ map (cons (k0 + k)) (entries c) ++ ents (skipn (S k) bs) (k0 + S k).
Proof.
  induction bs as [|b bs IH]; intros k0 [|k] c N; try discriminate.
  - cbn in N. injection N as ->. cbn [firstn ents skipn app]. rewrite Nat.add_0_r. replace (k0 + 1) with (S k0) by lia. reflexivity.
  - cbn [nth_error] in N. cbn [ents firstn]. change (skipn (S (S k)) (b :: bs)) with (skipn (S k) bs). rewrite (IH (S k0) k c N), <- app_assoc.
    replace (S k0 + k) with (k0 + S k) by lia. replace (S k0 + S k) with (k0 + S (S k)) by lia. reflexivity.
Qed.

Lemma advance_ok b : forall l pre t cur p, position b l t p -> exists e1 e2 ok t' cur', entries b = e1 ++ p :: e2 /\
  advance b l pre t cur = Ok (ok, t', cur') /\ (forall l', l' < l -> t' l' = t l') /\
  match e2 with [] => ok = false | q :: _ => ok = true /\ cur' = pre ++ q /\ position b l t' q end.
Proof.
  induction b as [xs|bs IH] using nvec_ind'; intros l pre t cur p P.
  - destruct p as [|k [|? ?]]; cbn in P; try contradiction. destruct P as (Hk & T). rewrite advance_field. cbn [entries].
    exists (map (fun k => [k]) (seq 0 k)), (map (fun k => [k]) (seq (S k) (length xs - S k))).
    assert (E : map (fun k : nat => [k]) (seq 0 (length xs)) = map (fun k => [k]) (seq 0 k) ++ [k] :: map (fun k => [k]) (seq (S k) (length xs - S k))).
    { replace (length xs) with (k + S (length xs - S k)) at 1 by lia. rewrite seq_app, map_app. reflexivity. }
    destruct (length xs =? 1) eqn:L1.
    + apply Nat.eqb_eq in L1. do 3 eexists. split; [exact E|]. split; [reflexivity|]. split; [reflexivity|]. replace (length xs - S k) with 0 by lia. reflexivity.
    + apply Nat.eqb_neq in L1. specialize (T L1). cbv zeta. rewrite set_same, T. cbn [fst snd]. destruct (S k =? length xs) eqn:E1.
      * apply Nat.eqb_eq in E1. do 3 eexists. split; [exact E|]. split; [reflexivity|]. split; [intros l' L; apply set_other; lia|]. replace (length xs - S k) with 0 by lia. reflexivity.
      * apply Nat.eqb_neq in E1. do 3 eexists. split; [exact E|]. split; [reflexivity|]. split; [intros l' L; apply set_other; lia|].
        replace (length xs - S k) with (S (length xs - S (S k))) by lia. cbn [seq map]. split; [reflexivity|]. split; [reflexivity|]. split; [lia|]. intros _. apply set_same.
  - destruct p as [|k q]; cbn in P; [contradiction|]. destruct P as (T & c & N & P). rewrite (advance_block bs l pre t cur k (length bs) T), N, entries_block, (ents_split bs 0 k c N).
    destruct (IH c (nth_error_In _ _ N) (S l) (pre ++ [k]) t cur q P) as (e1 & e2 & ok & t' & cur' & E & A & K & M). rewrite A. cbn [bind Nat.add fst].
    exists (ents (firstn k bs) 0 ++ map (cons k) e1), (map (cons k) e2 ++ ents (skipn (S k) bs) (S k)).
    assert (EE : ents (firstn k bs) 0 ++ map (cons k) (entries c) ++ ents (skipn (S k) bs) (S k) = (ents (firstn k bs) 0 ++ map (cons k) e1) ++ (k :: q) :: map (cons k) e2 ++ ents (skipn (S k) bs) (S k)).
    { rewrite E, map_app. cbn [map]. rewrite <- !app_assoc. reflexivity. }
    destruct e2 as [|q2 e2].
    + subst ok. rewrite K by lia. rewrite T. cbn [fst snd].
      destruct (scan_ok l pre cur (length bs) (skipn (S k) bs)) with (k := S k) (t := set_level l (S k, length bs) t') as (ok2 & t2 & cur2 & E2 & K2 & M2).
      { intros c' _. apply start_ok. } { apply set_same. }
      exists ok2, t2, cur2. split; [exact EE|]. split; [rewrite E2; reflexivity|]. split.
      { intros l' L. rewrite K2 by exact L. rewrite set_other by lia. apply K. lia. }
      cbn [map app]. destruct (ents (skipn (S k) bs) (S k)) as [|q2 es]; [exact M2|]. destruct M2 as (A1 & B1 & j & c' & q' & -> & N' & T' & P').
      split; [exact A1|]. split; [exact B1|]. cbn [position]. split; [exact T'|]. exists c'. split; [|exact P'].
      rewrite <- N'. rewrite <- (firstn_skipn (S k) bs) at 1. assert (k < length bs) by (apply nth_error_Some; rewrite N; discriminate).
      rewrite nth_error_app2; rewrite firstn_length_le by lia; [f_equal; lia|lia].
    + destruct M as (-> & -> & P'). exists true, t', ((pre ++ [k]) ++ q2). split; [exact EE|]. split; [reflexivity|]. split; [intros l' L; apply K; lia|].
      cbn [map app]. split; [reflexivity|]. split; [rewrite <- app_assoc; reflexivity|]. cbn [position]. split; [rewrite K by lia; exact T|eauto].
Qed.

Lemma visit_ok v : forall e2 e1 p n s, entries v = e1 ++ p :: e2 -> at_end s = false -> current s = p -> position v 0 (levels s) p -> S (length e2) <= n -> visit v n s = Ok (p :: e2).
Proof.
  induction e2 as [|q e2 IH]; intros e1 p n s E AE C P L; destruct n as [|n]; cbn in L; try lia; cbn [visit]; unfold equal, deref, next; rewrite AE; cbn [negb end_of at_end bind];
  destruct (advance_ok v 0 [] (levels s) (current s) p P) as (d1 & d2 & ok & t' & cur' & D & A & _ & M); rewrite A; cbn [bind];
  pose proof (sorted_nodup _ (sorted_entries v)) as ND; rewrite E in ND, D; pose proof (split_unique _ _ _ _ _ ND D); subst d2.
  - subst ok. cbn [negb]. destruct n; cbn; rewrite C; reflexivity.
  - destruct M as (-> & -> & P'). cbn [negb app]. rewrite (IH (e1 ++ [p]) q n (mkiter false q t')); [rewrite C; reflexivity| |reflexivity|reflexivity|exact P'|lia].
    rewrite <- app_assoc. exact E.
Qed.

Lemma iterate_ok v n : length (entries v) <= n -> visit v n (begin_of v) = Ok (entries v).
Proof.
  intros L. unfold begin_of. destruct (start_ok v 0 [] (fun _ => (0, 0)) []) as (ok & t & cur & E & _ & M). rewrite E. destruct (entries v) as [|p es] eqn:En.
  - subst ok. destruct n; reflexivity.
  - destruct M as (-> & -> & P). apply (visit_ok v es []); auto.
Qed.

(** ** Access *)
Lemma last_one {A} (d : A) : forall p : list A, p <> [] -> p = removelast p ++ [last p d].
Proof. intros p H. apply app_removelast_last, H. Qed.
Lemma nth_rev_last (p : path) k : nth_error (rev (k :: p)) (length p) = Some k.
Proof. cbn [rev]. rewrite nth_error_app2; rewrite rev_length; [rewrite Nat.sub_diag; reflexivity|lia]. Qed.

Lemma access_app b : forall ci ci' r, r <= length ci -> access b (ci ++ ci') r = access b ci r.
Proof.
  induction b as [l|l IH] using nvec_ind'; intros ci ci' r L.
  - rewrite !access_field. destruct (length l =? 1); [reflexivity|]. destruct (r =? 1) eqn:E; [|reflexivity]. apply Nat.eqb_eq in E.
    rewrite nth_error_app1 by lia. reflexivity.
  - destruct r as [|r]; [reflexivity|]. rewrite !access_block, nth_error_app1 by lia. destruct (nth_error ci r) as [k|]; [|reflexivity].
    destruct (nth_error l k) as [c|] eqn:N; [|reflexivity]. rewrite (IH c (nth_error_In _ _ N)) by lia. reflexivity.
Qed.

Lemma get_length n d v : has_type n d v -> forall p x, get v p = Some x -> length p = S d.
Proof.
  induction 1 as [l L|d l H IH]; intros p x G.
  - destruct p as [|k [|? ?]]; try discriminate. reflexivity.
  - destruct p as [|k p]; [discriminate|]. cbn in G. destruct (nth_error l k) as [c|] eqn:N; [|discriminate]. cbn. f_equal. eapply IH; [eapply nth_error_In, N|exact G].
Qed.

Lemma access_full n d v : has_type n d v -> forall p x, get v p = Some x -> access v (rev p) (S d) = Ok p.
Proof.
  induction 1 as [l L|d l H IH]; intros p x G.
  - destruct p as [|k [|? ?]]; try discriminate. cbn in G. assert (K : k < length l) by (apply nth_error_Some; rewrite G; discriminate). rewrite access_field. cbn.
    destruct (length l =? 1) eqn:E; [apply Nat.eqb_eq in E; f_equal; f_equal; lia|]. apply Nat.ltb_lt in K. rewrite K. reflexivity.
  - destruct p as [|k p]; [discriminate|]. cbn in G. destruct (nth_error l k) as [c|] eqn:N; [|discriminate].
    pose proof (get_length n d c (H c (nth_error_In _ _ N)) p x G) as Lp. rewrite access_block, <- Lp, nth_rev_last, N. cbn [rev].
    rewrite access_app by (rewrite rev_length; lia). rewrite Lp, (IH c (nth_error_In _ _ N) p x G). reflexivity.
Qed.
Lemma access_short d v : has_type 1 d v -> forall p x, get v p = Some x -> access v (rev (removelast p)) d = Ok p.
Proof.
  induction 1 as [l L|d l H IH]; intros p x G.
  - destruct p as [|k [|? ?]]; try discriminate. cbn in G. assert (K : k < length l) by (apply nth_error_Some; rewrite G; discriminate). rewrite access_field, L. cbn. f_equal. f_equal. lia.
  - destruct p as [|k p]; [discriminate|]. cbn [get] in G. destruct (nth_error l k) as [c|] eqn:N; [|discriminate].
    pose proof (get_length 1 d c (H c (nth_error_In _ _ N)) p x G) as Lp. destruct p as [|k' p]; [discriminate|]. change (removelast (k :: k' :: p)) with (k :: removelast (k' :: p)).
    assert (Lr : length (removelast (k' :: p)) = d).
    { pose proof (f_equal (@length nat) (last_one 0 (k' :: p) ltac:(discriminate))) as E. rewrite app_length in E. cbn [length] in E, Lp. lia. }
    rewrite access_block, <- Lr, nth_rev_last, N. cbn [rev]. rewrite access_app by (rewrite rev_length; lia). rewrite Lr, (IH c (nth_error_In _ _ N) _ x G). reflexivity.
Qed.

Lemma access_sound v : forall ci r p, access v ci r = Ok p -> exists x, get v p = Some x.
Proof.
  induction v as [l|l IH] using nvec_ind'; intros ci r p A.
  - rewrite access_field in A. destruct (length l =? 1) eqn:E.
    + destruct (r <=? 1); [|discriminate]. injection A as <-. apply Nat.eqb_eq in E. cbn. destruct l; [discriminate|]. eauto.
    + destruct (r =? 1); [|discriminate]. destruct (nth_error ci 0) as [k|]; [|discriminate]. destruct (k <? length l) eqn:K; [|discriminate]. injection A as <-.
      apply Nat.ltb_lt in K. cbn. destruct (nth_error l k) as [y|] eqn:Ny; [eauto|]. apply nth_error_None in Ny. lia.
  - destruct r as [|r]; [discriminate|]. rewrite access_block in A. destruct (nth_error ci r) as [k|]; [|discriminate]. destruct (nth_error l k) as [c|] eqn:N; [|discriminate].
    apply bind_ok in A. destruct A as (q & A & E). injection E as <-. cbn [get]. rewrite N. eapply IH; [eapply nth_error_In, N|exact A].
Qed.

Lemma get_put v : forall p x y, get v p = Some x -> forall q, get (put v p y) q = if list_eq_dec Nat.eq_dec q p then Some y else get v q.
Proof.
  induction v as [l|l IH] using nvec_ind'; intros p x y G q.
  - destruct p as [|k [|? ?]]; try discriminate. cbn [get put] in *. assert (K : k < length l) by (apply nth_error_Some; rewrite G; discriminate).
    destruct q as [|k' [|? ?]]; cbn [get].
    + destruct (list_eq_dec _ _ _) as [E|]; [discriminate|reflexivity].
    + destruct (list_eq_dec _ _ _) as [E|E].
      * injection E as ->. apply upd_nth_error_same, K.
      * apply upd_nth_error_other. congruence.
    + destruct (list_eq_dec _ _ _) as [E|]; [discriminate|reflexivity].
  - destruct p as [|k p]; [discriminate|]. cbn [get put] in *. destruct (nth_error l k) as [c|] eqn:N; [|discriminate]. assert (K : k < length l) by (apply nth_error_Some; rewrite N; discriminate).
    destruct q as [|k' q]; cbn [get].
    + destruct (list_eq_dec _ _ _) as [E|]; [discriminate|reflexivity].
    + destruct (Nat.eq_dec k' k) as [->|NE].
      * rewrite upd_nth_error_same by exact K. rewrite N, (IH c (nth_error_In _ _ N) p x y G q). destruct (list_eq_dec _ q p) as [->|E]; destruct (list_eq_dec _ (k :: _) _); congruence.
      * rewrite upd_nth_error_other by congruence. destruct (list_eq_dec _ _ _) as [E|]; [congruence|reflexivity].
Qed.

Lemma shaped_get size v pre : shaped size pre v -> forall n d p, has_type n d v -> length p = S d ->
  (forall k, k < length p -> nth k p 0 < size (pre ++ firstn k p)) -> exists x, get v p = Some x.
Proof.
  induction 1 as [pre l L|pre l L H IH]; intros n d p T Lp B; inversion T; subst.
  - destruct p as [|k [|? ?]]; try discriminate. specialize (B 0 ltac:(cbn; lia)). cbn in B. rewrite app_nil_r, <- L in B. cbn. destruct (nth_error l k) eqn:N; [eauto|]. apply nth_error_None in N. lia.
  - destruct p as [|k p]; [discriminate|]. pose proof (B 0 ltac:(cbn; lia)) as B0. cbn in B0. rewrite app_nil_r, <- L in B0. cbn [get].
    destruct (nth_error l k) as [c|] eqn:N; [|apply nth_error_None in N; lia]. eapply (IH k c N); [eauto using nth_error_In|cbn in Lp; injection Lp as E; exact E|].
    intros j Hj. specialize (B (S j) ltac:(cbn; lia)). cbn [nth firstn] in B. rewrite <- app_assoc. exact B.
Qed.
