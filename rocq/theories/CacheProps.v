(** Properties of the cache of basis function values (C70). *)
From Coq Require Import Lra Lia Reals.
From Verif Require Import CommonFacts CacheModel CacheSpec.
Local Open Scope R_scope.

Lemma equivalent_close x y : length x = length y -> less_than x y = false -> less_than y x = false -> close x y.
Proof.
  unfold close. revert y. induction x as [|a x IH]; intros [|b y] L H1 H2; cbn in *; try discriminate; [constructor|].
  unfold tolerance in *. destruct (Rlt_dec a (b - / 100000)) as [|N1]; [discriminate|]. destruct (Rlt_dec b (a - / 100000)) as [|N2]; [discriminate|].
  destruct (Rlt_dec (b + / 100000) a); [lra|]. destruct (Rlt_dec (a + / 100000) b); [lra|].
  constructor; [|apply IH; auto]. apply Rabs_le. lra.
Qed.
Lemma lookup_in {V} (c : cache V) x v : (forall y u, In (y, u) c -> length y = length x) -> lookup c x = Some v -> exists y, In (y, v) c /\ close x y.
Proof.
  intros Hl. induction c as [|(y, u) c IH]; cbn; [discriminate|]. destruct (less_than y x) eqn:E1.
  - intros H. destruct IH as (z & Hz & Cz); [intros; apply (Hl y0 u0); now right|assumption|]. exists z. auto.
  - destruct (less_than x y) eqn:E2; [discriminate|]. intros [= <-]. exists y. split; [now left|]. apply equivalent_close; auto. symmetry. apply (Hl y u). now left.
Qed.
Lemma insert_in {V} (c : cache V) x v y u : In (y, u) (insert c x v) -> (y, u) = (x, v) \/ In (y, u) c.
Proof.
  induction c as [|(z, w) c IH]; cbn; [intros [E|[]]; auto|]. destruct (less_than z x).
  - intros [E|H]; [now right; left|]. destruct (IH H); auto.
  - destruct (less_than x z); cbn; intros H; [destruct H as [E|H]; auto|auto].
Qed.

Section Proof.
Context {B V J : Type} (value : B -> list R -> V) (jacobian : B -> list R -> J) (d : nat).
(** every entry was computed for an earlier request *)
Definition explained (s : cache V * cache J) (past : list (request B)) : Prop :=
  (forall y v, In (y, v) (fst s) -> length y = d /\ exists b, In (Function y b) past /\ v = value b y) /\
  (forall y v, In (y, v) (snd s) -> length y = d /\ exists b, In (Jacobian y b) past /\ v = jacobian b y).
Lemma serve_ok s past r : explained s past -> length (position r) = d ->
  explained (snd (serve value jacobian s r)) (r :: past) /\
  exists q, In q (r :: past) /\ same_kind r q /\ close (position r) (position q) /\ fst (serve value jacobian s r) = fresh value jacobian q.
Proof.
  intros [Hf Hj] Hd.
  assert (C0 : close (position r) (position r)).
  { unfold close. generalize (position r) as l. induction l as [|a l IH]; constructor; auto. rewrite Rminus_diag_eq, Rabs_R0 by reflexivity. lra. }
  destruct s as (cf, cj). cbn [fst snd] in *. destruct r as [x b|x b]; cbn [serve position fst snd] in *; unfold evaluate.
  - destruct (lookup cf x) as [v|] eqn:E; cbn [fst snd].
    + split; [split; cbn [fst snd]|].
      * intros y u H. destruct (Hf y u H) as (L & b' & Hb & Ev). split; [assumption|]. exists b'. split; [now right|assumption].
      * intros y u H. destruct (Hj y u H) as (L & b' & Hb & Ev). split; [assumption|]. exists b'. split; [now right|assumption].
      * destruct (lookup_in cf x v) as (y & Hy & Cy); [intros y u H; rewrite Hd; now apply (Hf y u)|assumption|].
        destruct (Hf y v Hy) as (L & b' & Hb & ->). exists (Function y b'). cbn. auto.
    + split; [split; cbn [fst snd]|].
      * intros y u H. destruct (insert_in _ _ _ _ _ H) as [[= -> ->]|H'].
        -- split; [assumption|]. exists b. split; [now left|reflexivity].
        -- destruct (Hf y u H') as (L & b' & Hb & Ev). split; [assumption|]. exists b'. split; [now right|assumption].
      * intros y u H. destruct (Hj y u H) as (L & b' & Hb & Ev). split; [assumption|]. exists b'. split; [now right|assumption].
      * exists (Function x b). cbn. auto.
  - destruct (lookup cj x) as [v|] eqn:E; cbn [fst snd].
    + split; [split; cbn [fst snd]|].
      * intros y u H. destruct (Hf y u H) as (L & b' & Hb & Ev). split; [assumption|]. exists b'. split; [now right|assumption].
      * intros y u H. destruct (Hj y u H) as (L & b' & Hb & Ev). split; [assumption|]. exists b'. split; [now right|assumption].
      * destruct (lookup_in cj x v) as (y & Hy & Cy); [intros y u H; rewrite Hd; now apply (Hj y u)|assumption|].
        destruct (Hj y v Hy) as (L & b' & Hb & ->). exists (Jacobian y b'). cbn. auto.
    + split; [split; cbn [fst snd]|].
      * intros y u H. destruct (Hf y u H) as (L & b' & Hb & Ev). split; [assumption|]. exists b'. split; [now right|assumption].
      * intros y u H. destruct (insert_in _ _ _ _ _ H) as [[= -> ->]|H'].
        -- split; [assumption|]. exists b. split; [now left|reflexivity].
        -- destruct (Hj y u H') as (L & b' & Hb & Ev). split; [assumption|]. exists b'. split; [now right|assumption].
      * exists (Jacobian x b). cbn. auto.
Qed.
Lemma answers_ok : forall rs s past, explained s past -> (forall r, In r rs -> length (position r) = d) ->
  length (answers value jacobian s rs) = length rs /\
  forall n r a, nth_error rs n = Some r -> nth_error (answers value jacobian s rs) n = Some a ->
    exists q, (In q past \/ In q (firstn (S n) rs)) /\ same_kind r q /\ close (position r) (position q) /\ a = fresh value jacobian q.
Proof.
  induction rs as [|r rs IH]; intros s past He Hd; cbn [answers]; [split; [reflexivity|]; intros [|n]; discriminate|].
  destruct (serve_ok s past r He (Hd r ltac:(now left))) as (He' & q & Hq & Hk & Hc & Ea).
  destruct (serve value jacobian s r) as (a, s') eqn:Es. cbn [fst snd] in *.
  destruct (IH s' (r :: past) He' (fun r' H => Hd r' (or_intror H))) as (L & A). split; [cbn; now rewrite L|].
  intros [|n] r' a' Hr Ha; cbn [nth_error] in Hr, Ha.
  - injection Hr as <-. injection Ha as <-. exists q. split; [|auto]. destruct Hq as [<-|Hq]; [right; now left|now left].
  - destruct (A n r' a' Hr Ha) as (q' & Hq' & Rest). exists q'. split; [|exact Rest]. change (firstn (S (S n)) (r :: rs)) with (r :: firstn (S n) rs).
    destruct Hq' as [[<-|H]|H]; [right; now left|now left|right; now right].
Qed.
End Proof.

(** Every answer, after any history, was computed for this request or an earlier one of the same kind whose position
    differs by at most 1e-5 in every coordinate, with the basis object of that request. *)
Theorem c70_answer : forall (B V J : Type) (value : B -> list R -> V) (jacobian : B -> list R -> J) d rs,
  (forall r, In r rs -> length (position r) = d) ->
  length (answers value jacobian ([], []) rs) = length rs /\
  forall n r a, nth_error rs n = Some r -> nth_error (answers value jacobian ([], []) rs) n = Some a ->
    exists q, In q (firstn (S n) rs) /\ same_kind r q /\ close (position r) (position q) /\ a = fresh value jacobian q.
Proof.
  intros B V J value jacobian d rs Hd. destruct (answers_ok value jacobian d rs ([], []) []) as (L & A); auto; [split; intros ? ? []|]. split; [assumption|].
  intros n r a Hr Ha. destruct (A n r a Hr Ha) as (q & [[]|Hq] & Rest). exists q. auto.
Qed.
Print Assumptions c70_answer.

Lemma nth_error_ext {A} (l m : list A) : length l = length m -> (forall n a b, nth_error l n = Some a -> nth_error m n = Some b -> a = b) -> l = m.
Proof.
  revert m. induction l as [|a l IH]; intros [|b m] L H; try discriminate; [reflexivity|]. f_equal; [apply (H O); reflexivity|]. apply IH; [now injection L|]. intros n x y Hx Hy. now apply (H (S n)).
Qed.
(** With one basis object, and positions that are equal or differ by more than 1e-5 in some coordinate, every
    answer is exactly what the basis would have returned.  Not for all histories: see below. *)
Theorem c70_exact_partial : forall (B V J : Type) (value : B -> list R -> V) (jacobian : B -> list R -> J) d b rs,
  (forall r, In r rs -> length (position r) = d /\ basis r = b) ->
  (forall r q, In r rs -> In q rs -> close (position r) (position q) -> position r = position q) ->
  answers value jacobian ([], []) rs = map (fresh value jacobian) rs.
Proof.
  intros B V J value jacobian d b rs Hd Hs. destruct (c70_answer B V J value jacobian d rs (fun r H => proj1 (Hd r H))) as (L & A).
  apply nth_error_ext; [now rewrite map_length|]. intros n a a' Ha Ha'. rewrite nth_error_map in Ha'. destruct (nth_error rs n) as [r|] eqn:Er; [|discriminate]. injection Ha' as <-.
  destruct (A n r a Er Ha) as (q & Hq & Hk & Hc & ->). pose proof (nth_error_In _ _ Er) as Hr.
  assert (Hq' : In q rs) by (rewrite <- (firstn_skipn (S n) rs); apply in_or_app; now left).
  pose proof (Hs r q Hr Hq' Hc) as Ep. destruct (Hd r Hr) as [_ Er']. destruct (Hd q Hq') as [_ Eq']. destruct r, q; cbn in *; try contradiction; now subst.
Qed.
Print Assumptions c70_exact_partial.

(** Positions closer than 1e-5 share an entry: after asking at 0, asking at 5e-6 returns the values at 0. *)
Theorem c70_near_refuted : exists x y : R, x <> y /\
  answers (fun (_ : unit) p => p) (fun (_ : unit) p => p) ([], []) [Function [x] tt; Function [y] tt] = [inl [x]; inl [x]].
Proof.
  exists 0, (/ 200000). split; [lra|]. cbn -[Rlt_dec]. unfold evaluate. cbn -[Rlt_dec]. unfold tolerance. destruct (Rlt_dec 0 (/ 200000 - / 100000)); [lra|]. destruct (Rlt_dec (/ 200000 + / 100000) 0); [lra|].
  destruct (Rlt_dec (/ 200000) (0 - / 100000)); [lra|]. destruct (Rlt_dec (0 + / 100000) (/ 200000)); [lra|]. reflexivity.
Qed.
Print Assumptions c70_near_refuted.

(** The basis object is not part of the key: asking at the same position with another basis returns the values of
    the first one. *)
Theorem c70_basis_refuted : exists x (b b' : nat), b <> b' /\
  answers (fun (b : nat) (_ : list R) => b) (fun (b : nat) (_ : list R) => b) ([], []) [Function [x] b; Function [x] b'] = [inl b; inl b].
Proof.
  exists 0, 1%nat, 2%nat. split; [lia|]. cbn -[Rlt_dec]. unfold evaluate. cbn -[Rlt_dec]. unfold tolerance. destruct (Rlt_dec 0 (0 - / 100000)); [lra|]. destruct (Rlt_dec (0 + / 100000) 0); [lra|]. reflexivity.
Qed.
Print Assumptions c70_basis_refuted.

Example c70_meets : let rs := [Function [0; 1] tt; Jacobian [0; 1] tt; Function [/ 2; 1] tt; Function [0; 1] tt] in
  (forall r, In r rs -> length (position r) = 2%nat /\ basis r = tt) /\
  (forall r q, In r rs -> In q rs -> close (position r) (position q) -> position r = position q).
Proof.
  cbn. assert (F : close [/ 2; 1] [0; 1] -> False).
  { intros H. inversion H as [|? ? ? ? X]; subst. rewrite Rabs_right in X; lra. }
  assert (F' : close [0; 1] [/ 2; 1] -> False).
  { intros H. inversion H as [|? ? ? ? X]; subst. rewrite Rabs_left in X; lra. }
  split.
  - intros r H. repeat (destruct H as [<- |H]; [split; [reflexivity|]; now destruct (basis _)|]). contradiction.
  - intros r q Hr Hq. repeat (destruct Hr as [<- |Hr]; [repeat (destruct Hq as [<- |Hq]; [cbn; intros C; try reflexivity; exfalso; auto|]); contradiction|]). contradiction.
Qed.

(** *** The comparison and repeated requests *)
Lemma less_than_irreflexive x : less_than x x = false.
Proof.
  induction x as [|a x IH]; cbn; auto. unfold tolerance. destruct (Rlt_dec a (a - / 100000)); [lra|].
  destruct (Rlt_dec (a + / 100000) a); [lra|auto].
Qed.
Lemma apart_cases a b : a = b \/ / 100000 < Rabs (a - b) -> a = b \/ a < b - / 100000 \/ b + / 100000 < a.
Proof. intros [E|E]; auto. unfold Rabs in E. destruct (Rcase_abs (a - b)); [right; left|right; right]; lra. Qed.
Lemma less_than_transitive x y z : apart x y -> apart y z -> apart x z -> less_than x y = true -> less_than y z = true ->
  less_than x z = true.
Proof.
  intros A. revert z. induction A as [|a b x y E A IH]; intros z B C H1 H2; [discriminate|].
  inversion B as [|b' c y' z' E' B']; subst. inversion C as [|a' c' x' z0 E'' C']; subst. cbn in *. unfold tolerance in *.
  apply apart_cases in E, E', E''.
  destruct (Rlt_dec a (b - / 100000)), (Rlt_dec b (c - / 100000)), (Rlt_dec a (c - / 100000)), (Rlt_dec (b + / 100000) a),
    (Rlt_dec (c + / 100000) b), (Rlt_dec (c + / 100000) a); auto; try discriminate; try lra.
Qed.
Lemma less_than_total x y : apart x y -> less_than x y = false -> less_than y x = false -> x = y.
Proof.
  induction 1 as [|a b x y E A IH]; auto; cbn. unfold tolerance. apply apart_cases in E.
  destruct (Rlt_dec a (b - / 100000)), (Rlt_dec b (a - / 100000)), (Rlt_dec (b + / 100000) a), (Rlt_dec (a + / 100000) b);
    try discriminate; try lra. intros H1 H2. f_equal; [lra|auto].
Qed.
(** If the coordinates of all keys are equal or further apart than the tolerance, the comparison is a strict weak ordering
    and only equal keys are equivalent. *)
Theorem c70_order (S : list R -> Prop) : (forall x y, S x -> S y -> apart x y) ->
  strict_weak S less_than /\ (forall x y, S x -> S y -> less_than x y = false -> less_than y x = false -> x = y).
Proof.
  intros HA. repeat split.
  - intros. apply less_than_irreflexive.
  - intros x y z X Y Z. apply less_than_transitive; auto.
  - apply less_than_total in H2; auto. apply less_than_total in H4; auto. subst. apply less_than_irreflexive.
  - apply less_than_total in H2; auto. apply less_than_total in H4; auto. subst. apply less_than_irreflexive.
  - intros x y X Y. apply less_than_total; auto.
Qed.
Print Assumptions c70_order.
Example c70_order_meets : let S x := x = [0; 1] \/ x = [/ 2; 1] in
  (forall x y, S x -> S y -> apart x y) /\ less_than [0; 1] [/ 2; 1] = true.
Proof.
  split.
  - intros x y [->| ->] [->| ->]; repeat apply Forall2_cons; try apply Forall2_nil; try (now left); right; unfold Rabs; destruct Rcase_abs; lra.
  - cbn. unfold tolerance. destruct Rlt_dec; [reflexivity|lra].
Qed.
(** Finding: in general it is no ordering, even for positions no two of which are taken for each other: three points of the
    plane in a circle.  std::map is then undefined. *)
Theorem c70_order_refuted : exists p q r : list R, length p = 2%nat /\ length q = 2%nat /\ length r = 2%nat /\
  ~ close p q /\ ~ close q r /\ ~ close r p /\
  less_than p q = true /\ less_than q r = true /\ less_than r p = true.
Proof.
  exists [18 / 1000000; 0], [9 / 1000000; / 2], [0; 1].
  assert (N : forall a b c d : R, / 100000 < Rabs (b - d) -> ~ close [a; b] [c; d]).
  { intros a b c d H A. inversion A as [|? ? ? ? _ A']; subst. inversion A'; subst. lra. }
  repeat split; try (apply N; unfold Rabs; destruct Rcase_abs; lra); cbn; unfold tolerance;
    repeat (destruct Rlt_dec; try lra; auto).
Qed.
Print Assumptions c70_order_refuted.

Definition sorted {V} (c : cache V) : Prop := ForallOrdPairs (fun p q => less_than (fst p) (fst q) = true) c.
Section Repeat.
Context {B V J : Type} (value : B -> list R -> V) (jacobian : B -> list R -> J) (S : list R -> Prop).
Hypothesis HS : forall x y, S x -> S y -> apart x y.
Definition keys_in {X} (c : cache X) : Prop := forall y v, In (y, v) c -> S y.
Lemma asym x y : S x -> S y -> less_than x y = true -> less_than y x = false.
Proof.
  intros X Y H. destruct (less_than y x) eqn:E; auto. assert (less_than x x = true) by (eapply less_than_transitive; eauto).
  rewrite less_than_irreflexive in *. discriminate.
Qed.
Lemma lookup_hit {X} (c : cache X) x v : sorted c -> keys_in c -> S x -> In (x, v) c -> lookup c x = Some v.
Proof.
  induction c as [|(y, u) c IH]; intros Hs Hk Hx H; [contradiction|]. inversion Hs as [|? ? F Hs']; subst. cbn. destruct H as [[= -> ->]|H].
  - now rewrite less_than_irreflexive.
  - rewrite Forall_forall in F. specialize (F _ H). cbn in F. rewrite F. apply IH; auto. intros z w Hz. eapply Hk. right. eauto.
Qed.
Lemma lookup_miss {X} (c : cache X) x v : keys_in c -> S x -> lookup c x = Some v -> In (x, v) c.
Proof.
  induction c as [|(y, u) c IH]; intros Hk Hx; cbn; [discriminate|]. assert (Hy : S y) by (apply (Hk y u); now left).
  destruct (less_than y x) eqn:E1; [intros H; right; apply IH; auto; intros z w Hz; eapply Hk; right; eauto|].
  destruct (less_than x y) eqn:E2; [discriminate|]. intros [= <-]. left. f_equal. apply less_than_total; auto.
Qed.
Lemma insert_has {X} (c : cache X) x v y u : keys_in c -> S x -> lookup c x = None -> (In (y, u) (insert c x v) <-> (y, u) = (x, v) \/ In (y, u) c).
Proof.
  induction c as [|(z, w) c IH]; intros Hk Hx; cbn; [intros _; intuition|]. destruct (less_than z x) eqn:E1.
  - intros HL. cbn. rewrite IH; auto; [intuition|]. intros a b Hab. eapply Hk. right. eauto.
  - destruct (less_than x z) eqn:E2; [|discriminate]. intros _. cbn. intuition.
Qed.
Lemma insert_sorted {X} (c : cache X) x v : sorted c -> keys_in c -> S x -> sorted (insert c x v).
Proof.
  induction c as [|(z, w) c IH]; intros Hs Hk Hx; [repeat constructor|]. inversion Hs as [|? ? F Hs']; subst. cbn.
  assert (Hk' : keys_in c) by (intros a b Hab; eapply Hk; right; eauto). assert (Hz : S z) by (apply (Hk z w); now left).
  destruct (less_than z x) eqn:E1.
  - constructor; [|apply IH; auto]. apply Forall_forall. intros (y, u) Hy. destruct (insert_in _ _ _ _ _ Hy) as [[= -> ->]|Hy']; [exact E1|].
    rewrite Forall_forall in F. exact (F _ Hy').
  - destruct (less_than x z) eqn:E2; [|exact Hs]. constructor; [|exact Hs]. apply Forall_forall. intros (y, u) [[= <- <-]|Hy]; [exact E2|].
    rewrite Forall_forall in F. specialize (F _ Hy). cbn in *. apply less_than_transitive with z; auto; apply HS; auto; apply (Hk' y u Hy).
Qed.
Lemma matches_dec (r q : request B) : {matches r q} + {~ matches r q}.
Proof.
  unfold matches. destruct (list_eq_dec Req_EM_T (position q) (position r)); [|right; intuition].
  destruct r, q; cbn; intuition.
Qed.
Lemma first_exists (r q : request B) past : In q past -> matches r q -> exists f, first_request r past f.
Proof.
  induction past as [|p past IH]; [contradiction|]. intros H M. destruct (matches_dec r p) as [Y|N].
  - exists p, [], past. repeat split; try apply Y. intros ? [].
  - destruct H as [<-|H]; [contradiction|]. destruct (IH H M) as (f & l1 & l2 & -> & F & A). exists f, (p :: l1), l2.
    repeat split; try apply F. intros p' [<-|I]; auto.
Qed.
Lemma first_snoc (r p : request B) past q : first_request r (past ++ [p]) q <->
  first_request r past q \/ ((forall p', In p' past -> ~ matches r p') /\ matches r p /\ q = p).
Proof.
  split.
  - intros (l1 & l2 & E & M & A). destruct (exists_last (l := q :: l2) ltac:(discriminate)) as (l & z & El).
    rewrite El, app_assoc in E. apply app_inj_tail in E as (-> & <-). destruct l as [|q' l]; cbn in El; injection El as -> El'.
    + right. rewrite app_nil_r. auto.
    + left. exists l1, l. auto.
  - intros [(l1 & l2 & -> & M & A)|(A & M & ->)].
    + exists l1, (l2 ++ [p]). now rewrite <- app_assoc.
    + exists past, []. auto.
Qed.
(** what the two caches hold after the requests [past] (oldest first) *)
Definition holds (s : cache V * cache J) (past : list (request B)) : Prop :=
  (sorted (fst s) /\ keys_in (fst s) /\
   (forall y v b, In (y, v) (fst s) <-> exists q, first_request (Function y b) past q /\ fresh value jacobian q = inl v)) /\
  (sorted (snd s) /\ keys_in (snd s) /\
   (forall y v b, In (y, v) (snd s) <-> exists q, first_request (Jacobian y b) past q /\ fresh value jacobian q = inr v)).
Lemma first_in (r q : request B) past : first_request r past q -> In q past /\ matches r q.
Proof. intros (l1 & l2 & -> & M & _). split; auto. apply in_elt. Qed.
(** one cache; [mk]: the kind of request, [inj]: its answers *)
Lemma evaluate_holds {X} (compute : B -> list R -> X) (mk : list R -> B -> request B) (inj : X -> V + J) c past x b0 :
  (forall x y, inj x = inj y -> x = y) -> (forall y b y' b', matches (mk y b) (mk y' b') <-> y' = y) ->
  (forall y b q, matches (mk y b) q -> exists b', q = mk y b') -> (forall y b, fresh value jacobian (mk y b) = inj (compute b y)) ->
  (forall y b b' p, matches (mk y b) p <-> matches (mk y b') p) -> S x ->
  sorted c -> keys_in c -> (forall y v b, In (y, v) c <-> exists q, first_request (mk y b) past q /\ fresh value jacobian q = inj v) ->
  let '(v, c') := evaluate compute c x b0 in
  (exists q, first_request (mk x b0) (past ++ [mk x b0]) q /\ inj v = fresh value jacobian q) /\ sorted c' /\ keys_in c' /\
  (forall y v b, In (y, v) c' <-> exists q, first_request (mk y b) (past ++ [mk x b0]) q /\ fresh value jacobian q = inj v).
Proof.
  intros Hinj Hm Hk Hf Hb Hx Hs Hin Hc. unfold evaluate. destruct (lookup c x) as [v|] eqn:E.
  - assert (HI : In (x, v) c) by (apply lookup_miss; auto).
    assert (HQ := proj1 (Hc x v b0) HI). destruct HQ as (q & Fq & Eq). split; [exists q; split; auto; apply first_snoc; auto|]. split; [assumption|]. split; [assumption|].
    intros y u b. rewrite (Hc y u b). split; intros (q' & F & E').
    + exists q'. split; auto. apply first_snoc. auto.
    + apply first_snoc in F as [F|(A & M & ->)]; [eauto|]. apply Hm in M. subst y. destruct (first_in _ _ _ Fq) as (I1 & I2).
      exfalso. apply (A q I1). eapply Hb. eauto.
  - assert (HN : forall b p, In p past -> ~ matches (mk x b) p).
    { intros b p I M. destruct (first_exists _ _ _ I M) as (f & F). destruct (first_in _ _ _ F) as (If & Mf). destruct (Hk _ _ _ Mf) as (b' & ->).
      assert (HI : In (x, compute b' x) c) by (apply (Hc x _ b); eexists; split; eauto). apply lookup_hit in HI; auto. congruence. }
    split; [exists (mk x b0); split; [apply first_snoc; right; repeat split; auto; now apply Hm|now rewrite Hf]|].
    split; [now apply insert_sorted|]. split.
    { intros y u H. apply insert_in in H as [[= -> ->]|H]; auto. apply (Hin y u H). }
    intros y u b. rewrite insert_has by auto. rewrite (Hc y u b). split.
    + intros [[= -> ->]|(q & F & Eq)].
      * exists (mk x b0). split; [apply first_snoc; right; repeat split; auto; now apply Hm|apply Hf].
      * exists q. split; auto. apply first_snoc. auto.
    + intros (q & F & Eq). apply first_snoc in F as [F|(A & M & ->)]; [right; eauto|]. left. apply Hm in M. rewrite Hf in Eq. apply Hinj in Eq. congruence.
Qed.
Lemma first_other (r p : request B) past q : ~ matches r p -> (first_request r (past ++ [p]) q <-> first_request r past q).
Proof. intros N. rewrite first_snoc. intuition. Qed.
Lemma serve_holds s past r : S (position r) -> holds s past ->
  holds (snd (serve value jacobian s r)) (past ++ [r]) /\
  exists q, first_request r (past ++ [r]) q /\ fst (serve value jacobian s r) = fresh value jacobian q.
Proof.
  intros Hr ((Fs & Fk & Fc) & (Js & Jk & Jc)). destruct s as (cf, cj). cbn [fst snd] in *. destruct r as [x b|x b]; cbn [serve position fst snd] in *.
  - assert (H := evaluate_holds value Function inl cf past x b). destruct (evaluate value cf x b) as (v, c').
    destruct H as ((q & F & Eq) & Hs & Hk & Hc); auto; try (unfold matches; cbn; intuition congruence).
    { intros y b' [y' b''|y' b''] [[] E]; cbn in E; subst; eauto. }
    split; [|exists q; auto]. split; cbn [fst snd]; [repeat split; auto; apply Hc|]. split; [assumption|]. split; [assumption|].
    intros y u b'. rewrite (Jc y u b'). assert (N : ~ matches (Jacobian y b') (Function x b)) by intros [[] _].
    split; intros (q' & F' & E'); exists q'; split; auto; now apply (first_other _ _ past q' N).
  - assert (H := evaluate_holds jacobian Jacobian inr cj past x b). destruct (evaluate jacobian cj x b) as (v, c').
    destruct H as ((q & F & Eq) & Hs & Hk & Hc); auto; try (unfold matches; cbn; intuition congruence).
    { intros y b' [y' b''|y' b''] [[] E]; cbn in E; subst; eauto. }
    split; [|exists q; auto]. split; cbn [fst snd]; [|repeat split; auto; apply Hc]. split; [assumption|]. split; [assumption|].
    intros y u b'. rewrite (Fc y u b'). assert (N : ~ matches (Function y b') (Jacobian x b)) by intros [[] _].
    split; intros (q' & F' & E'); exists q'; split; auto; now apply (first_other _ _ past q' N).
Qed.
Lemma answers_first : forall rs s past, holds s past -> (forall r, In r rs -> S (position r)) ->
  forall n r a, nth_error rs n = Some r -> nth_error (answers value jacobian s rs) n = Some a ->
    exists q, first_request r (past ++ firstn (Datatypes.S n) rs) q /\ a = fresh value jacobian q.
Proof.
  induction rs as [|r rs IH]; intros s past Hh Hp [|n] r' a Hr Ha; cbn [nth_error answers] in *; try discriminate;
    destruct (serve_holds s past r) as (H1 & q & Fq & Eq); auto; try (apply Hp; now left);
    destruct (serve value jacobian s r) as (a', s'); cbn [fst snd nth_error] in *.
  - injection Hr as <-. injection Ha as <-. exists q. auto.
  - destruct (IH s' (past ++ [r]) H1 (fun r' H => Hp r' (or_intror H)) n r' a Hr Ha) as (q' & F & E). exists q'. split; auto.
    rewrite <- app_assoc in F. exact F.
Qed.
End Repeat.

(** For such positions every answer is the one computed for the first request of this kind at this position: the basis is
    asked once per position, and answers do not change. *)
Theorem c70_repeat : forall (B V J : Type) (value : B -> list R -> V) (jacobian : B -> list R -> J) rs,
  (forall r q, In r rs -> In q rs -> apart (position r) (position q)) ->
  forall n r a, nth_error rs n = Some r -> nth_error (answers value jacobian ([], []) rs) n = Some a ->
    exists q, first_request r (firstn (S n) rs) q /\ a = fresh value jacobian q.
Proof.
  intros B V J value jacobian rs HA n r a Hr Ha.
  destruct (answers_first value jacobian (fun x => exists r, In r rs /\ position r = x)) with (rs := rs) (s := (@nil (list R * V), @nil (list R * J))) (past := @nil (request B)) (n := n) (r := r) (a := a) as (q & F & E); auto.
  - intros x y (r1 & I1 & <-) (r2 & I2 & <-). auto.
  - split; (split; [constructor|split; [intros ? ? []|]]); intros y v b; (split; [intros []|]); intros (q & F & _);
      now apply first_in in F as [[] _].
  - intros r' I. exists r'. auto.
  - eauto.
Qed.
Print Assumptions c70_repeat.
Example c70_repeat_meets : let rs := [Function [0; 1] 1%nat; Jacobian [0; 1] 2%nat; Function [0; 1] 3%nat] in
  (forall r q, In r rs -> In q rs -> apart (position r) (position q)) /\
  first_request (Function [0; 1] 3%nat) (firstn 3 rs) (Function [0; 1] 1%nat).
Proof.
  split.
  - intros r q [<-|[<-|[<-|[]]]] [<-|[<-|[<-|[]]]]; cbn; repeat apply Forall2_cons; try apply Forall2_nil; now left.
  - exists [], [Jacobian [0; 1] 2%nat; Function [0; 1] 3%nat]. cbn. repeat split; auto.
Qed.
