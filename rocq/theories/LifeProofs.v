(** Proofs about the calls local operators receive. *)
From Verif Require Import LifeModel LifeSpec.
From Coq Require Import Lra Lia List.
Import ListNotations.
Local Open Scope R_scope.

(** ** Traces *)
Definition runs (m : act) (full : list event) : Prop := forall s, exists w,
  log (fst (m s)) = log s ++ w /\ initial_part w full /\ (snd (m s) = true -> w = full).
Definition clean (m : act) : Prop := forall s, until_throw s = None ->
  snd (m s) = true /\ until_throw (fst (m s)) = None.

Lemma runs_emit e : runs (emit e) [e].
Proof.
  intros s. exists [e]. unfold emit.
  destruct (until_throw s) as [[|k]|]; cbn; (repeat split; [exists []; reflexivity]).
Qed.
Lemma runs_skip : runs skip [].
Proof. intros s. exists []. cbn. rewrite app_nil_r. repeat split. exists []. reflexivity. Qed.
Lemma runs_raise full : runs raise full.
Proof. intros s. exists []. cbn. rewrite app_nil_r. repeat split; [exists full; reflexivity|discriminate]. Qed.
Lemma runs_chain m n f g : runs m f -> runs n g -> runs (m ;; n) (f ++ g).
Proof.
  intros Hm Hn s. unfold chain. destruct (Hm s) as (w & L & P & F). destruct (m s) as (s1, ok). cbn in *.
  destruct ok.
  - rewrite (F eq_refl) in *. destruct (Hn s1) as (w2 & L2 & P2 & F2). exists (f ++ w2). split.
    + rewrite L2, L. symmetry. apply app_assoc.
    + split.
      * destruct P2 as (rest & ->). exists rest. apply app_assoc.
      * intros O. now rewrite (F2 O).
  - exists w. cbn. split; [exact L|]. split; [|discriminate].
    destruct P as (rest & ->). exists (rest ++ g). symmetry. apply app_assoc.
Qed.
Lemma runs_when c m f : runs m f -> runs (when c m) (if c then f else []).
Proof. intros H. destruct c; [exact H|apply runs_skip]. Qed.
Lemma runs_when_raise c : runs (when c raise) [].
Proof. destruct c; [apply runs_raise|apply runs_skip]. Qed.
Lemma runs_each {X} (f : X -> act) (t : X -> list event) l : (forall x, runs (f x) (t x)) -> runs (each f l) (flat_map t l).
Proof. intros H. induction l as [|x l IH]; cbn; [apply runs_skip|]. apply runs_chain; [apply H|exact IH]. Qed.
Lemma runs_on_throw m f : runs m f -> runs (on_throw m skip) f.
Proof.
  intros H s. destruct (H s) as (w & L & P & F). exists w. unfold on_throw. destruct (m s) as (s1, ok).
  destruct ok; cbn in *; auto.
Qed.
Lemma runs_both f : runs (both f) [f Spatial; f Temporal].
Proof. exact (runs_chain _ _ _ _ (runs_emit _) (runs_emit _)). Qed.

Lemma clean_emit e : clean (emit e).
Proof. intros s H. unfold emit. rewrite H. auto. Qed.
Lemma clean_skip : clean skip.
Proof. intros s H. auto. Qed.
Lemma clean_chain m n : clean m -> clean n -> clean (m ;; n).
Proof. intros Hm Hn s H. unfold chain. destruct (Hm s H) as (O & L). destruct (m s) as (s1, ok). cbn in *. subst ok. now apply Hn. Qed.
Lemma clean_when c m : clean m -> clean (when c m).
Proof. intros H. destruct c; [exact H|apply clean_skip]. Qed.
Lemma clean_each {X} (f : X -> act) l : (forall x, In x l -> clean (f x)) -> clean (each f l).
Proof.
  induction l as [|x l IH]; intros H; cbn; [apply clean_skip|].
  apply clean_chain; [apply H; now left|apply IH; intros y Hy; apply H; now right].
Qed.
Lemma clean_on_throw m h : clean m -> clean (on_throw m h).
Proof. intros H s N. unfold on_throw. destruct (H s N) as (O & L). destruct (m s) as (s1, ok). cbn in *. subst ok. auto. Qed.
Lemma clean_both f : clean (both f).
Proof. apply clean_chain; apply clean_emit. Qed.

Section Traces.
  Variable z : step.
  Notation ws := (when_stage z).
  Notation T := (tabl z).
  Definition old_tr (r : nat) (p : place) (i : nat) : list event :=
    [SetTime Spatial (ws i); SetTime Temporal (ws i)] ++
    (if big (b T r i) && has0 p then [Eval Spatial (Old i) p] else []) ++
    (if big (a T r i) && has1 p then [Eval Temporal (Old i) p] else []).
  Definition pre_tr (r : nat) (p : place) : list event := flat_map (old_tr r p) (seq 0 r).
  Definition new_tr (r : nat) (p : place) : list event :=
    (if big (b T r r) && has0 p then [Eval Spatial New p] else []) ++ (if has1 p then [Eval Temporal New p] else []).
  Definition assembly_tr (r : nat) (l : list place) : list event :=
    [SetTime Spatial (ws r); SetTime Temporal (ws r)] ++ flat_map (new_tr r) l.
  Definition announce_tr (r : nat) : list event := [PreStage Spatial (ws r) r; PreStage Temporal (ws r) r].
  Definition implicit_tr (P : plan) (r : nat) : list event :=
    (announce_tr r ++ flat_map (pre_tr r) (sweep P)) ++
    (if values P then [SetTime Spatial (ws r)] else []) ++
    (flat_map (assembly_tr r) (solves P) ++ []) ++ [PostStage Spatial; PostStage Temporal].
  Definition explicit_at (r : nat) (p : place) : list event :=
    (if has0 p || has1 p then pre_tr r p else []) ++ (if cell p then [SetTime Temporal (ws r)] else []) ++
    (if uv p && has1 p then [Eval Temporal New p] else []).
  Definition explicit_tr (P : plan) (r : nat) : list event :=
    (if values P then [SetTime Spatial (ws r)] else []) ++
    announce_tr r ++ flat_map (explicit_at r) (sweep P) ++
    (if Nat.eqb r 1 && asks P then [Suggest Spatial; Suggest Temporal] else []) ++ [] ++ [PostStage Spatial; PostStage Temporal].
  Definition step_tr (imp : bool) (P : nat -> plan) : list event :=
    [PreStep Spatial (start z) (size z) (stages T); PreStep Temporal (start z) (size z) (stages T)] ++
    flat_map (fun r => if imp then implicit_tr (P r) r else explicit_tr (P r) r) (seq 1 (stages T)) ++
    [PostStep Spatial; PostStep Temporal].

  Ltac go := repeat first
    [ apply runs_both | apply runs_emit | apply runs_when_raise | apply runs_on_throw | apply runs_chain | apply runs_when
    | apply runs_each; intro ].
  Lemma pre_runs r p : runs (pre_place z r p) (pre_tr r p).
  Proof. unfold pre_place, pre_tr, old_tr. go. Qed.
  Lemma implicit_stage_runs P r : runs (implicit_stage z P r) (implicit_tr P r).
  Proof.
    unfold implicit_stage, implicit_tr, prestage, announce, announce_tr, boundary_values, post_stage_all. go.
  Qed.
  Lemma explicit_stage_runs P r : runs (explicit_stage z P r) (explicit_tr P r).
  Proof.
    unfold explicit_stage, explicit_tr, announce, announce_tr, boundary_values, post_stage_all. go.
  Qed.
  Lemma step_runs (imp : bool) P : runs (if imp then implicit_step z P else explicit_step z P) (step_tr imp P).
  Proof.
    destruct imp; unfold implicit_step, explicit_step, step_tr, pre_step_all, post_step_all; go.
  Qed.
  Ltac gc := repeat first
    [ apply clean_both | apply clean_emit | apply clean_skip | apply clean_on_throw | apply clean_chain | apply clean_when
    | apply clean_each; intros ? ? ].
  Lemma step_clean (imp : bool) P : (forall r, (1 <= r <= stages T)%nat -> fails (P r) = false) ->
    clean (if imp then implicit_step z P else explicit_step z P).
  Proof.
    intros F.
    assert (G : forall r, In r (seq 1 (stages T)) -> fails (P r) = false) by (intros r I; apply F; apply in_seq in I; lia).
    destruct imp; unfold implicit_step, explicit_step, pre_step_all, post_step_all.
    - apply clean_chain; [gc|]. apply clean_chain; [|gc]. apply clean_each. intros r I.
      unfold implicit_stage, prestage, announce, boundary_values, post_stage_all, assembly, pre_place, new_place.
      rewrite (G r I). gc.
    - apply clean_chain; [gc|]. apply clean_chain; [|gc]. apply clean_each. intros r I.
      unfold explicit_stage, announce, boundary_values, post_stage_all, explicit_place, pre_place.
      rewrite (G r I). gc.
  Qed.
End Traces.

Lemma calls_prefix x : initial_part (calls x) (step_tr (of x) (implicitly x) (does x)).
Proof.
  unfold calls, perform. destruct (step_runs (of x) (implicitly x) (does x) (mkst [] (budget x))) as (w & L & P & _).
  rewrite L. exact P.
Qed.
Lemma calls_all x : succeeded x = true -> calls x = step_tr (of x) (implicitly x) (does x).
Proof.
  unfold succeeded, calls, perform. destruct (step_runs (of x) (implicitly x) (does x) (mkst [] (budget x))) as (w & L & _ & F).
  intros S. rewrite L. cbn. exact (F S).
Qed.

(** ** Announcements *)
Lemma announcements_app o l m : announcements o (l ++ m) = announcements o l ++ announcements o m.
Proof. unfold announcements, view. now rewrite !filter_app. Qed.
Lemma announcements_flat {X} o (f : X -> list event) l :
  announcements o (flat_map f l) = flat_map (fun x => announcements o (f x)) l.
Proof. induction l as [|x l IH]; cbn [flat_map]; [reflexivity|]. now rewrite announcements_app, IH. Qed.
Lemma flat_nil {X Y} (f : X -> list Y) l : (forall x, f x = []) -> flat_map f l = [].
Proof. intros H. induction l as [|x l IH]; cbn; [reflexivity|]. now rewrite H, IH. Qed.
Lemma ann_old z o r p i : announcements o (old_tr z r p i) = [].
Proof. unfold old_tr. rewrite !announcements_app. destruct (_ && has0 p), (_ && has1 p), o; reflexivity. Qed.
Lemma ann_pre z o r p : announcements o (pre_tr z r p) = [].
Proof. unfold pre_tr. rewrite announcements_flat. apply flat_nil. intros i. apply ann_old. Qed.
Lemma ann_assembly z o r l : announcements o (assembly_tr z r l) = [].
Proof.
  unfold assembly_tr. rewrite announcements_app, announcements_flat, flat_nil.
  - destruct o; reflexivity.
  - intros p. unfold new_tr. rewrite announcements_app. destruct (_ && has0 p), (has1 p), o; reflexivity.
Qed.
Lemma ann_explicit_at z o r p : announcements o (explicit_at z r p) = [].
Proof.
  unfold explicit_at. rewrite !announcements_app.
  replace (announcements o (if has0 p || has1 p then pre_tr z r p else [])) with (@nil event)
    by (destruct (has0 p || has1 p); [now rewrite ann_pre|reflexivity]).
  destruct (cell p), (uv p && has1 p), o; reflexivity.
Qed.
Lemma ann_stage z (imp : bool) o P r : announcements o (if imp then implicit_tr z P r else explicit_tr z P r) =
  [PreStage o (start z + d (tabl z) r * size z) r; PostStage o].
Proof.
  destruct imp.
  - unfold implicit_tr. rewrite !announcements_app, !announcements_flat, (flat_nil _ (sweep P)), (flat_nil _ (solves P))
      by (intros; first [apply ann_pre | apply ann_assembly]).
    destruct (values P), o; reflexivity.
  - unfold explicit_tr. rewrite !announcements_app, !announcements_flat, (flat_nil _ (sweep P))
      by (intros; apply ann_explicit_at).
    destruct (values P), (Nat.eqb r 1 && asks P), o; reflexivity.
Qed.
Lemma ann_step z imp o P : announcements o (step_tr z imp P) = documented o z.
Proof.
  unfold step_tr, documented. rewrite !announcements_app, announcements_flat.
  rewrite (flat_map_ext _ _ (fun r => ann_stage z imp o (P r) r)). destruct o; reflexivity.
Qed.
Lemma initial_announcements o l m : initial_part l m -> initial_part (announcements o l) (announcements o m).
Proof. intros (rest & ->). rewrite announcements_app. eexists. reflexivity. Qed.

(** ** What an operator knows when it is called *)
Record watch := mkwatch { k0 : known; k1 : known; a0 : bool; a1 : bool }.
Definition asked_by (o : op) (l : list event) : bool :=
  existsb (fun e => match e with Suggest o' => same o o' | _ => false end) l.
Definition next (w : watch) (e : event) : watch :=
  mkwatch (learn Spatial (k0 w) e) (learn Temporal (k1 w) e)
    (a0 w || asked_by Spatial [e]) (a1 w || asked_by Temporal [e]).
Definition kn (o : op) (w : watch) : known := match o with Spatial => k0 w | Temporal => k1 w end.
Definition ask (o : op) (w : watch) : bool := match o with Spatial => a0 w | Temporal => a1 w end.
Definition w0 : watch := mkwatch (mkknown None None false) (mkknown None None false) false false.
Section Watching.
  Variables (z : step) (imp : bool).
  Definition demand (w : watch) (e : event) : Prop :=
    match e with
    | Eval o x p =>
        exists r, (1 <= r <= stages (tabl z))%nat /\ stage_no (kn o w) = Some r /\ in_stage (kn o w) = true /\ has o p = true /\
        ((a0 w = true \/ a1 w = true) -> (2 <= r)%nat) /\
        match x with
        | Old i => (i < r)%nat /\ time_set (kn o w) = Some (when_stage z i) /\ big (coefficient o (tabl z) r i) = true
        | New => time_set (kn o w) = Some (when_stage z (if imp || cell p then r else r - 1)) /\
            (o = Spatial -> imp = true /\ big (b (tabl z) r r) = true)
        end
    | Suggest o => imp = false /\ stage_no (kn o w) = Some 1%nat /\ in_stage (kn o w) = true /\ ask o w = false
    | _ => True
    end.
  Fixpoint watched (w : watch) (l : list event) : Prop :=
    match l with [] => True | e :: l => demand w e /\ watched (next w e) l end.
  Notation after w l := (fold_left next l w).
  Lemma watched_app l m w : watched w (l ++ m) <-> watched w l /\ watched (after w l) m.
  Proof.
    revert w. induction l as [|e l IH]; intros w; cbn; [tauto|]. rewrite IH. tauto.
  Qed.
  Lemma watched_at l e m w : watched w (l ++ e :: m) -> demand (after w l) e.
  Proof. intros H. apply watched_app in H as (_ & H & _). exact H. Qed.
  Lemma watched_prefix l m w : initial_part l m -> watched w m -> watched w l.
  Proof. intros (rest & ->) H. now apply watched_app in H. Qed.
  Definition inside (r : nat) (t0 t1 : option R) (a : bool) : watch :=
    mkwatch (mkknown t0 (Some r) true) (mkknown t1 (Some r) true) a a.
  Definition good (r : nat) (a : bool) : Prop := (1 <= r <= stages (tabl z))%nat /\ (a = true -> (2 <= r)%nat).
  Lemma old_watched r p i t0 t1 a : good r a -> (i < r)%nat ->
    watched (inside r t0 t1 a) (old_tr z r p i) /\
    after (inside r t0 t1 a) (old_tr z r p i) = inside r (Some (when_stage z i)) (Some (when_stage z i)) a.
  Proof.
    intros (G & H) I. unfold old_tr.
    destruct (big (b (tabl z) r i) && has0 p) eqn:E0, (big (RKModel.a (tabl z) r i) && has1 p) eqn:E1;
      cbn; unfold next; cbn; rewrite ?orb_false_r; (split; [|reflexivity]); repeat (apply conj; [exact Logic.I|]);
      try exact Logic.I;
      repeat match goal with E : _ && _ = true |- _ => apply andb_prop in E as (? & ?) end;
      repeat (apply conj; [exists r; repeat split; try tauto; try lia; intros [?|?]; auto|]); try exact Logic.I.
  Qed.
  Lemma pre_watched_n r p n t0 t1 a : good r a -> (n <= r)%nat ->
    watched (inside r t0 t1 a) (flat_map (old_tr z r p) (seq 0 n)) /\
    after (inside r t0 t1 a) (flat_map (old_tr z r p) (seq 0 n)) =
      match n with O => inside r t0 t1 a | S m => inside r (Some (when_stage z m)) (Some (when_stage z m)) a end.
  Proof.
    intros G. induction n as [|n IH]; intros L; [cbn; auto|].
    rewrite seq_S, flat_map_app, watched_app, fold_left_app. destruct (IH ltac:(lia)) as (W & A). rewrite A.
    cbn [flat_map plus]. rewrite app_nil_r.
    destruct n; destruct (old_watched r p 0 t0 t1 a G) as (W0 & A0); try lia.
    - rewrite A0. auto.
    - destruct (old_watched r p (S n) (Some (when_stage z n)) (Some (when_stage z n)) a G) as (W1 & A1); [lia|].
      rewrite A1. auto.
  Qed.
  Lemma pre_watched r p t0 t1 a : good r a ->
    watched (inside r t0 t1 a) (pre_tr z r p) /\
    after (inside r t0 t1 a) (pre_tr z r p) = inside r (Some (when_stage z (r - 1))) (Some (when_stage z (r - 1))) a.
  Proof.
    intros G. destruct (pre_watched_n r p r t0 t1 a G) as (W & A); [lia|]. split; [exact W|].
    unfold pre_tr. rewrite A. destruct G as (G & _). destruct r; [lia|]. cbn. now rewrite Nat.sub_0_r.
  Qed.
  (** Sequences that keep an operator inside its stage. *)
  Definition stays (r : nat) (a : bool) (l : list event) : Prop := forall t0 t1,
    watched (inside r t0 t1 a) l /\ exists u0 u1, after (inside r t0 t1 a) l = inside r u0 u1 a.
  Lemma stays_app r a l m : stays r a l -> stays r a m -> stays r a (l ++ m).
  Proof.
    intros L M t0 t1. destruct (L t0 t1) as (W & u0 & u1 & A). destruct (M u0 u1) as (W' & v0 & v1 & A').
    rewrite watched_app, fold_left_app, A. eauto.
  Qed.
  Lemma stays_nil r a : stays r a [].
  Proof. intros t0 t1. cbn. eauto. Qed.
  Lemma stays_flat {X} r a (f : X -> list event) l : (forall x, stays r a (f x)) -> stays r a (flat_map f l).
  Proof. intros H. induction l; cbn; [apply stays_nil|]. now apply stays_app. Qed.
  Lemma pre_stays r p a : good r a -> stays r a (pre_tr z r p).
  Proof. intros G t0 t1. destruct (pre_watched r p t0 t1 a G) as (W & A). eauto. Qed.
  Lemma new_watched r p a : good r a -> imp = true ->
    watched (inside r (Some (when_stage z r)) (Some (when_stage z r)) a) (new_tr z r p) /\
    after (inside r (Some (when_stage z r)) (Some (when_stage z r)) a) (new_tr z r p) =
    inside r (Some (when_stage z r)) (Some (when_stage z r)) a.
  Proof.
    intros (G & H) M. unfold new_tr.
    destruct (big (b (tabl z) r r) && has0 p) eqn:E0, (has1 p) eqn:E1; cbn; unfold next; cbn; rewrite ?orb_false_r, ?M; cbn;
      (split; [|reflexivity]); try exact Logic.I;
      repeat match goal with E : _ && _ = true |- _ => apply andb_prop in E as (? & ?) end;
      repeat (apply conj; [exists r; repeat split; try tauto; try lia; try (intros [?|?]; auto); try discriminate; auto|]);
      try exact Logic.I.
  Qed.
  Lemma assembly_stays r l a : good r a -> imp = true -> stays r a (assembly_tr z r l).
  Proof.
    intros G M t0 t1. unfold assembly_tr. rewrite watched_app, fold_left_app. cbn [app].
    set (w := after (inside r t0 t1 a) [SetTime Spatial (when_stage z r); SetTime Temporal (when_stage z r)]).
    assert (E : w = inside r (Some (when_stage z r)) (Some (when_stage z r)) a).
    { unfold w. cbn. unfold next. cbn. now rewrite ?orb_false_r. }
    rewrite E. clearbody w. clear E.
    assert (Q : watched (inside r (Some (when_stage z r)) (Some (when_stage z r)) a) (flat_map (new_tr z r) l) /\
      after (inside r (Some (when_stage z r)) (Some (when_stage z r)) a) (flat_map (new_tr z r) l) =
      inside r (Some (when_stage z r)) (Some (when_stage z r)) a).
    { induction l as [|p l IH]; cbn [flat_map]; [cbn; auto|]. rewrite watched_app, fold_left_app.
      destruct (new_watched r p a G M) as (W & A). rewrite A. tauto. }
    destruct Q as (Q & A). split; [split; [cbn; auto|exact Q]|]. eauto.
  Qed.
  Lemma explicit_stays r p a : good r a -> imp = false -> stays r a (explicit_at z r p).
  Proof.
    intros G M t0 t1. unfold explicit_at.
    assert (K : forall u0 u1, (has1 p = true -> u1 = Some (when_stage z (r - 1))) ->
      watched (inside r u0 u1 a) ((if cell p then [SetTime Temporal (when_stage z r)] else []) ++
         (if uv p && has1 p then [Eval Temporal New p] else [])) /\
      exists v0 v1, after (inside r u0 u1 a) ((if cell p then [SetTime Temporal (when_stage z r)] else []) ++
         (if uv p && has1 p then [Eval Temporal New p] else [])) = inside r v0 v1 a).
    { intros u0 u1 U. destruct G as (G & H).
      destruct (cell p) eqn:C, (uv p && has1 p) eqn:E; cbn; unfold next; cbn; rewrite ?orb_false_r, ?M, ?C; cbn;
      (split; [|do 2 eexists; reflexivity]); try (split; exact Logic.I); try exact Logic.I;
      apply andb_prop in E as (_ & E); rewrite ?(U E); repeat (apply conj; [exact Logic.I|]);
      (apply conj; [exists r; repeat split; try tauto; try lia; try (intros [?|?]; auto); try discriminate; auto|]); exact Logic.I. }
    destruct (has0 p || has1 p) eqn:E.
    - rewrite watched_app, fold_left_app. destruct (pre_watched r p t0 t1 a G) as (W & A). rewrite A.
      destruct (K (Some (when_stage z (r - 1))) (Some (when_stage z (r - 1)))) as (W' & V); [auto|]. auto.
    - cbn [app]. apply K. apply orb_false_iff in E as (_ & E). rewrite E. discriminate.
  Qed.
  Definition rests (a : bool) (w : watch) : Prop :=
    in_stage (k0 w) = false /\ in_stage (k1 w) = false /\ a0 w = a /\ a1 w = a.
  Lemma post_watched r t0 t1 a : watched (inside r t0 t1 a) [PostStage Spatial; PostStage Temporal] /\
    rests a (after (inside r t0 t1 a) [PostStage Spatial; PostStage Temporal]).
  Proof. cbn. unfold next, rests. cbn. rewrite !orb_false_r. auto. Qed.
  Lemma announce_watched w a r : rests a w -> watched w (announce_tr z r) /\
    exists u0 u1, after w (announce_tr z r) = inside r u0 u1 a.
  Proof.
    intros (_ & _ & A & B). destruct w as [[t s i] [t' s' i'] x y]. cbn in *. subst x y. split; [auto|].
    unfold next, inside. cbn. rewrite !orb_false_r. eauto.
  Qed.
  Lemma set_stays r a o t : stays r a [SetTime o t].
  Proof. intros u v. destruct o; cbn; unfold next; cbn; rewrite !orb_false_r; unfold inside; eauto 6. Qed.
  Lemma implicit_watched P r w : imp = true -> (1 <= r <= stages (tabl z))%nat -> rests false w ->
    watched w (implicit_tr z P r) /\ rests false (after w (implicit_tr z P r)).
  Proof.
    intros M L R. unfold implicit_tr.
    assert (G : good r false) by (split; [exact L|discriminate]).
    replace ((announce_tr z r ++ flat_map (pre_tr z r) (sweep P)) ++
      (if values P then [SetTime Spatial (when_stage z r)] else []) ++
      (flat_map (assembly_tr z r) (solves P) ++ []) ++ [PostStage Spatial; PostStage Temporal])
    with (announce_tr z r ++ (((flat_map (pre_tr z r) (sweep P) ++ (if values P then [SetTime Spatial (when_stage z r)] else [])) ++
       flat_map (assembly_tr z r) (solves P)) ++ []) ++ [PostStage Spatial; PostStage Temporal])
      by (rewrite <- !app_assoc; reflexivity).
    assert (St : stays r false (((flat_map (pre_tr z r) (sweep P) ++ (if values P then [SetTime Spatial (when_stage z r)] else [])) ++
       flat_map (assembly_tr z r) (solves P)) ++ [])).
    { repeat apply stays_app.
      - apply stays_flat. intros p. now apply pre_stays.
      - destruct (values P); [apply set_stays|apply stays_nil].
      - apply stays_flat. intros l. now apply assembly_stays.
      - apply stays_nil. }
    set (mid := _ ++ []) in *. clearbody mid. rewrite watched_app, fold_left_app.
    destruct (announce_watched w false r R) as (W & u0 & u1 & A). rewrite A. rewrite watched_app, fold_left_app.
    destruct (St u0 u1) as (W1 & v0 & v1 & A1). rewrite A1. destruct (post_watched r v0 v1 false) as (W2 & R2). auto.
  Qed.
  Lemma explicit_watched P r w a : imp = false -> good r a -> rests a w ->
    watched w (explicit_tr z P r) /\ rests (a || (Nat.eqb r 1 && asks P)) (after w (explicit_tr z P r)).
  Proof.
    intros M G R. unfold explicit_tr. rewrite watched_app, fold_left_app.
    set (w' := after w (if values P then [SetTime Spatial (when_stage z r)] else [])).
    assert (R' : rests a w').
    { destruct R as (R0 & R1 & A & B). unfold w'. destruct (values P); [|repeat split; assumption].
      cbn. unfold next, rests, learn. cbn. rewrite A, B, !orb_false_r. auto. }
    assert (W' : watched w (if values P then [SetTime Spatial (when_stage z r)] else [])) by (destruct (values P); cbn; auto).
    clearbody w'. clear R. rewrite watched_app, fold_left_app.
    destruct (announce_watched w' a r R') as (W & u0 & u1 & A). rewrite A. rewrite watched_app, fold_left_app.
    assert (St : stays r a (flat_map (explicit_at z r) (sweep P))) by (apply stays_flat; intros p; now apply explicit_stays).
    destruct (St u0 u1) as (W1 & v0 & v1 & A1). rewrite A1.
    destruct (Nat.eqb r 1 && asks P) eqn:E.
    - apply andb_prop in E as (E & _). apply Nat.eqb_eq in E. subst r.
      assert (AF : a = false) by (destruct a; [destruct G as (_ & G); specialize (G eq_refl); lia|reflexivity]). subst a.
      cbn. unfold next, rests. cbn. repeat split; auto.
    - cbn [app]. rewrite orb_false_r. destruct (post_watched r v0 v1 a) as (W2 & R2). auto.
  Qed.
  Lemma stages_watched P n w : (n <= stages (tabl z))%nat -> rests false w ->
    let l := flat_map (fun r => if imp then implicit_tr z (P r) r else explicit_tr z (P r) r) (seq 1 n) in
    watched w l /\ exists a, rests a (after w l) /\ (imp = true -> a = false) /\ (n = 0%nat -> a = false).
  Proof.
    induction n as [|n IH]; intros L R; [cbn; split; [auto|]; exists false; auto|].
    cbv zeta. rewrite seq_S, flat_map_app, watched_app, fold_left_app.
    destruct (IH ltac:(lia) R) as (W & a & Ra & Ia & Na). cbn [flat_map]. rewrite app_nil_r.
    set (w' := after w _) in *. cbn [plus]. destruct imp eqn:M.
    - rewrite (Ia eq_refl) in Ra. destruct (implicit_watched (P (S n)) (S n) w' M) as (W1 & R1); [lia|exact Ra|].
      split; [split; assumption|]. exists false. auto.
    - destruct (explicit_watched (P (S n)) (S n) w' a M) as (W1 & R1).
      + split; [lia|]. destruct n; [rewrite (Na eq_refl); discriminate|lia].
      + exact Ra.
      + split; [split; assumption|]. eexists. split; [exact R1|]. split; discriminate.
  Qed.
  Lemma step_watched P : watched w0 (step_tr z imp P).
  Proof.
    unfold step_tr. rewrite watched_app, watched_app. split; [cbn; auto|].
    set (w := after w0 _).
    assert (R : rests false w) by (unfold w; cbn; repeat split).
    destruct (stages_watched P (stages (tabl z)) w (Nat.le_refl _) R) as (W & _). split; [exact W|]. cbn. auto.
  Qed.
End Watching.
Lemma after_knows o l w : kn o (fold_left next l w) = fold_left (learn o) l (kn o w).
Proof. revert w. induction l as [|e l IH]; intros w; cbn; [reflexivity|]. rewrite IH. destruct o; reflexivity. Qed.
Lemma after_asked o l w : ask o (fold_left next l w) = ask o w || asked_by o l.
Proof.
  revert w. induction l as [|e l IH]; intros w; cbn; [now rewrite orb_false_r|]. rewrite IH.
  destruct o; cbn; rewrite orb_false_r, orb_assoc; reflexivity.
Qed.
Lemma call_demand x before e rest : calls x = before ++ e :: rest ->
  demand (of x) (implicitly x) (fold_left next before w0) e.
Proof.
  intros E. apply (watched_at _ _ before e rest). rewrite <- E.
  apply (watched_prefix _ _ _ _ _ (calls_prefix x)), step_watched.
Qed.
