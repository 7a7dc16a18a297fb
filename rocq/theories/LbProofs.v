From Verif Require Import Common CommonFacts LbModel LbSpec.
From Coq Require Import Lia.

Section Lb.
Context {A : Type} (W : wire A) (G : lbgrid).
Hypothesis HG : grid_ok G.

Lemma find_insert (i j : nat) (d : list A) m : find j (insert i d m) = match find j m with Some x => Some x | None => if j =? i then Some d else None end.
Proof.
  unfold insert. destruct (find i m) as [x|] eqn:E.
  - destruct (find j m) eqn:F; [easy|]. destruct (Nat.eqb_spec j i); [subst; congruence|easy].
  - cbn. destruct (Nat.eqb_spec j i) as [->|]; [now rewrite E|]. now destruct (find j m).
Qed.

(** *** Filling *)
Lemma map_filler_find (s : slot A) p c m e : find (lid G p e) (map_filler G s p c m) =
  match find (lid G p e) m with Some x => Some x | None => if in_dec Nat.eq_dec e (before s p) then if codim G e =? c then Some (val s p e) else None else None end.
Proof.
  unfold map_filler. revert m. induction (before s p) as [|a l IH]; intros m; cbn [fold_left].
  - destruct (find _ m); [easy|]. now destruct (in_dec _ _ _).
  - rewrite IH. destruct (Nat.eqb_spec (codim G a) c) as [E|E].
    + rewrite find_insert. destruct (find (lid G p e) m); [easy|]. destruct (Nat.eqb_spec (lid G p e) (lid G p a)) as [F|F].
      * apply (proj1 HG) in F as ->. destruct (in_dec _ a (a :: l)) as [_|N]; [|exfalso; apply N; now left]. rewrite E, Nat.eqb_refl. reflexivity.
      * assert (e <> a) by congruence. destruct (in_dec _ e l), (in_dec _ e (a :: l)); try easy; exfalso; cbn in *; intuition.
    + destruct (find (lid G p e) m); [easy|]. destruct (in_dec _ e l), (in_dec _ e (a :: l)); try easy.
      * exfalso. cbn in *. intuition.
      * destruct (Nat.eqb_spec (codim G e) c); [|easy]. exfalso. cbn in *. intuition congruence.
Qed.
Lemma fill_find (s : slot A) p e : find (lid G p e) (fill_map G s p) =
  if in_dec Nat.eq_dec e (before s p) then if has_dofs s (codim G e) then Some (val s p e) else None else None.
Proof.
  unfold fill_map. assert (H : forall l m, find (lid G p e) (fold_left (fun m c => if has_dofs s c then map_filler G s p c m else m) l m) =
    match find (lid G p e) m with Some x => Some x | None => if in_dec Nat.eq_dec (codim G e) l then if in_dec Nat.eq_dec e (before s p) then if has_dofs s (codim G e) then Some (val s p e) else None else None else None end).
  { induction l as [|c l IH]; intros m; cbn [fold_left].
    - destruct (find _ m); [easy|]. now destruct (in_dec _ _ []).
    - rewrite IH. destruct (has_dofs s c) eqn:D.
      + rewrite map_filler_find. destruct (find _ m); [easy|]. destruct (in_dec _ e (before s p)).
        * destruct (Nat.eqb_spec (codim G e) c) as [E|E].
          -- destruct (in_dec _ (codim G e) (c :: l)) as [_|N]; [|exfalso; apply N; now left]. now rewrite E, D.
          -- destruct (in_dec _ (codim G e) l), (in_dec _ (codim G e) (c :: l)); try easy; exfalso; cbn in *; intuition.
        * now destruct (in_dec _ _ l), (in_dec _ _ (c :: l)).
      + destruct (find _ m); [easy|]. destruct (in_dec _ (codim G e) l), (in_dec _ (codim G e) (c :: l)) as [I|I]; try easy.
        * exfalso. cbn in *. intuition.
        * destruct (in_dec _ e (before s p)); [|easy]. cbn in I. destruct I as [->|]; [now rewrite D|easy]. }
  rewrite H. cbn [find]. destruct (in_dec _ (codim G e) _) as [|N]; [easy|]. exfalso. apply N. rewrite <- in_rev. apply in_seq. pose proof (proj2 HG e). lia.
Qed.

(** *** What a process knows after some moves *)
Fixpoint arrived (s : slot A) (moves : list (nat * nat * entity)) (q e : nat) : option (list A) :=
  match moves with
  | [] => None
  | (p, q', e') :: l => if (q' =? q) && (e_id e' =? e) then Some (if contains s p e' then val s p e else []) else arrived s l q e
  end.
Definition known (s : slot A) (moves : list (nat * nat * entity)) (q e : nat) : option (list A) :=
  if has_dofs s (codim G e) then if in_dec Nat.eq_dec e (before s q) then Some (val s q e) else arrived s moves q e else None.
Definition inv (ss : list (slot A)) (moves : list (nat * nat * entity)) (M : maps A) : Prop :=
  forall q, Forall2 (fun s m => forall e, find (lid G q e) m = known s moves q e) ss (M q).

Lemma arrived_app s l p q e q' e' : arrived s (l ++ [(p, q', e')]) q e =
  match arrived s l q e with Some d => Some d | None => if (q' =? q) && (e_id e' =? e) then Some (if contains s p e' then val s p e else []) else None end.
Proof. induction l as [|[[a b] c] l IH]; cbn; [reflexivity|]. destruct ((b =? q) && (e_id c =? e)); [easy|apply IH]. Qed.

Lemma inv_start ss : inv ss [] (fun p => map (fun s => fill_map G s p) ss).
Proof.
  intros q. cbv beta. induction ss; cbn [map]; constructor; [|easy]. intros e. rewrite fill_find. unfold known. cbn [arrived]. destruct (has_dofs a (codim G e)); now destruct (in_dec _ e _).
Qed.

(** The message and its reading *)
Definition chunk (s : slot A) (p : nat) (e : entity) : list A := if contains s p e then val s p (e_id e) else [].
Definition message (ss : list (slot A)) (p : nat) (e : entity) : list A :=
  flat_map (fun s => if has_dofs s (codim G (e_id e)) then enc W (length (chunk s p e)) :: chunk s p e else []) ss.
Lemma gather_message ss moves M p e : inv ss moves M -> Forall (fun s => contains s p e = true -> carries G s (e_id e) -> In (e_id e) (before s p)) ss ->
  gather W G p e (combine ss (M p)) = Ok (message ss p e).
Proof.
  intros I H. specialize (I p). induction I as [|s m ss ms Hm I IH]; cbn [combine gather message flat_map]; [reflexivity|].
  inversion H as [|? ? H1 H2]; subst. destruct (has_dofs s (codim G (e_id e))) eqn:D.
  - unfold chunk at 1 2. destruct (contains s p e) eqn:C.
    + rewrite Hm. unfold known. rewrite D. destruct (in_dec _ _ _) as [_|N]; [|exfalso; now apply N, H1]. cbn [bind]. rewrite IH by easy. reflexivity.
    + cbn [bind]. rewrite IH by easy. reflexivity.
  - cbn [bind]. rewrite IH by easy. reflexivity.
Qed.
Lemma read_n_app (l r : list A) : read_n (length l) (l ++ r) = Ok (l, r).
Proof. induction l; cbn; [reflexivity|]. now rewrite IHl. Qed.
Lemma scatter_message ss moves M p q e r : inv ss moves M -> Forall (wire_ok W) ss -> Forall (fun s => contains s p e = true -> carries G s (e_id e) -> In (e_id e) (before s p)) ss ->
  exists ms, scatter W G q e (combine ss (M q)) (message ss p e ++ r) = Ok (ms, r) /\ Forall2 (fun s m => forall e', find (lid G q e') m = known s (moves ++ [(p, q, e)]) q e') ss ms.
Proof.
  intros I HW H. specialize (I q). revert HW H. induction I as [|s m ss ms Hm I IH]; intros HW H; cbn [combine scatter message flat_map].
  - exists []. split; [reflexivity|constructor].
  - pose proof (Forall_inv HW) as W1. pose proof (Forall_inv_tail HW) as W2. pose proof (Forall_inv H) as H1. pose proof (Forall_inv_tail H) as H2. cbv beta in H1. destruct (IH W2 H2) as (ms' & E & F). exists ((if has_dofs s (codim G (e_id e)) then insert (lid G q (e_id e)) (chunk s p e) m else m) :: ms').
    destruct (has_dofs s (codim G (e_id e))) eqn:D; cbn [app].
    + unfold read. cbn [bind]. replace (dec W (enc W (length (chunk s p e)))) with (length (chunk s p e)).
      2:{ unfold chunk. destruct (contains s p e) eqn:C; [|symmetry; apply W1]. symmetry. apply W1. now apply H1. }
      rewrite <- app_assoc, read_n_app. cbn [bind]. unfold message in E. rewrite E. cbn [bind]. split; [reflexivity|]. constructor; [|exact F].
      intros e'. rewrite find_insert, Hm. unfold known. destruct (Nat.eqb_spec (lid G q e') (lid G q (e_id e))) as [J|J].
      * apply (proj1 HG) in J as ->. rewrite D. destruct (in_dec _ _ _); [reflexivity|]. rewrite arrived_app, !Nat.eqb_refl. cbn [andb]. unfold chunk. reflexivity.
      * destruct (has_dofs s (codim G e')); [|reflexivity]. destruct (in_dec _ _ _); [reflexivity|]. rewrite arrived_app, Nat.eqb_refl. cbn [andb]. destruct (Nat.eqb_spec (e_id e) e'); [subst; congruence|]. destruct (arrived s moves q e'); reflexivity.
    + cbn [bind]. unfold message in E. rewrite E. cbn [bind]. split; [reflexivity|]. constructor; [|exact F]. intros e'. rewrite Hm. unfold known.
      destruct (has_dofs s (codim G e')) eqn:D'; [|reflexivity]. destruct (in_dec _ _ _); [reflexivity|]. rewrite arrived_app, Nat.eqb_refl. cbn [andb]. destruct (Nat.eqb_spec (e_id e) e'); [subst; congruence|]. destruct (arrived s moves q e'); reflexivity.
Qed.
Lemma known_other s moves p q e q' e' : q' <> q -> known s (moves ++ [(p, q, e)]) q' e' = known s moves q' e'.
Proof.
  intros N. unfold known. destruct (has_dofs s (codim G e')); [|reflexivity]. destruct (in_dec _ _ _); [reflexivity|]. rewrite arrived_app. destruct (Nat.eqb_spec q q'); [congruence|]. cbn. now destruct (arrived s moves q' e').
Qed.
Lemma transfers_ok ss moves : Forall (wire_ok W) ss -> (forall s p q e, In s ss -> In (p, q, e) moves -> contains s p e = true -> carries G s (e_id e) -> In (e_id e) (before s p)) ->
  exists M, foldM (transfer W G ss) moves (fun p => map (fun s => fill_map G s p) ss) = Ok M /\ inv ss moves M.
Proof.
  intros HW HM. assert (H : forall l1 l2 M, moves = l1 ++ l2 -> inv ss l1 M -> exists M', foldM (transfer W G ss) l2 M = Ok M' /\ inv ss moves M').
  { intros l1 l2. revert l1. induction l2 as [|[[p q] e] l2 IH]; intros l1 M E I.
    - exists M. split; [reflexivity|]. rewrite app_nil_r in E. now subst.
    - assert (F : Forall (fun s => contains s p e = true -> carries G s (e_id e) -> In (e_id e) (before s p)) ss).
      { apply Forall_forall. intros s Hs. apply (HM s p q e Hs). rewrite E. apply in_or_app. right. now left. }
      cbn [foldM]. unfold transfer at 1. rewrite (gather_message ss l1 M p e I F). cbn [bind]. destruct (scatter_message ss l1 M p q e [] I HW F) as (ms & E1 & E2). rewrite app_nil_r in E1. rewrite E1. cbn [bind].
      apply (IH (l1 ++ [(p, q, e)])); [now rewrite <- app_assoc|]. intros q'. destruct (Nat.eqb_spec q' q) as [->|N]; [exact E2|]. specialize (I q'). clear - I N. induction I; constructor; [|easy]. intros e'. now rewrite H, known_other. }
  apply (H [] moves); [reflexivity|apply inv_start].
Qed.

(** *** Reading *)
Lemma map_reader_ok (s : slot A) p c m v : (forall e, In e (after s p) -> codim G e = c -> exists d, find (lid G p e) m = Some d /\ length d = view_size s e) ->
  exists v', map_reader G s p c m v = Ok v' /\ forall e, (In e (after s p) /\ codim G e = c -> find (lid G p e) m = Some (v' e)) /\ (~ (In e (after s p) /\ codim G e = c) -> v' e = v e).
Proof.
  intros H. unfold map_reader.
  destruct (foldM_inv (fun v e => if codim G e =? c then match find (lid G p e) m with
      | Some d => if length d =? view_size s e then Ok (fun e' => if e' =? e then d else v e') else UB | None => UB end else Ok v)
    (fun l v' => forall e, (In e l /\ codim G e = c -> find (lid G p e) m = Some (v' e)) /\ (~ (In e l /\ codim G e = c) -> v' e = v e)) (after s p) v) as (v' & E & F).
  - intros e. split; [intros [[] _]|reflexivity].
  - intros l1 a v1 P Ia. destruct (Nat.eqb_spec (codim G a) c) as [C|C].
    + destruct (H a) as (d & D1 & D2); [exact Ia|easy|]. rewrite D1, D2, Nat.eqb_refl. eexists. split; [reflexivity|]. intros e. cbv beta. destruct (Nat.eqb_spec e a) as [->|N].
      * split; [intros _; exact D1|]. intros N. exfalso. apply N. split; [apply in_or_app; right; now left|easy].
      * rewrite in_app_iff. cbn. destruct (P e) as [P1 P2]. split; [intros [[I|[I|[]]] J]; [now apply P1|congruence]|]. intros Q. apply P2. intuition.
    + exists v1. split; [reflexivity|]. intros e. rewrite in_app_iff. cbn. destruct (P e) as [P1 P2]. split; [intros [[I|[I|[]]] J]; [now apply P1|congruence]|]. intros Q. apply P2. intuition.
  - exists v'. split; [exact E|exact F].
Qed.
Lemma read_map_ok (s : slot A) p m v : (forall e, In e (after s p) -> carries G s e -> exists d, find (lid G p e) m = Some d /\ length d = view_size s e) ->
  exists v', read_map G s p m v = Ok v' /\ forall e, (In e (after s p) /\ carries G s e -> find (lid G p e) m = Some (v' e)) /\ (~ (In e (after s p) /\ carries G s e) -> v' e = v e).
Proof.
  intros H. unfold read_map.
  destruct (foldM_inv (fun v c => if has_dofs s c then map_reader G s p c m v else Ok v)
    (fun l v' => forall e, (In e (after s p) /\ carries G s e /\ In (codim G e) l -> find (lid G p e) m = Some (v' e)) /\ (~ (In e (after s p) /\ carries G s e /\ In (codim G e) l) -> v' e = v e))
    (rev (seq 0 (S (gdim G)))) v) as (v' & E & F).
  - intros e. split; [intros (_ & _ & [])|reflexivity].
  - intros l1 c v1 P _. destruct (has_dofs s c) eqn:D.
    + destruct (map_reader_ok s p c m v1) as (v2 & E2 & Q); [intros e I C; apply H; [easy|now unfold carries; rewrite C]|]. exists v2. split; [exact E2|]. intros e. rewrite in_app_iff. cbn. destruct (P e) as [P1 P2], (Q e) as [Q1 Q2]. split.
      * intros (I & C & J). destruct (Nat.eq_dec (codim G e) c) as [K|K]; [now apply Q1|]. rewrite Q2 by tauto. apply P1. intuition congruence.
      * intros N. destruct (Nat.eq_dec (codim G e) c) as [K|K].
        -- destruct (in_dec Nat.eq_dec e (after s p)) as [I|I]; [exfalso; apply N; unfold carries; rewrite K; intuition|]. rewrite Q2 by tauto. apply P2. tauto.
        -- rewrite Q2 by tauto. apply P2. intuition.
    + exists v1. split; [reflexivity|]. intros e. rewrite in_app_iff. cbn. destruct (P e) as [P1 P2]. split; [intros (I & C & [J|[J|[]]]); [now apply P1|unfold carries in C; congruence]|]. intros N. apply P2. intuition.
  - exists v'. split; [exact E|]. intros e. destruct (F e) as [F1 F2]. assert (J : In (codim G e) (rev (seq 0 (S (gdim G))))) by (rewrite <- in_rev; apply in_seq; pose proof (proj2 HG e); lia). split; intros; [apply F1|apply F2]; tauto.
Qed.

Lemma arrived_first (s : slot A) moves p q e b : first_move s moves p q e b -> arrived s moves q e = Some (if b then val s p e else []).
Proof.
  intros (l1 & e' & l2 & -> & Ee & C & N). induction l1 as [|[[p1 q1] e1] l1 IH]; cbn [app arrived].
  - rewrite Nat.eqb_refl, Ee, Nat.eqb_refl. cbn. now rewrite C.
  - destruct ((q1 =? q) && (e_id e1 =? e)) eqn:B.
    + exfalso. apply andb_true_iff in B as [B1 B2]. apply Nat.eqb_eq in B1, B2. subst. apply (N p1 e1); [now left|exact B2].
    + apply IH. intros p' e'' I. apply N with p'. now right.
Qed.
Lemma known_origin (s : slot A) moves p q e : carries G s e -> origin s moves p q e -> known s moves q e = Some (val s p e).
Proof.
  intros C O. unfold known. rewrite C. destruct O as [[I ->]|[I F]]; destruct (in_dec _ _ _); try easy. now rewrite (arrived_first _ _ _ _ _ _ F).
Qed.

Lemma each_ok {X Y} (f : X -> res Y) (P : X -> Y -> Prop) l : (forall x, In x l -> exists y, f x = Ok y /\ P x y) -> exists ys, each f l = Ok ys /\ Forall2 P l ys.
Proof.
  induction l as [|a l IH]; intros H; cbn; [exists []; split; [reflexivity|constructor]|]. destruct (H a) as (y & E & Q); [now left|]. destruct IH as (ys & F & R); [intros; apply H; now right|].
  exists (y :: ys). rewrite E. cbn. rewrite F. split; [reflexivity|now constructor].
Qed.
End Lb.
