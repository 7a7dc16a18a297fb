(** Proofs about combined local operators. *)
From Coq Require Import FunctionalExtensionality Lra.
From Verif Require Import CommonFacts CombModel EngineSpec EngineProofs EngineProofs3 CombSpec.
Local Open Scope R_scope.

Ltac fx := apply functional_extensionality; intro.

(** what the summands add *)
Definition wval {A} (on : A -> bool) (v : A -> vec) (ls : list (R * A)) : vec :=
  fun i => lsum (fun p => fst p * opt (on (snd p)) (v (snd p)) i) ls.
Definition wmval {A} (on : A -> bool) (v : A -> mat) (ls : list (R * A)) : mat :=
  fun i j => lsum (fun p => fst p * mopt (on (snd p)) (v (snd p)) i j) ls.

(** [ap] adds up the summands of [ls] with their weights and restores the weights of the views *)
Record adds (ap : applier) (A : Type) (ls : list (R * A)) : Prop := {
  adds1 : forall on v w r, ap A vec (fun l => call1 (on l) (v l)) ls ([w], r) = ([w], vacc w r (wval on v ls));
  adds2 : forall on v w w' r, ap A (vec * vec)%type (fun l => call2 (on l) (v l)) ls ([w; w'], r) =
    ([w; w'], (vacc w (fst r) (wval on (fun l => fst (v l)) ls), vacc w' (snd r) (wval on (fun l => snd (v l)) ls)));
  addsm1 : forall on v w r, ap A mat (fun l => mcall1 (on l) (v l)) ls ([w], r) = ([w], macc w r (wmval on v ls));
  addsm4 : forall on v w1 w2 w3 w4 m, ap A mats4 (fun l => mcall4 (on l) (v l)) ls ([w1; w2; w3; w4], m) =
    ([w1; w2; w3; w4],
     ((macc w1 (fst (fst m)) (wmval on (fun l => fst (fst (v l))) ls), macc w2 (snd (fst m)) (wmval on (fun l => snd (fst (v l))) ls)),
      (macc w3 (fst (snd m)) (wmval on (fun l => fst (snd (v l))) ls), macc w4 (snd (snd m)) (wmval on (fun l => snd (snd (v l))) ls)))) }.

(** fold of a step that always uses the same weights: only the contents matter *)
Lemma weighted_fold {A C} (f : A -> list R -> C -> C) aw ls : forall cur c,
  snd (fold_left (fun (s : list R * C) (p : R * A) => let (w, l) := p in
      if Req_EM_T w 0 then s else (map (fun a => a * w) aw, f l (map (fun a => a * w) aw) (snd s))) ls (cur, c)) =
  fold_left (fun c p => if Req_EM_T (fst p) 0 then c else f (snd p) (map (fun a => a * fst p) aw) c) ls c.
Proof.
  induction ls as [|(w, l) ls IH]; intros cur c; [reflexivity|]. cbn [fold_left fst snd].
  destruct (Req_EM_T w 0); apply IH.
Qed.
Lemma weighted_eq {A C} (f : A -> list R -> C -> C) ls aw c : apply_weighted f ls (aw, c) =
  (aw, fold_left (fun c p => if Req_EM_T (fst p) 0 then c else f (snd p) (map (fun a => a * fst p) aw) c) ls c).
Proof. unfold apply_weighted. cbv zeta. cbn [fst]. f_equal. apply weighted_fold. Qed.
Lemma sum_fold {A C} (f : A -> list R -> C -> C) ls : forall aw c,
  fold_left (fun (s : list R * C) (p : R * A) => (fst s, f (snd p) (fst s) (snd s))) ls (aw, c) =
  (aw, fold_left (fun c p => f (snd p) aw c) ls c).
Proof. induction ls as [|p ls IH]; intros; [reflexivity|]. cbn [fold_left fst snd]. apply IH. Qed.

Lemma fold_wval {A} on v w (ls : list (R * A)) : forall r,
  fold_left (fun c p => if Req_EM_T (fst p) 0 then c else call1 (on (snd p)) (v (snd p)) (map (fun a => a * fst p) [w]) c) ls r =
  vacc w r (wval on v ls).
Proof.
  induction ls as [|(k, l) ls IH]; intros r; cbn [fold_left fst snd].
  - fx. unfold vacc, vadd, vscal, wval. rewrite lsum_nil. ring.
  - rewrite IH. fx. unfold wval, vacc, vadd, vscal. rewrite lsum_cons. cbn [fst snd].
    destruct (Req_EM_T k 0) as [->|N]; [ring|]. unfold call1, opt. destruct (on l); cbn [map wnth nth]; unfold vacc, vadd, vscal, vzero; ring.
Qed.
Lemma fold_wmval {A} on v w (ls : list (R * A)) : forall r,
  fold_left (fun c p => if Req_EM_T (fst p) 0 then c else mcall1 (on (snd p)) (v (snd p)) (map (fun a => a * fst p) [w]) c) ls r =
  macc w r (wmval on v ls).
Proof.
  induction ls as [|(k, l) ls IH]; intros r; cbn [fold_left fst snd].
  - fx. fx. unfold macc, wmval. rewrite lsum_nil. ring.
  - rewrite IH. fx. fx. unfold wmval, macc. rewrite lsum_cons. cbn [fst snd].
    destruct (Req_EM_T k 0) as [->|N]; [ring|]. unfold mcall1, mopt. destruct (on l); cbn [map wnth nth]; unfold macc, mzero; ring.
Qed.
Lemma fold_split {A C D} (F : C * D -> A -> C * D) (f : C -> A -> C) (g : D -> A -> D) ls :
  (forall s p, F s p = (f (fst s) p, g (snd s) p)) -> forall s, fold_left F ls s = (fold_left f ls (fst s), fold_left g ls (snd s)).
Proof.
  intros H. induction ls as [|p ls IH]; intros (c, d); [reflexivity|]. cbn [fold_left]. rewrite IH, H. reflexivity.
Qed.
Lemma fold_ext' {A C} (f g : C -> A -> C) ls : (forall c p, In p ls -> f c p = g c p) -> forall c, fold_left f ls c = fold_left g ls c.
Proof. induction ls as [|p ls IH]; intros H c; [reflexivity|]. cbn. rewrite H by now left. apply IH. intros; apply H; now right. Qed.

(** one step of the folds *)
Definition wstep {A} (on : A -> bool) (v : A -> vec) w (c : vec) (p : R * A) : vec :=
  if Req_EM_T (fst p) 0 then c else call1 (on (snd p)) (v (snd p)) (map (fun a => a * fst p) [w]) c.
Definition wmstep {A} (on : A -> bool) (v : A -> mat) w (c : mat) (p : R * A) : mat :=
  if Req_EM_T (fst p) 0 then c else mcall1 (on (snd p)) (v (snd p)) (map (fun a => a * fst p) [w]) c.

Theorem weighted_adds A ls : adds weighted_sum A ls.
Proof.
  constructor; intros; unfold weighted_sum; rewrite weighted_eq; apply (f_equal (pair _)).
  - apply fold_wval.
  - rewrite (fold_split _ (wstep on (fun l => fst (v l)) w) (wstep on (fun l => snd (v l)) w')).
    + f_equal; apply fold_wval.
    + intros (c, d) p. unfold wstep. destruct (Req_EM_T (fst p) 0); [reflexivity|]. unfold call1, call2. destruct (on (snd p)); reflexivity.
  - apply fold_wmval.
  - rewrite (fold_split _ (fun c p => (wmstep on (fun l => fst (fst (v l))) w1 (fst c) p, wmstep on (fun l => snd (fst (v l))) w2 (snd c) p))
                          (fun c p => (wmstep on (fun l => fst (snd (v l))) w3 (fst c) p, wmstep on (fun l => snd (snd (v l))) w4 (snd c) p))).
    + rewrite !(fold_split _ (wmstep on (fun l => fst (fst (v l))) w1) (wmstep on (fun l => snd (fst (v l))) w2)) by reflexivity.
      rewrite !(fold_split _ (wmstep on (fun l => fst (snd (v l))) w3) (wmstep on (fun l => snd (snd (v l))) w4)) by reflexivity.
      f_equal; f_equal; apply fold_wmval.
    + intros ((c1, c2), (c3, c4)) p. unfold wmstep. destruct (Req_EM_T (fst p) 0); [reflexivity|].
      unfold mcall1, mcall4. destruct (on (snd p)); reflexivity.
Qed.

Lemma plain_weighted A C (f : A -> list R -> C -> C) ls s :
  plain_sum A C f (unit_weights ls) s = weighted_sum A C f (unit_weights ls) s.
Proof.
  destruct s as [aw c]. unfold plain_sum, weighted_sum, apply_sum. rewrite sum_fold, weighted_eq. apply (f_equal (pair _)).
  apply fold_ext'. intros c' p Hp. apply in_map_iff in Hp as (l & <- & _). cbn [fst snd].
  destruct (Req_EM_T 1 0) as [E|_]; [lra|]. f_equal. rewrite <- (map_id aw) at 1. apply map_ext. intros; ring.
Qed.
Theorem plain_adds A ls : adds plain_sum A (unit_weights ls).
Proof. constructor; intros; rewrite plain_weighted; [apply adds1|apply adds2|apply addsm1|apply addsm4]; apply weighted_adds. Qed.
