(** Constrained residuals and transformations of vectors. *)
From Coq Require Import Lra Permutation.
From Verif Require Import ConsModel ConsSpec EngineSpec EngineProofs EngineProofs3 CommonFacts ConsProofs.
Local Open Scope R_scope.

Lemma weight_none r c : ~ In c (keys r) -> weight r c = 0.
Proof.
  intros H. apply lsum_zero. intros (k, w) I. cbn [fst snd]. destruct (Nat.eqb_spec k c) as [->|]; [|reflexivity].
  exfalso. apply H. eapply in_keys, I.
Qed.
Lemma weight_cons e r c : weight (e :: r) c = (if (fst e =? c)%nat then snd e else 0) + weight r c. Proof. reflexivity. Qed.

(** Rows of a container with contributors outside [P] and keys in [P], except for empty rows. *)
Definition split_by (P : nat -> Prop) (cg : container) : Prop :=
  forall g r, In (g, r) cg -> (r = [] \/ P g) /\ forall c w, In (c, w) r -> ~ P c.
Definition hangs (cg : container) (g : nat) : Prop := exists r, In (g, r) cg /\ r <> [].
Lemma flat_split cg : flat cg -> split_by (hangs cg) cg.
Proof.
  intros F g r I. split.
  - destruct r as [|e r]; [now left|right]. exists (e :: r). split; [exact I|discriminate].
  - intros c w J (r' & K & Nr). apply Nr. exact (F g r c w r' I J K).
Qed.
Lemma split_self P cg k r : split_by P cg -> In (k, r) cg -> ~ In k (keys r).
Proof.
  intros S I H. destruct (S k r I) as ([->|Pk] & Pr); [destruct H|]. apply keys_in in H. destruct H as (w & H). exact (Pr _ _ H Pk).
Qed.

Lemma spread_row k r : forall v, ~ In k (keys r) ->
  forall g, fold_left (fun v e => spread (fst e) k (snd e) v) r v g = v g + weight r g * v k.
Proof.
  induction r as [|(c, w) r IH]; intros v N g; cbn [fold_left]; [unfold weight; cbn; lra|].
  assert (Nk : c <> k /\ ~ In k (keys r)) by (split; intros H; apply N; [left; exact H|right; exact H]).
  rewrite IH by apply Nk. rewrite weight_cons. cbn [fst snd]. unfold spread.
  rewrite (setv_neq c _ v k) by apply Nk. unfold setv. destruct (Nat.eqb_spec c g) as [->|]; lra.
Qed.
Lemma spread_all P cg : split_by P cg -> forall v g,
  fold_left (fun v col => fold_left (fun v e => spread (fst e) (fst col) (snd e) v) (snd col) v) cg v g = v g + received cg v g.
Proof.
  induction cg as [|(k, r) cg IH]; intros S v g; cbn [fold_left]; [unfold received; cbn; lra|].
  destruct (S k r (or_introl eq_refl)) as (Pk & Pr). cbn [fst snd].
  assert (Nk : ~ In k (keys r)) by (apply (split_self P _ k r S); left; reflexivity).
  rewrite IH by (intros h q I; apply S; right; exact I). rewrite spread_row by exact Nk.
  unfold received. rewrite lsum_cons. cbn [fst snd]. rewrite Rplus_assoc. f_equal. f_equal.
  apply lsum_ext. intros (k', r') I. cbn [fst snd]. rewrite spread_row by exact Nk.
  destruct (S k' r' (or_intror I)) as ([->|Pk'] & _); [unfold weight; cbn; lra|].
  rewrite (weight_none r k'); [lra|]. intros H. apply keys_in in H. destruct H as (w & H). exact (Pr _ _ H Pk').
Qed.

Lemma constrain_free cg x g : flat cg -> ~ constrained cg g -> constrain_residual cg x g = x g + received cg x g.
Proof.
  intros F N. unfold constrain_residual. rewrite set_as_copy. rewrite (proj2 (copy_spec _ _ _ _)) by exact N.
  apply spread_all with (1 := flat_split _ F).
Qed.
Lemma constrain_zero cg x g : constrained cg g -> constrain_residual cg x g = 0.
Proof. intros N. unfold constrain_residual. rewrite set_as_copy. rewrite (proj1 (copy_spec _ _ _ _)) by exact N. reflexivity. Qed.
Lemma forward_true cg x : forward true cg x = constrain_residual cg x. Proof. reflexivity. Qed.
Lemma forward_false cg x g : flat cg -> forward false cg x g = x g + received cg x g.
Proof. intros F. apply spread_all with (1 := flat_split _ F). Qed.

(** Order independence *)
Lemma lsum_perm {A} (f : A -> R) l l' : Permutation l l' -> lsum f l = lsum f l'.
Proof. induction 1; rewrite ?lsum_cons; lra. Qed.
Lemma keys_perm {A} (l l' : list (nat * A)) x : Permutation l l' -> In x (keys l) -> In x (keys l').
Proof. intros P. apply Permutation_in. apply Permutation_map, P. Qed.
Lemma flat_perm cg cg' : Permutation cg cg' -> flat cg -> flat cg'.
Proof.
  intros P F g r c w r' I J K. apply Permutation_sym in P.
  apply (F g r c w); [eapply Permutation_in; eassumption|exact J|eapply Permutation_in; eassumption].
Qed.
Lemma constrain_perm cg cg' x g : flat cg -> Permutation cg cg' -> constrain_residual cg' x g = constrain_residual cg x g.
Proof.
  intros F P. pose proof (flat_perm _ _ P F) as F'. destruct (in_dec Nat.eq_dec g (keys cg)) as [I|I].
  - rewrite (constrain_zero cg) by exact I. apply constrain_zero. eapply keys_perm; eassumption.
  - rewrite (constrain_free cg) by assumption. rewrite constrain_free; [|exact F'|].
    + f_equal. symmetry. apply lsum_perm, P.
    + intros J. apply I. eapply keys_perm; [apply Permutation_sym; exact P|exact J].
Qed.

(** Linearity and idempotence need no assumption on the container. *)
Definition combine2 (a b : R) (x y : vec) : vec := fun g => a * x g + b * y g.
Lemma spread_linear k c w a b x y g : spread c k w (combine2 a b x y) g = combine2 a b (spread c k w x) (spread c k w y) g.
Proof. unfold spread, combine2, setv. destruct (c =? g)%nat; lra. Qed.
Lemma spread_ext k c w x y : (forall g, x g = y g) -> forall g, spread c k w x g = spread c k w y g.
Proof. intros H g. unfold spread, setv. rewrite !H. reflexivity. Qed.
Lemma row_linear k r a b : forall x y z, (forall g, z g = combine2 a b x y g) -> forall g,
  fold_left (fun v e => spread (fst e) k (snd e) v) r z g =
  combine2 a b (fold_left (fun v e => spread (fst e) k (snd e) v) r x) (fold_left (fun v e => spread (fst e) k (snd e) v) r y) g.
Proof.
  induction r as [|e r IH]; intros x y z H g; cbn [fold_left]; [apply H|]. apply IH. intros h.
  rewrite (spread_ext _ _ _ _ _ H). apply spread_linear.
Qed.
Lemma all_linear (cg : container) a b : forall x y z, (forall g, z g = combine2 a b x y g) -> forall g,
  let F := fold_left (fun v col => fold_left (fun v e => spread (fst e) (fst col) (snd e) v) (snd col) v) cg in
  F z g = combine2 a b (F x) (F y) g.
Proof.
  induction cg as [|col cg IH]; intros x y z H g; cbn [fold_left]; [apply H|]. apply IH. intros h. apply row_linear, H.
Qed.
Lemma constrain_linear cg a b x y g :
  constrain_residual cg (combine2 a b x y) g = a * constrain_residual cg x g + b * constrain_residual cg y g.
Proof.
  destruct (in_dec Nat.eq_dec g (keys cg)) as [I|I].
  - rewrite !constrain_zero by exact I. lra.
  - unfold constrain_residual. rewrite !set_as_copy. rewrite !(proj2 (copy_spec _ _ _ _)) by exact I.
    rewrite (all_linear cg a b x y (combine2 a b x y)) by reflexivity. reflexivity.
Qed.
Lemma constrain_idempotent cg x g : constrain_residual cg (constrain_residual cg x) g = constrain_residual cg x g.
Proof.
  assert (Z : forall k, constrained cg k -> constrain_residual cg x k = 0) by (intros; apply constrain_zero; assumption).
  set (y := constrain_residual cg x) in *. clearbody y.
  destruct (in_dec Nat.eq_dec g (keys cg)) as [I|I]; [rewrite constrain_zero by exact I; symmetry; apply Z, I|].
  unfold constrain_residual. rewrite set_as_copy. rewrite (proj2 (copy_spec _ _ _ _)) by exact I.
  assert (Inner : forall k r v, v k = 0 -> forall h, fold_left (fun v e => spread (fst e) k (snd e) v) r v h = v h).
  { intros k r. induction r as [|e r IH]; intros v H h; cbn [fold_left]; [reflexivity|].
    assert (S : forall h, spread (fst e) k (snd e) v h = v h).
    { intros h'. unfold spread, setv. rewrite H. destruct (Nat.eqb_spec (fst e) h') as [->|]; lra. }
    rewrite IH; [apply S|]. rewrite S. exact H. }
  cut (forall l v, (forall k, In k (keys l) -> v k = 0) ->
         fold_left (fun v col => fold_left (fun v e => spread (fst e) (fst col) (snd e) v) (snd col) v) l v g = v g).
  { intros H. apply H. exact Z. }
  induction l as [|col l IH]; intros v H; cbn [fold_left]; [reflexivity|].
  assert (Hc : v (fst col) = 0) by (apply H; left; reflexivity).
  rewrite IH; [apply Inner, Hc|]. intros k J. rewrite Inner by exact Hc. apply H. right. exact J.
Qed.

(** backtransform *)
Lemma pull_row k r : forall v, ~ In k (keys r) -> forall g,
  fold_left (fun v e => spread k (fst e) (snd e) v) r v g =
  if (k =? g)%nat then v k + lsum (fun e => snd e * v (fst e)) r else v g.
Proof.
  induction r as [|(c, w) r IH]; intros v N g; cbn [fold_left].
  - unfold lsum; cbn. destruct (Nat.eqb_spec k g) as [->|]; lra.
  - assert (Nk : c <> k /\ ~ In k (keys r)) by (split; intros H; apply N; [left; exact H|right; exact H]).
    rewrite IH by apply Nk. rewrite lsum_cons. cbn [fst snd]. unfold spread. rewrite setv_eq.
    destruct (Nat.eqb_spec k g) as [<-|Ng].
    + rewrite Rplus_assoc. f_equal. f_equal. apply lsum_ext. intros (c', w') I. cbn [fst snd].
      rewrite setv_neq; [reflexivity|]. intros <-. apply Nk. eapply in_keys, I.
    + apply setv_neq, Ng.
Qed.
Lemma pull_all P pre cg : split_by P cg -> NoDup (keys cg) -> forall v g, (pre = true -> no_boundary_part cg v) ->
  backward pre cg v g =
  match find g cg with None => v g | Some r => (if pre then 0 else v g) + lsum (fun e => snd e * v (fst e)) r end.
Proof.
  unfold backward. induction cg as [|(k, r) cg IH]; intros S ND v g Z; cbn [fold_left]; [reflexivity|].
  destruct (S k r (or_introl eq_refl)) as (Pk & Pr). cbn [fst snd].
  assert (Nk : ~ In k (keys r)) by (apply (split_self P _ k r S); left; reflexivity).
  unfold keys in ND. cbn [map fst] in ND. inversion_clear ND as [|? ? N1 N2].
  set (v0 := if pre then setv k 0 v else v).
  set (v1 := fold_left (fun v e => spread k (fst e) (snd e) v) r v0).
  assert (V0 : forall h, h <> k -> v0 h = v h) by (intros h H; unfold v0; destruct pre; [apply setv_neq; congruence|reflexivity]).
  assert (V0k : v0 k = if pre then 0 else v k) by (unfold v0; destruct pre; [apply setv_eq|reflexivity]).
  assert (V1 : forall h, h <> k -> v1 h = v h).
  { intros h H. unfold v1. rewrite pull_row by exact Nk. destruct (Nat.eqb_spec k h); [congruence|]. apply V0, H. }
  (* contributors keep their values *)
  assert (V1c : forall g' q c w, In (g', q) cg -> In (c, w) q -> v1 c = v c).
  { intros g' q c w I J. destruct (Nat.eq_dec c k) as [->|Nc]; [|now apply V1].
    destruct Pk as [-> | Pk].
    - change (v1 k) with (v0 k). rewrite V0k. destruct pre; [|reflexivity]. symmetry.
      apply (Z eq_refl g' q k w); [right; exact I|exact J|left; reflexivity].
    - exfalso. destruct (S g' q (or_intror I)) as (_ & Q). exact (Q _ _ J Pk). }
  rewrite (IH (fun h q I => S h q (or_intror I)) N2).
  2: { intros E g' q c w I J K. transitivity (v1 c); [reflexivity|]. rewrite (V1c g' q c w I J). apply (Z E g' q c w); [right; exact I|exact J|right; exact K]. }
  cbn [find]. destruct (Nat.eqb_spec k g) as [<-|Ng].
  - assert (E : find k cg = None) by (apply find_none, N1). rewrite E. unfold v1. rewrite pull_row by exact Nk.
    rewrite Nat.eqb_refl; transitivity (v0 k + lsum (fun e => snd e * v0 (fst e)) r); [reflexivity|]; rewrite V0k. f_equal. apply lsum_ext. intros (c, w) I. cbn [fst snd]. f_equal. apply V0.
    intros ->. apply Nk. eapply in_keys, I.
  - destruct (find g cg) as [q|] eqn:E; [|apply V1; congruence]. rewrite V1 by congruence. f_equal.
    apply lsum_ext. intros (c, w) I. cbn [fst snd]. f_equal. apply find_in in E. exact (V1c g q c w E I).
Qed.
Lemma backward_extend cg u g : flat cg -> NoDup (keys cg) -> no_boundary_part cg u -> backward true cg u g = extend cg u g.
Proof.
  intros F ND Z. rewrite (pull_all _ true cg (flat_split _ F) ND) by auto. unfold extend. destruct (find g cg); lra.
Qed.

(** Adjointness *)
Lemma nsum_lsum_single N (f : nat -> R) r : (forall c w, In (c, w) r -> (c < N)%nat) ->
  nsum N (fun g => weight r g * f g) = lsum (fun e : nat * R => snd e * f (fst e)) r.
Proof.
  intros B. rewrite (nsum_ext N _ (fun g => lsum (fun e => (if (fst e =? g)%nat then snd e * f g else 0)) r)).
  - rewrite (nsum_lsum N (fun (e : nat * R) g => if (fst e =? g)%nat then snd e * f g else 0)). apply lsum_ext. intros (c, w) I.
    cbn [fst snd]. apply (nsum_single N c (fun g => w * f g)). eapply B, I.
  - intros g _. unfold weight. rewrite Rmult_comm, <- lsum_scal. apply lsum_ext. intros e _. destruct (fst e =? g)%nat; lra.
Qed.
(** sum over the constrained DOFs, by DOF number and by entry of the container *)
Lemma nsum_entries N (cg : container) (f : nat -> row -> R) : NoDup (keys cg) -> (forall g r, In (g, r) cg -> (g < N)%nat) ->
  nsum N (fun g => match find g cg with None => 0 | Some r => f g r end) = lsum (fun col => f (fst col) (snd col)) cg.
Proof.
  induction cg as [|(k, r) cg IH]; intros ND B; cbn [find]; [cbn; apply nsum_zero|].
  unfold keys in ND. cbn [map fst] in ND. inversion_clear ND as [|? ? N1 N2].
  rewrite lsum_cons. cbn [fst snd]. rewrite <- IH by (auto; intros; eapply B; right; eassumption).
  rewrite <- (nsum_single N k (fun g => f g r)) by (eapply B; left; reflexivity). rewrite <- nsum_plus.
  apply nsum_ext. intros g _. destruct (Nat.eqb_spec k g) as [<-|].
  - assert (E : find k cg = None) by (apply find_none, N1). rewrite E. lra.
  - lra.
Qed.
Lemma received_dot N cg x (f : nat -> R) : below N cg ->
  nsum N (fun g => received cg x g * f g) = lsum (fun col => x (fst col) * lsum (fun e => snd e * f (fst e)) (snd col)) cg.
Proof.
  intros B. rewrite (nsum_ext N _ (fun g => lsum (fun col => x (fst col) * (weight (snd col) g * f g)) cg)).
  - rewrite (nsum_lsum N (fun (col : nat * row) g => x (fst col) * (weight (snd col) g * f g))). apply lsum_ext.
    intros (k, r) I. cbn [fst snd]. rewrite nsum_scal. f_equal. apply nsum_lsum_single. apply (B k r I).
  - intros g _. unfold received. rewrite Rmult_comm, <- lsum_scal. apply lsum_ext. intros. lra.
Qed.
Lemma adjoint N cg x u : proper cg -> flat cg -> below N cg -> no_boundary_part cg u -> dot N (constrain_residual cg x) u = dot N x (extend cg u).
Proof.
  intros (ND & _) F B Z. unfold dot.
  rewrite (nsum_ext N _ (fun g => (match find g cg with None => x g * u g | Some _ => 0 end) + received cg x g *
     (match find g cg with None => u g | Some _ => 0 end))).
  2: { intros g _. destruct (find g cg) as [r|] eqn:E.
       - rewrite constrain_zero; [lra|]. eapply in_keys, find_in, E.
       - rewrite constrain_free; [lra|exact F|]. apply find_none, E. }
  rewrite nsum_plus, received_dot by exact B.
  rewrite (nsum_ext N (fun g => x g * extend cg u g) (fun g => (match find g cg with None => x g * u g | Some _ => 0 end) +
     (match find g cg with None => 0 | Some r => x g * lsum (fun e => snd e * u (fst e)) r end))).
  2: { intros g _. unfold extend. destruct (find g cg); lra. }
  rewrite nsum_plus, (nsum_entries N cg (fun g r => x g * lsum (fun e => snd e * u (fst e)) r)).
  - f_equal. apply lsum_ext. intros (k, r) I. cbn [fst snd]. f_equal. apply lsum_ext. intros (c, w) J. cbn [fst snd].
    destruct (find c cg) as [q|] eqn:E; [|reflexivity]. rewrite (Z k r c w I J); [lra|]. eapply in_keys, find_in, E.
  - exact ND.
  - intros g0 r0 I0. exact (proj1 (B _ _ I0)).
Qed.
Lemma transform_adjoint N cg restrict x y : proper cg -> flat cg -> below N cg -> (restrict = true -> no_boundary_part cg y) ->
  dot N (forward restrict cg x) y = dot N x (backward restrict cg y).
Proof.
  intros Pr F B Z. destruct restrict.
  - specialize (Z eq_refl). rewrite forward_true, (adjoint N cg x y) by assumption. apply nsum_ext. intros g _. rewrite backward_extend by (auto; apply Pr). reflexivity.
  - destruct Pr as (ND & _). unfold dot.
    rewrite (nsum_ext N _ (fun g => x g * y g + received cg x g * y g)) by (intros; rewrite forward_false by exact F; lra).
    rewrite nsum_plus, received_dot by exact B.
    rewrite (nsum_ext N (fun g => x g * backward false cg y g) (fun g => x g * y g +
       (match find g cg with None => 0 | Some r => x g * lsum (fun e => snd e * y (fst e)) r end))).
    2: { intros g _. rewrite (pull_all _ false cg (flat_split _ F) ND) by discriminate. destruct (find g cg); lra. }
    rewrite nsum_plus, (nsum_entries N cg (fun g r => x g * lsum (fun e => snd e * y (fst e)) r)); [reflexivity|exact ND|].
    intros g0 r0 I0. exact (proj1 (B _ _ I0)).
Qed.
