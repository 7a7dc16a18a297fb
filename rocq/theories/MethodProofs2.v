From Verif Require Import CommonFacts MethodSpec MethodProofs.
From Coq Require Import Lra.
Local Open Scope R_scope.

(** ** CFL controller *)
Lemma cfl_bounds target time s : 0 < s -> time <= target ->
  let h := cfl_suggest target time s in
  0 <= h <= s /\ time + h <= target /\ (h < s / 2 -> time + h = target) /\ (time < target -> 0 < h) /\
  (time + h < target -> s / 2 <= target - (time + h)).
Proof.
  intros Hs Ht. cbn zeta. unfold cfl_suggest. destruct (Rlt_dec (time + 2 * s) target); [|destruct (Rlt_dec (time + s) target)];
    repeat split; intros; lra.
Qed.

Lemma cfl_step_bounds target time s dt : 0 < s -> 0 < dt -> time <= target ->
  let t' := cfl_step target time (s, dt) in
  time <= t' <= target /\ t' - time <= s /\ t' - time <= dt /\ (t' = target \/ t' - time >= Rmin (s / 2) dt).
Proof.
  intros Hs Hd Ht. cbn zeta. unfold cfl_step. destruct (cfl_bounds target time s Hs Ht) as ((A & A') & B & C & D & _).
  set (h := cfl_suggest target time s) in *.
  destruct (Rle_dec h dt) as [L|L].
  - rewrite Rmin_left by lra. repeat split; try lra. destruct (Rlt_dec h (s / 2)) as [K|K]; [left; auto|right].
    pose proof (Rmin_l (s / 2) dt). lra.
  - rewrite Rmin_right by lra. repeat split; try lra. right. pose proof (Rmin_r (s / 2) dt). lra.
Qed.

Lemma cfl_run_bounds target l : (forall s dt, In (s, dt) l -> 0 < s /\ 0 < dt) -> forall time, time <= target ->
  time <= cfl_run target l time <= target.
Proof.
  unfold cfl_run. induction l as [|[s dt] l IH]; intros H time Ht; cbn [fold_left]; [lra|].
  destruct (H s dt (or_introl eq_refl)) as [Hs Hd].
  destruct (cfl_step_bounds target time s dt Hs Hd Ht) as (A & _).
  destruct (IH (fun s dt h => H s dt (or_intror h)) (cfl_step target time (s, dt)) (proj2 A)). lra.
Qed.

Lemma cfl_stays target s dt : 0 < s -> 0 < dt -> cfl_step target target (s, dt) = target.
Proof. intros Hs Hd. destruct (cfl_step_bounds target target s dt Hs Hd ltac:(lra)) as (A & _). lra. Qed.

(** progress: each step lands on the target or advances by at least c/2 *)
Lemma cfl_reaches target c l : 0 < c -> (forall s dt, In (s, dt) l -> c <= s /\ c <= dt) -> forall time, time <= target ->
  target - time <= INR (length l) * (c / 2) -> cfl_run target l time = target.
Proof.
  intros Hc. unfold cfl_run. induction l as [|[s dt] l IH]; intros H time Ht L; cbn [fold_left length] in *; [cbn in L; lra|].
  destruct (H s dt (or_introl eq_refl)) as [Hs Hd].
  destruct (cfl_step_bounds target time s dt ltac:(lra) ltac:(lra) Ht) as (A & _ & _ & P).
  apply IH; [intros; apply H; now right|lra|].
  rewrite S_INR in L. destruct P as [->|P].
  - replace (target - target) with 0 by lra. apply Rmult_le_pos; [apply pos_INR|lra].
  - assert (c / 2 <= Rmin (s / 2) dt) by (apply Rmin_glb; lra). lra.
Qed.

(** ** Explicit driver: what happens when a stage throws, and when the arguments alias *)
Section X.
  Context {V : Type} (v0 : V).
  Lemma xstages_dt (c : xcall V) k : forall r xs m dt xs' m' dt' mm, xstages v0 c k r xs m dt = (Some (xs', m', dt'), mm) ->
    (1 < r)%nat -> dt' = dt.
  Proof.
    induction k as [|k IH]; intros r xs m dt xs' m' dt' mm H Hr; cbn [xstages] in H; [congruence|].
    destruct (Nat.eqb_spec r 1); [lia|].
    destruct (if (r =? xs_ c)%nat then (xnew_ c, m) else alloc v0 m) as [l m1].
    cbn zeta in H.
    match type of H with match ?x with Some _ => _ | None => _ end = _ => destruct x; [|discriminate] end.
    eapply IH; [exact H|lia].
  Qed.
  (** The returned step size is the given one or a smaller one suggested after the first assembly. *)
  Lemma xapply_dt (c : xcall V) m dt dt' m' : xapply v0 c m dt = (Some dt', m') -> (1 <= xs_ c)%nat ->
    dt' <= dt /\ exists us, dt' = Rmin (suggest c us) dt.
  Proof.
    unfold xapply. intros H Hs. destruct (xs_ c) as [|k] eqn:E; [lia|]. cbn [xstages] in H. rewrite Nat.eqb_refl in H.
    destruct (if (1 =? xs_ c)%nat then (xnew_ c, m) else alloc v0 m) as [l m1].
    cbn zeta in H. set (us := map _ _) in H.
    match type of H with match match ?x with Some _ => _ | None => _ end with _ => _ end = _ => destruct x; [|discriminate] end.
    match type of H with match ?x with _ => _ end = _ => destruct x as [[[[xs' m''] d]|] mm] eqn:F; [|discriminate] end.
    apply xstages_dt in F; [|lia]. inversion H; subst. split; [apply Rmin_r|]. now exists us.
  Qed.
End X.
