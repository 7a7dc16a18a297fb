(** C18 and C19: time step control and the step drivers. *)
From Verif Require Import CommonFacts MethodSpec MethodProofs MethodProofs2 MethodProofs3.
From Coq Require Import Lra.
Local Open Scope R_scope.

(** C18: for every positive limit [s] (cfl times the operator's suggestion), the suggested step respects the limit,
    does not pass the target, is positive before the target, is at least half the limit unless it lands on the target,
    and never leaves a remainder smaller than half the limit. *)
Theorem c18_suggestion : forall target time s, 0 < s -> time <= target ->
  let h := cfl_suggest target time s in
  0 <= h <= s /\ time + h <= target /\ (h < s / 2 -> time + h = target) /\ (time < target -> 0 < h) /\
  (time + h < target -> s / 2 <= target - (time + h)).
Proof. exact cfl_bounds. Qed.
Print Assumptions c18_suggestion.

(** C18: no sequence of steps passes the target. *)
Theorem c18_never_overshoots : forall target l, (forall s dt, In (s, dt) l -> 0 < s /\ 0 < dt) -> forall time, time <= target ->
  time <= cfl_run target l time <= target.
Proof. exact cfl_run_bounds. Qed.
Print Assumptions c18_never_overshoots.

(** C18: with suggestions and given steps of at least c, the target is reached after (target-time)/(c/2) steps. *)
Theorem c18_reaches_target : forall target c l, 0 < c -> (forall s dt, In (s, dt) l -> c <= s /\ c <= dt) ->
  forall time, time <= target -> target - time <= INR (length l) * (c / 2) -> cfl_run target l time = target.
Proof. exact cfl_reaches. Qed.
Print Assumptions c18_reaches_target.

(** Started after the target, the controller steps backwards. *)
Theorem c18_after_target_refuted : exists target time s, 0 < s /\ cfl_suggest target time s < 0.
Proof.
  exists 1, 2, 1. split; [lra|]. unfold cfl_suggest. destruct (Rlt_dec _ _); [lra|]. destruct (Rlt_dec _ _); lra.
Qed.
Print Assumptions c18_after_target_refuted.

Example c18_meets : cfl_run 1 [(0.4, 5); (0.4, 5); (0.4, 5)] 0 = 1 /\ cfl_suggest 1 0 0.4 = 0.4 /\ cfl_suggest 1 0.4 0.4 = 0.3.
Proof.
  assert (A : cfl_suggest 1 0 0.4 = 0.4). { unfold cfl_suggest. destruct (Rlt_dec _ _); lra. }
  assert (B : cfl_suggest 1 0.4 0.4 = 0.3). { unfold cfl_suggest. destruct (Rlt_dec _ _); [lra|]. destruct (Rlt_dec _ _); lra. }
  assert (C : cfl_suggest 1 0.7 0.4 = 0.3). { unfold cfl_suggest. destruct (Rlt_dec _ _); [lra|]. destruct (Rlt_dec _ _); lra. }
  split; [|auto]. unfold cfl_run, cfl_step. cbn [fold_left]. rewrite A, (Rmin_left 0.4) by lra.
  replace (0 + 0.4) with 0.4 by lra. rewrite B, (Rmin_left 0.3) by lra. replace (0.4 + 0.3) with 0.7 by lra. rewrite C, (Rmin_left 0.3) by lra. lra.
Qed.

(** C19: one call of apply, whatever the solver does in each stage and whether xold and xnew are the same vector:
    the outcome is that of the ideal step, xnew and no other vector of the caller changes, all stage vectors are
    deleted exactly once, the total statistics grow by the work of the step, the success statistics and the step number
    only if the step succeeded. *)
Theorem c19_one_step : forall V (v0 : V) c m o,
  (1 <= s c)%nat -> (xold c < next m)%nat -> (xnew c < next m)%nat -> (forall x, In x (live m) -> x < next m)%nat ->
  let '(ok, (m', o')) := apply v0 c (m, o) in
  let '(iok, sigma, w) := ideal_apply c (val m) in
  ok = iok /\ (forall l, (l < next m)%nat -> val m' l = sigma l) /\ live m' = live m /\ bad m' = bad m /\ (next m <= next m')%nat /\
  o' = mkmethod (add_part (total o) w) (if ok then add_part (successful o) w else successful o) (if ok then S (step o) else step o).
Proof. intros V v0 c m o H1 H2 H3 H4. exact (apply_ideal v0 c m H1 H2 H3 H4 o). Qed.
Print Assumptions c19_one_step.

(** C19: after every history of calls, of which any may fail in any stage, the total statistics are the sums over all
    calls, the success statistics the sums over the successful ones. *)
Theorem c19_history : forall V (v0 : V) cs m,
  (forall c, In c cs -> (1 <= s c)%nat /\ (xold c < next m)%nat /\ (xnew c < next m)%nat) ->
  (forall x, In x (live m) -> x < next m)%nat ->
  let (m', o') := history v0 cs (m, new_method) in
  let (l, sigma) := ideal_history cs (val m) in
  (forall x, (x < next m)%nat -> val m' x = sigma x) /\ live m' = live m /\ bad m' = bad m /\
  total o' = mkpart (length cs) (sum_stats (map snd l)) /\
  successful o' = mkpart (length (filter fst l)) (sum_stats (map snd (filter fst l))) /\
  step o' = S (length (filter fst l)).
Proof.
  intros V v0 cs m Hc Hl. pose proof (history_ideal v0 (next m) cs m new_method (val m) (le_n _) Hc Hl (fun _ _ => eq_refl)) as H.
  destruct (history v0 cs (m, new_method)) as [m' o'].
  assert (L : length (fst (ideal_history cs (val m))) = length cs).
  { generalize (val m). clear. induction cs as [|c cs IH]; intros sg; cbn; [reflexivity|].
    destruct (ideal_apply c sg) as [[ok sg'] w]. specialize (IH sg'). destruct (ideal_history cs sg'). cbn in *. now rewrite IH. }
  destruct (ideal_history cs (val m)) as [l sg]. cbn [fst] in L. destruct H as (A & B & C & ->). unfold oks. cbn.
  rewrite !add_stats_0, map_length, L. auto 10.
Qed.
Print Assumptions c19_history.

(** C19: a method that is given the result of another one with setResult continues like it: after every history of
    calls, restoring the two statistics restores the step counter as well. *)
Theorem c19_restored_result : forall V (v0 : V) cs m,
  (forall c, In c cs -> (1 <= s c)%nat /\ (xold c < next m)%nat /\ (xnew c < next m)%nat) ->
  (forall x, In x (live m) -> x < next m)%nat ->
  let o' := snd (history v0 cs (m, new_method)) in set_result (total o') (successful o') = o'.
Proof.
  intros V v0 cs m Hc Hl. pose proof (c19_history V v0 cs m Hc Hl) as H.
  destruct (history v0 cs (m, new_method)) as [m' o']. cbn [snd].
  destruct (ideal_history cs (val m)) as [l sigma]. destruct H as (_ & _ & _ & _ & H1 & H2).
  unfold set_result. rewrite H1. cbn [timesteps]. rewrite <- H1, <- H2. now destruct o'.
Qed.
Print Assumptions c19_restored_result.

(** A failing call: the exception is passed on and xnew is unchanged unless the last stage failed. *)
Theorem c19_failure_keeps_xnew : forall V (v0 : V) c m o,
  (1 <= s c)%nat -> (xold c < next m)%nat -> (xnew c < next m)%nat -> (forall x, In x (live m) -> x < next m)%nat ->
  (forall us g, fst (fst (solve c 1%nat us g)) = false) -> (1 < s c)%nat ->
  let '(ok, (m', o')) := apply v0 c (m, o) in
  ok = false /\ (forall l, (l < next m)%nat -> val m' l = val m l) /\ successful o' = successful o /\ step o' = step o.
Proof.
  intros V v0 c m o H1 H2 H3 H4 F S. pose proof (apply_ideal v0 c m H1 H2 H3 H4 o) as A.
  destruct (apply v0 c (m, o)) as [ok [m' o']]. unfold ideal_apply, ideal_step in A.
  destruct (s c) as [|k] eqn:E; [lia|]. cbn [ideal_stages] in A.
  set (g := match interpolate c with None => _ | Some _ => _ end) in A.
  specialize (F [val m (xold c)] g). destruct (solve c 1%nat [val m (xold c)] g) as [[b v] w]. cbn in F. subst b.
  destruct A as (-> & A & _ & _ & _ & ->). split; [reflexivity|]. split; [|auto].
  intros l Hl. rewrite A by exact Hl. rewrite nth_overflow by (cbn; lia). destruct (Nat.eqb_spec l (xnew c)); [subst; reflexivity|reflexivity].
Qed.
Print Assumptions c19_failure_keeps_xnew.

(** A history with a two-stage scheme whose second call fails in the second stage. *)
Example c19_meets :
  let sv := fun ok => fun (r : nat) (us : list nat) (g : nat) => (ok r, (g + r + length us)%nat, mkstats 0 0 3 (Z.of_nat r)) in
  let cs := [mkcall 2 (sv (fun _ => true)) None 0 1; mkcall 2 (sv (fun r => r <? 2)%nat) None 1 0; mkcall 1 (sv (fun _ => true)) (Some (fun _ x => x)) 1 1] in
  let m := mkmem (fun x => x) [] 2 false in
  let r := history O cs (m, new_method) in
  (timesteps (total (snd r)), timesteps (successful (snd r)), step (snd r)) = (3, 2, 3)%nat /\
  nonlinear_its (work (total (snd r))) = 7%Z /\ nonlinear_its (work (successful (snd r))) = 4%Z /\ live (fst r) = [] /\
  forall c, In c cs -> (1 <= s c)%nat /\ (xold c < next m)%nat /\ (xnew c < next m)%nat.
Proof.
  cbv zeta. split; [vm_compute; reflexivity|]. split; [vm_compute; reflexivity|]. split; [vm_compute; reflexivity|].
  split; [vm_compute; reflexivity|]. intros c [<-|[<-|[<-|[]]]]; cbn [s xold xnew next]; lia.
Qed.

(** The explicit driver returns the given step size or a smaller one suggested after the first assembly. *)
Theorem c19_explicit_step_size : forall V (v0 : V) c m dt dt' m', xapply v0 c m dt = (Some dt', m') -> (1 <= xs_ c)%nat ->
  dt' <= dt /\ exists us, dt' = Rmin (suggest c us) dt.
Proof. intros V v0 c m dt dt' m'. apply xapply_dt. Qed.
Print Assumptions c19_explicit_step_size.

(** The explicit driver, given two different vectors, computes the ideal explicit step: xnew becomes the last stage value,
    the returned size is the one chosen in the first stage, all stage vectors are deleted exactly once and no other vector
    of the caller changes, except that the limiter treats xold in place.  It throws exactly when a stage of the ideal step
    fails. *)
Theorem c19_explicit_step : forall V (v0 : V) c m dt,
  (1 <= xs_ c)%nat -> (xold_ c < next m)%nat -> (xnew_ c < next m)%nat -> xold_ c <> xnew_ c -> (forall x, In x (live m) -> x < next m)%nat ->
  match ideal_explicit c (xs_ c) 1 [] (val m (xold_ c)) (val m (xnew_ c)) dt with
  | Some (us, dt') => exists m', xapply v0 c m dt = (Some dt', m') /\
      val m' (xnew_ c) = nth (xs_ c) us v0 /\ val m' (xold_ c) = nth 0 us v0 /\
      (forall l, (l < next m)%nat -> l <> xold_ c -> l <> xnew_ c -> val m' l = val m l) /\ live m' = live m /\ bad m' = bad m
  | None => exists m', xapply v0 c m dt = (None, m') /\
      (forall l, (l < next m)%nat -> l <> xold_ c -> l <> xnew_ c -> val m' l = val m l)
  end.
Proof. intros V v0 c m dt H1 H2 H3 H4 H5. apply xapply_ideal; assumption. Qed.
Print Assumptions c19_explicit_step.

(** A step with three stages; the limiter changes xold although it is an input. *)
Theorem c19_explicit_xold_refuted : exists (c : xcall nat) (m : mem nat) us,
  (1 <= xs_ c)%nat /\ (xold_ c < next m)%nat /\ (xnew_ c < next m)%nat /\ xold_ c <> xnew_ c /\ (forall x, In x (live m) -> x < next m)%nat /\
  ideal_explicit c (xs_ c) 1 [] (val m (xold_ c)) (val m (xnew_ c)) 1 = Some (us, Rmin 2 1) /\
  us = [7; 9; 13; 13]%nat /\
  nth 0 us 0%nat <> val m (xold_ c).
Proof.
  exists (mkxcall 3 (fun r us _ g => Some (r + length us + g)%nat) (fun _ => 2) (fun v => Nat.max v 7) (fun v => Nat.min v 13) 0 1).
  exists (mkmem (fun x => if (x =? 0)%nat then 3 else 7)%nat [] 2 false). eexists.
  cbn [xs_ xold_ xnew_ next live]. repeat (split; [lia|]). split; [easy|]. split; [reflexivity|]. split; [reflexivity|]. cbn. lia.
Qed.
Print Assumptions c19_explicit_xold_refuted.

(** The explicit driver does not delete its stage vectors when a later stage throws. *)
Theorem c19_explicit_leak_refuted : exists (c : xcall nat) (m : mem nat) (dt : R),
  fst (xapply O c m dt) = None /\ live m = [] /\ live (snd (xapply O c m dt)) <> [].
Proof.
  exists (mkxcall 2 (fun r _ _ g => if (r =? 2)%nat then None else Some g) (fun _ => 1) (fun v => v) (fun v => v) 0 1), (mkmem (fun x => x) [] 2 false), 1.
  cbn. split; [reflexivity|]. split; [reflexivity|discriminate].
Qed.
Print Assumptions c19_explicit_leak_refuted.

(** Unlike the implicit driver, the explicit one does not allow xold and xnew to be the same vector: starting from
    equal values, it computes something else. *)
Theorem c19_explicit_alias_refuted : exists (c c' : xcall nat) (m : mem nat) (dt : R),
  (xs_ c, system c, limit_before c, limit_after c, xnew_ c) = (xs_ c', system c', limit_before c', limit_after c', xnew_ c') /\
  val m (xold_ c) = val m (xold_ c') /\
  val (snd (xapply O c m dt)) (xnew_ c) <> val (snd (xapply O c' m dt)) (xnew_ c).
Proof.
  set (sy := fun (r : nat) (us : list nat) (_ : R) (_ : nat) => Some (10 * hd O us + r)%nat).
  exists (mkxcall 2 sy (fun _ => 1) (fun v => v) (fun v => v) 0 1), (mkxcall 2 sy (fun _ => 1) (fun v => v) (fun v => v) 1 1), (mkmem (fun x => 1)%nat [] 2 false), 1.
  cbn. split; [reflexivity|]. split; [reflexivity|discriminate].
Qed.
Print Assumptions c19_explicit_alias_refuted.
