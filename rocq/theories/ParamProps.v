(** C173: constraint parameters and their adapters. *)
From Coq Require Import Lia.
From Verif Require Import ParamModel ParamSpec CommonFacts ParamProofs.

(** C173: after every history of constructions and setTime calls, an adapter reports exactly one of Dirichlet and Neumann at every place. *)
Theorem c173_complement : forall (T P : Type) l (s : list (object T P)) i p b, run l = Ok s -> is_adapter s i ->
  (isDirichlet s i p = Ok b <-> isNeumann s i p = Ok (negb b)).
Proof.
  intros T P l s i p b R (j & H). pose proof (ask s i p (run_proper l [] s nil_proper R)) as A.
  destruct H as [E|E]; rewrite E in A; destruct A as [-> ->].
  - destruct (isDirichlet s j p) as [[]| |]; destruct b; cbn; split; congruence.
  - destruct (isNeumann s j p) as [[]| |]; destruct b; cbn; split; congruence.
Qed.
Print Assumptions c173_complement.

(** C173: an adapter passes on what it is made from. *)
Theorem c173_passes_on : forall (T P : Type) l (s : list (object T P)) i j p, run l = Ok s ->
  (nth_error s i = Some (FluxFromDirichlet j) -> isDirichlet s i p = isDirichlet s j p) /\
  (nth_error s i = Some (DirichletFromFlux j) -> isNeumann s i p = isNeumann s j p).
Proof.
  intros T P l s i j p R. pose proof (ask s i p (run_proper l [] s nil_proper R)) as A. split; intros E; rewrite E in A; apply A.
Qed.
Print Assumptions c173_passes_on.

(** C173: an adapter on top of an adapter reports the same as the one below. *)
Theorem c173_stacked : forall (T P : Type) l (s : list (object T P)) i j p b, run l = Ok s -> is_adapter s j ->
  nth_error s i = Some (FluxFromDirichlet j) \/ nth_error s i = Some (DirichletFromFlux j) ->
  (isDirichlet s j p = Ok b -> isDirichlet s i p = Ok b) /\ (isNeumann s j p = Ok b -> isNeumann s i p = Ok b).
Proof.
  intros T P l s i j p b R AD H. pose proof (ask s i p (run_proper l [] s nil_proper R)) as A.
  pose proof (c173_complement T P l s j p b R AD) as C. pose proof (c173_complement T P l s j p (negb b) R AD) as C'.
  rewrite negb_involutive in C'. destruct H as [E|E]; rewrite E in A; destruct A as [-> ->]; split; auto; intros H.
  - apply C' in H. rewrite H. cbn. now rewrite negb_involutive.
  - apply C in H. rewrite H. cbn. now rewrite negb_involutive.
Qed.
Print Assumptions c173_stacked.

(** C173: setTime through any chain of adapters reaches the parameters below, and nothing else changes. *)
Theorem c173_set_time : forall (T P : Type) l (s : list (object T P)) i t, run l = Ok s -> i < length s ->
  exists b s', rests_on s i b /\ setTime t i s = Ok s' /\
    (forall u t0, nth_error s b = Some (User u t0) -> nth_error s' b = Some (User u t)) /\
    ((forall u t0, nth_error s b <> Some (User u t0)) -> s' = s) /\ (forall k, k <> b -> nth_error s' k = nth_error s k).
Proof.
  intros T P l s i t R L. destruct (set_time_value s t i (run_proper l [] s nil_proper R) L) as (b & Rb & ->). exists b.
  pose proof (rests_below s i b Rb) as B.
  destruct (nth_error s b) as [o|] eqn:E; [|apply nth_error_None in E; lia]. destruct o; eexists; (split; [exact Rb|]); (split; [reflexivity|]);
    (split; [intros u' t'|split; [intros N|intros k K]]); try discriminate; try reflexivity.
  - intros [= -> ->]. now apply upd_nth_error_same.
  - now destruct (N u now).
  - apply upd_nth_error_other. congruence.
Qed.
Print Assumptions c173_set_time.

(** C173: so all adapters that rest on the same parameters see the time set last through any of them (or directly), whatever
    else happens. *)
Theorem c173_last_time : forall (T P : Type) l l' i t b u t0 (s0 s : list (object T P)),
  run (l ++ SetTime i t :: l') = Ok s -> run l = Ok s0 -> rests_on s0 i b -> nth_error s0 b = Some (User u t0) ->
  (forall k t', In (SetTime k t') l' -> ~ rests_on s k b) -> nth_error s b = Some (User u t).
Proof.
  intros T P l l' i t b u t0 s0 s R R0 Rb N K. unfold run in *. rewrite foldM_app, R0 in R. cbn [bind foldM] in R.
  assert (PR : proper s0) by (eapply run_proper; [apply nil_proper|exact R0]).
  assert (E : step s0 (SetTime i t) = Ok (upd b (User u t) s0)).
  { cbn [step]. unfold setTime. rewrite (set_fuel s0 PR (S i) i t b) by auto. now rewrite N. }
  rewrite E in R. cbn [bind] in R. eapply time_kept; [eapply step_proper with (o := SetTime i t); [exact PR|exact E]| |exact R|exact K].
  apply upd_nth_error_same. apply nth_error_Some. congruence.
Qed.
Print Assumptions c173_last_time.

(** Parameters with places that are neither Dirichlet nor Neumann (outflow) lose them: the adapter made for the flux reports
    Neumann there, and the one in the other direction Dirichlet. *)
Theorem c173_outflow_refuted : forall (T P : Type) (u : user T P) t p, dirichlet_at u t p = false -> neumann_at u t p = false ->
  exists s, run [New (User u t); New (FluxFromDirichlet 0); New (DirichletFromFlux 0)] = Ok s /\
    isNeumann s 0 p = Ok false /\ isNeumann s 1 p = Ok true /\ isDirichlet s 0 p = Ok false /\ isDirichlet s 2 p = Ok true.
Proof.
  intros T P u t p D N. eexists. split; [reflexivity|]. unfold isNeumann, isDirichlet. cbn. now rewrite D, N.
Qed.
Print Assumptions c173_outflow_refuted.

(** Two adapters of different direction, stacked, share one parameter object; the time is set through the upper one. *)
Example c173_meets : let u := mkuser nat nat (fun t p => (p <? t)) (fun t p => negb (p <? t)) in
  exists s, run [New (User u 0); New (FluxFromDirichlet 0); New (DirichletFromFlux 1); New Everywhere; SetTime 2 5] = Ok s /\
    rests_on s 2 0 /\ is_adapter s 1 /\ isDirichlet s 1 3 = Ok true /\ isNeumann s 2 3 = Ok false /\ isDirichlet s 2 7 = Ok false.
Proof.
  cbn zeta. eexists. split; [reflexivity|]. split; [|split; [exists 0; left; reflexivity|repeat split; reflexivity]].
  eapply rests_dirichlet; [reflexivity|]. eapply rests_flux; [reflexivity|]. eapply rests_here; [reflexivity|]. intros j; split; discriminate.
Qed.
