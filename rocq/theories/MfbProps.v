(** C177: the matrix-free backend solves with the Jacobian at the present linearization point. *)
From Coq Require Import Reals Lra FunctionalExtensionality.
From Verif Require Import Common CommonFacts MfbModel MfbSpec MfbProofs.

Definition nothing : store := fun _ => None.

(** Nonlinear problems: after any history, a solve is a run of the solver with the Jacobian at the present content of the
    vector that was given to the last setLinearizationPoint, and with some blocks. *)
Theorem c177_solve assemble B (setup : option vec -> B) precondition solver (h : list op) H s a u z r :
  foldM (step false assemble B setup precondition solver) (rev h) (nothing, init) = Ok (H, s) ->
  last_point h = Some a -> content h a = Some u ->
  exists s' c, backend_apply false assemble B setup precondition solver H s z r =
    Ok (s', result (assemble (Some u)) (precondition c (Some u)) (solver z r)).
Proof.
  intros HF HL HC. pose proof (inv_history _ _ _ _ _ _ _ _ _ _ (inv_init B) HF) as HI.
  rewrite rev_involutive, app_nil_r in HI.
  assert (HS : seen false B H s (Some u)).
  { eapply seen_of; [exact HI|]. exists a. split; [auto|split; [auto|discriminate]]. }
  destruct HI as (_ & _ & _ & _ & HB).
  destruct (backend_seen false assemble B setup precondition solver H s (Some u) z r HS HB) as (c & _ & _ & E).
  eauto.
Qed.
Print Assumptions c177_solve.

(** So a solver that is right for this Jacobian whatever the preconditioner returns the Newton correction. *)
Corollary c177_right assemble B (setup : option vec -> B) precondition solver (h : list op) H s a u z r :
  foldM (step false assemble B setup precondition solver) (rev h) (nothing, init) = Ok (H, s) ->
  last_point h = Some a -> content h a = Some u ->
  (forall P, assemble (Some u) (result (assemble (Some u)) P (solver z r)) = r) ->
  exists s' x, backend_apply false assemble B setup precondition solver H s z r = Ok (s', x) /\ assemble (Some u) x = r.
Proof.
  intros HF HL HC HS. destruct (c177_solve _ _ _ _ _ _ _ _ _ _ z r HF HL HC) as (s' & c & E). eauto.
Qed.
Print Assumptions c177_right.

(** The blocks are those at the point of the first solve after setup was demanded, however often the point was moved
    since. *)
Theorem c177_blocks assemble B (setup : option vec -> B) precondition solver h1 z1 r1 h2 H s a1 w a u z r :
  foldM (step false assemble B setup precondition solver) (rev h1 ++ Solve z1 r1 :: rev h2) (nothing, init) = Ok (H, s) ->
  fresh h1 -> last_point h1 = Some a1 -> content h1 a1 = Some w ->
  Forall no_demand h2 ->
  let h := h2 ++ Solve z1 r1 :: h1 in
  last_point h = Some a -> content h a = Some u ->
  exists s', backend_apply false assemble B setup precondition solver H s z r =
    Ok (s', result (assemble (Some u)) (precondition (setup (Some w)) (Some u)) (solver z r)).
Proof.
  intros HF Hfr HL1 HC1 HD h HL HC.
  pose proof (inv_history _ _ _ _ _ _ _ _ _ _ (inv_init B) HF) as HI.
  rewrite rev_app_distr, rev_involutive, app_nil_r in HI. cbn [rev] in HI. rewrite rev_involutive, <- app_assoc in HI. cbn [app] in HI.
  fold h in HI.
  rewrite foldM_app in HF. destruct (foldM _ (rev h1) _) as [[H1 s1]| |] eqn:E1; cbn [bind] in HF; try discriminate.
  cbn [foldM] in HF.
  pose proof (inv_history _ _ _ _ _ _ _ _ _ _ (inv_init B) E1) as HI1. rewrite rev_involutive, app_nil_r in HI1.
  assert (HS1 : seen false B H1 s1 (Some w)).
  { eapply seen_of; [exact HI1|]. exists a1. split; [auto|split; [auto|discriminate]]. }
  destruct HI1 as (_ & _ & _ & HFR & HB1).
  destruct (backend_seen false assemble B setup precondition solver H1 s1 (Some w) z1 r1 HS1 HB1) as (c1 & Ec1 & _ & EB1).
  specialize (Ec1 (HFR Hfr)). subst c1.
  cbn [step] in HF. rewrite EB1 in HF. cbn [bind fst] in HF.
  destruct (cache_history false assemble B setup precondition solver (rev h2) _ _ (setup (Some w)) (Forall_rev HD) HF eq_refl eq_refl)
    as [Hr Hc]. cbn [snd] in Hr, Hc.
  assert (HS : seen false B H s (Some u)).
  { eapply seen_of; [exact HI|]. exists a. split; [auto|split; [auto|discriminate]]. }
  destruct HI as (_ & _ & _ & _ & HB).
  destruct (backend_seen false assemble B setup precondition solver H s (Some u) z r HS HB) as (c & _ & Hc' & E).
  specialize (Hc' Hr). assert (c = setup (Some w)) by congruence. subst c. eauto.
Qed.
Print Assumptions c177_blocks.

(** A first solve, or one after a demand, uses blocks at the present point. *)
Theorem c177_fresh assemble B (setup : option vec -> B) precondition solver h H s a u z r :
  foldM (step false assemble B setup precondition solver) (rev h) (nothing, init) = Ok (H, s) ->
  fresh h -> last_point h = Some a -> content h a = Some u ->
  exists s', backend_apply false assemble B setup precondition solver H s z r =
    Ok (s', result (assemble (Some u)) (precondition (setup (Some u)) (Some u)) (solver z r)).
Proof.
  intros HF Hfr HL HC. pose proof (inv_history _ _ _ _ _ _ _ _ _ _ (inv_init B) HF) as HI.
  rewrite rev_involutive, app_nil_r in HI.
  assert (HS : seen false B H s (Some u)).
  { eapply seen_of; [exact HI|]. exists a. split; [auto|split; [auto|discriminate]]. }
  destruct HI as (_ & _ & _ & HFR & HB).
  destruct (backend_seen false assemble B setup precondition solver H s (Some u) z r HS HB) as (c & Hc & _ & E).
  rewrite (Hc (HFR Hfr)) in E. eauto.
Qed.
Print Assumptions c177_fresh.

(** A nonlinear problem without a point is refused, whatever was done before. *)
Theorem c177_refused assemble B (setup : option vec -> B) precondition solver h H s z r :
  foldM (step false assemble B setup precondition solver) (rev h) (nothing, init) = Ok (H, s) ->
  last_point h = None ->
  backend_apply false assemble B setup precondition solver H s z r = Throw /\
  (forall x y, fly_apply false assemble H (op_point s) x y = Throw) /\
  (forall alpha x y, fly_applyscaleadd false assemble H (op_point s) alpha x y = Throw).
Proof.
  intros HF HL. pose proof (inv_history _ _ _ _ _ _ _ _ _ _ (inv_init B) HF) as HI.
  rewrite rev_involutive, app_nil_r in HI. destruct HI as (_ & HO & HP & _). rewrite HL in *.
  unfold backend_apply, pre, fly_apply, fly_applyscaleadd. rewrite HO, HP. cbn. auto.
Qed.
Print Assumptions c177_refused.

(** Linear problems need no point and always use the matrix and its blocks. *)
Theorem c177_linear assemble B (setup : option vec -> B) precondition solver h H s z r :
  foldM (step true assemble B setup precondition solver) (rev h) (nothing, init) = Ok (H, s) ->
  exists s', backend_apply true assemble B setup precondition solver H s z r =
    Ok (s', result (assemble None) (precondition (setup None) None) (solver z r)).
Proof.
  intros HF. pose proof (inv_history _ _ _ _ _ _ _ _ _ _ (inv_init B) HF) as HI.
  rewrite rev_involutive, app_nil_r in HI. destruct HI as (_ & _ & _ & _ & HB).
  destruct (backend_seen true assemble B setup precondition solver H s None z r eq_refl HB) as (c & Hc1 & Hc2 & E).
  exists (State (op_point s) (prec_point s) false (Some c)). rewrite E. do 3 f_equal.
  destruct (require_setup s) eqn:Er; [now rewrite (Hc1 eq_refl)|].
  assert (K : forall l (Hs Hs' : store * state B),
    (forall c, cache (snd Hs) = Some c -> c = setup None) ->
    foldM (step true assemble B setup precondition solver) l Hs = Ok Hs' ->
    (forall c, cache (snd Hs') = Some c -> c = setup None)).
  { induction l as [|o l IH]; intros Hs Hs' HK; cbn [foldM]; [now intros [= <-]|].
    destruct (step _ _ _ _ _ _ Hs o) as [Hs1| |] eqn:Es; cbn [bind]; try discriminate.
    apply IH. destruct Hs as [H0 s0]. destruct o as [b v|b|b| |z0 r0]; cbn [step] in Es.
    - injection Es as <-. exact HK.
    - injection Es as <-. exact HK.
    - destruct (H0 b); [|discriminate]. injection Es as <-. exact HK.
    - injection Es as <-. exact HK.
    - unfold backend_apply in Es. destruct (pre true B setup H0 s0) as [s1| |] eqn:Ep; cbn [bind] in Es; try discriminate.
      destruct (run _ _ _ _ H0 s1 _); cbn [bind] in Es; try discriminate. injection Es as <-. cbn [snd fst].
      unfold pre in Ep. cbn [negb andb] in Ep. destruct (require_setup s0); cbn [bind] in Ep; injection Ep as <-; cbn [cache].
      + congruence.
      + exact HK. }
  rewrite (K _ _ _ (fun c (E0 : cache (snd (nothing, @init B)) = Some c) => ltac:(discriminate E0)) HF c (Hc2 eq_refl)). reflexivity.
Qed.
Print Assumptions c177_linear.

(** Newton's method with a new backend: every correction is computed with the Jacobian at the current iterate, but with
    blocks of the preconditioner at the initial guess. *)
Theorem c177_newton assemble B (setup : option vec -> B) precondition solver residual H a u0 n :
  H a = Some u0 ->
  let x := iterate assemble setup precondition solver residual u0 u0 in
  exists s, newton_steps false assemble B setup precondition solver residual n a (H, init) = Ok (put H a (Some (x n)), s).
Proof.
  intros Hu x. destruct n as [|n].
  - exists init. cbn. f_equal. f_equal. apply functional_extensionality. intro b. unfold put.
    destruct (b =? a) eqn:E; [|reflexivity]. apply Nat.eqb_eq in E. now subst.
  - exists (State (Some a) (Some a) false (Some (setup (Some u0)))).
    induction n as [|n IH].
    + cbn [newton_steps bind]. unfold newton_step, deref. rewrite Hu. cbn [bind].
      destruct (backend_seen false assemble B setup precondition solver H (set_linearization_point B a init) (Some u0) zero_vec (residual u0))
        as (c & Hc & _ & E); [exists a, u0; auto|discriminate|].
      rewrite E. cbn [bind]. rewrite (Hc eq_refl). f_equal. f_equal. f_equal. f_equal.
      unfold x; cbn [iterate]. apply functional_extensionality. intro i. unfold axpy. ring.
    + change (newton_steps false assemble B setup precondition solver residual (S (S n)) a (H, init)) with
        (let* Hs := newton_steps false assemble B setup precondition solver residual (S n) a (H, init) in
         newton_step false assemble B setup precondition solver residual a Hs).
      rewrite IH. cbn [bind]. unfold newton_step, deref. unfold put at 1. rewrite Nat.eqb_refl. cbn [bind].
      set (H' := put H a (Some (x (S n)))).
      destruct (backend_seen false assemble B setup precondition solver H'
        (set_linearization_point B a (State (Some a) (Some a) false (Some (setup (Some u0))))) (Some (x (S n))) zero_vec (residual (x (S n))))
        as (c & _ & Hc & E).
      { exists a, (x (S n)). unfold H', put. rewrite Nat.eqb_refl. auto. }
      { discriminate. }
      rewrite E. cbn [bind]. specialize (Hc eq_refl). cbn in Hc. injection Hc as <-. cbn [op_point prec_point set_linearization_point].
      f_equal. f_equal. apply functional_extensionality. intro b. unfold H', put. destruct (b =? a); [|reflexivity].
      f_equal. unfold x. apply functional_extensionality. intro i. unfold axpy. cbn [iterate]. ring.
Qed.
Print Assumptions c177_newton.

(** So with a solver that is right for the Jacobians it is Newton's method. *)
Corollary c177_newton_right assemble B (setup : option vec -> B) precondition solver residual H a u0 n :
  H a = Some u0 ->
  let x := iterate assemble setup precondition solver residual u0 u0 in
  (forall P, assemble (Some (x n)) (result (assemble (Some (x n))) P (solver zero_vec (residual (x n)))) = residual (x n)) ->
  exists s s' v v', newton_steps false assemble B setup precondition solver residual n a (H, init) = Ok (put H a (Some v), s) /\
    newton_steps false assemble B setup precondition solver residual (S n) a (H, init) = Ok (put H a (Some v'), s') /\
    assemble (Some v) (fun i => v i - v' i)%R = residual v.
Proof.
  intros Hu x HS.
  destruct (c177_newton assemble B setup precondition solver residual H a u0 n Hu) as (s & E).
  destruct (c177_newton assemble B setup precondition solver residual H a u0 (S n) Hu) as (s' & E').
  exists s, s', (x n), (x (S n)). split; [exact E|]. split; [exact E'|].
  etransitivity; [|apply (HS (precondition (setup (Some u0)) (Some (x n))))]. f_equal.
  apply functional_extensionality. intro i. unfold x. cbn [iterate]. ring.
Qed.
Print Assumptions c177_newton_right.

(** ** A concrete case: u_i^2 = 2 with diagonal Jacobian 2 u_i, a solver that divides, blocks 2 u_0 *)
Definition a177 (u : option vec) (x : vec) : vec := fun i => match u with Some u => (2 * u i * x i)%R | None => x i end.
Definition setup177 (u : option vec) : R := match u with Some u => (2 * u 0%nat)%R | None => 1%R end.
Definition prec177 (c : R) (_ : option vec) (d : vec) : vec := fun i => (d i / c)%R.
Definition solver177 (z r : vec) : prog := CallApply (fun _ => 1%R) (fun y => CallPrec r (fun _ => Return (fun i => r i / y i)%R)).
Definition residual177 (u : vec) : vec := fun i => (u i * u i - 2)%R.
Definition one177 : vec := fun _ => 1%R.
Definition steps177 n := newton_steps false a177 R setup177 prec177 solver177 residual177 n 0 (put nothing 0 (Some one177), init).

Example c177_meets :
  let h := [SetPoint 5; Write 5 (fun _ => 3%R); Demand; Write 4 one177] in
  (exists H s, foldM (step false a177 R setup177 prec177 solver177) (rev h) (nothing, init) = Ok (H, s)) /\
  last_point h = Some 5 /\ content h 5 = Some (fun _ => 3%R) /\ fresh h /\
  (forall P r, a177 (Some (fun _ => 3%R)) (result (a177 (Some (fun _ => 3%R))) P (solver177 zero_vec r)) = r) /\
  (exists s v, steps177 1 = Ok (put (put nothing 0 (Some one177)) 0 (Some v), s) /\ v 0%nat = (3 / 2)%R).
Proof.
  cbn zeta. split; [eexists; eexists; reflexivity|]. split; [reflexivity|]. split; [reflexivity|]. split; [cbn; auto|].
  split.
  - intros P r. apply functional_extensionality. intro i. cbn. unfold a177. field.
  - destruct (c177_newton a177 R setup177 prec177 solver177 residual177 (put nothing 0 (Some one177)) 0 one177 1 eq_refl) as (s & E).
    exists s. eexists. split; [exact E|]. cbn. unfold residual177, a177, one177. field.
Qed.

(** After one Newton step the preconditioner still divides by the diagonal at the initial guess, 2, and not by the
    diagonal of the Jacobian that is applied, 3: nobody demands a new setup. *)
Theorem c177_stale_refuted :
  exists H s s' v, steps177 1 = Ok (H, s) /\ H 0 = Some v /\
    pre false R setup177 H (set_linearization_point R 0 s) = Ok s' /\
    (exists y, fly_apply false a177 H (op_point s') one177 zero_vec = Ok y /\ y 0 = 3%R) /\
    (exists y, prec_apply false R prec177 H s' (fun _ => 3%R) zero_vec = Ok y /\ y 0 = (3 / 2)%R) /\
    prec177 (setup177 (Some v)) (Some v) (fun _ => 3%R) 0 = 1%R.
Proof.
  unfold steps177. cbn [newton_steps bind]. unfold newton_step.
  change (deref (put nothing 0 (Some one177)) 0) with (Ok one177). cbn [bind].
  destruct (backend_seen false a177 R setup177 prec177 solver177 (put nothing 0 (Some one177)) (set_linearization_point R 0 init) (Some one177) zero_vec (residual177 one177))
    as (c & Hc & _ & E); [exists 0, one177; auto|discriminate|].
  rewrite E. cbn [bind]. specialize (Hc eq_refl). subst c.
  eexists; eexists; eexists; eexists. split; [reflexivity|]. split; [reflexivity|]. split; [reflexivity|].
  split; [eexists; split; [reflexivity|]|split; [eexists; split; [reflexivity|]|]]; cbn;
    unfold a177, prec177, setup177, zero_vec, axpy, residual177, one177; cbn; field.
Qed.
Print Assumptions c177_stale_refuted.

(** The point is kept by address: overwriting the vector moves the point without a call, and a vector that is destroyed
    before the solve leaves a dangling pointer. *)
Theorem c177_address_refuted :
  (exists H s, foldM (step false a177 R setup177 prec177 solver177)
     [Write 0 one177; SetPoint 0; Write 0 (fun _ => 2%R)] (nothing, init) = Ok (H, s) /\
     exists y, fly_apply false a177 H (op_point s) one177 zero_vec = Ok y /\ y 0 = 4%R /\ a177 (Some one177) one177 0 = 2%R) /\
  (forall assemble B (setup : option vec -> B) precondition solver u z r,
     foldM (step false assemble B setup precondition solver)
       [Write 0 u; SetPoint 0; Free 0; Solve z r] (nothing, init) = UB).
Proof.
  split.
  - eexists; eexists. split; [reflexivity|]. eexists. split; [reflexivity|]. cbn. unfold a177, zero_vec, one177. split; ring.
  - reflexivity.
Qed.
Print Assumptions c177_address_refuted.
