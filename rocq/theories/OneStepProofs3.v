(** Coefficients of the shipped schemes, and concrete operators for the examples and counterexamples. *)
From Coq Require Import FunctionalExtensionality.
From Verif Require Import DriverProofs RKSpec RKProofs2 RKProofs3 EngineProofs EngineProofs2 EngineProofs3 OneStepSpec OneStepProofs OneStepProofs2.
Local Open Scope R_scope.

Lemma big_true v : / 1000000 < Rabs v -> big v = true.
Proof. unfold big. destruct (Rlt_dec _ _); [reflexivity|contradiction]. Qed.
Lemma big_false v : Rabs v <= / 1000000 -> big v = false.
Proof. unfold big. destruct (Rlt_dec _ _); [lra|reflexivity]. Qed.
Lemma zb_pos v : 1/1000 <= v -> zero_or_big v.
Proof. intros. right. rewrite Rabs_right; lra. Qed.
Lemma zb_neg v : v <= -1/1000 -> zero_or_big v.
Proof. intros. right. rewrite Rabs_left; lra. Qed.
Lemma zb_zero : zero_or_big 0. Proof. now left. Qed.

Lemma sqrt2_bounds : 1.4 <= sqrt 2 <= 1.42.
Proof.
  assert (S : sqrt 2 * sqrt 2 = 2) by (apply sqrt_sqrt; lra). pose proof (sqrt_pos 2). split; nra.
Qed.

Definition scheme_ok (T : tab) : Prop := forall r, (1 <= r <= stages T)%nat -> coefficients_ok T r.

Ltac zb := first [exact zb_zero | apply zb_pos; lra | apply zb_neg; lra].
Ltac walk i := first [exfalso; lia | let j := fresh "j" in destruct i as [|j]; [unfold a, b; cbn; split; zb | walk j]].
Ltac table :=
  intros r Hr; cbn in Hr; destruct r as [|r]; [exfalso; lia|];
  repeat (destruct r as [|r]; [|try (exfalso; lia)]);
  (split; [unfold a; cbn; lra|]); intros i Hi;
  walk i.

Lemma theta_ok th : zero_or_big th -> zero_or_big (1 - th) -> scheme_ok (one_step_theta th).
Proof.
  intros H H' r Hr. cbn in Hr. assert (r = 1)%nat by lia. subst r. split; [reflexivity|]. intros [|[|i]] Hi; [| |lia]; cbn; split; try zb; assumption.
Qed.
Lemma heun_ok : scheme_ok heun. Proof. table. Qed.
Lemma shu3_ok : scheme_ok shu3. Proof. table. Qed.
Lemma rk4_ok : scheme_ok rk4. Proof. table. Qed.
Lemma alexander2_ok : scheme_ok alexander2. Proof. pose proof sqrt2_bounds. table. Qed.
Lemma fractional_step_ok : scheme_ok fractional_step.
Proof.
  pose proof sqrt2_bounds as S. unfold fractional_step. cbn zeta.
  assert (S2 : sqrt 2 * sqrt 2 = 2) by (apply sqrt_sqrt; lra).
  replace ((1 - (2 - sqrt 2)) * (1 - 0.5 * sqrt 2)) with (1.5 * sqrt 2 - 2) by nra.
  replace ((2 - sqrt 2) * (1 - 0.5 * sqrt 2)) with (3 - 2 * sqrt 2) by nra.
  replace ((2 - sqrt 2) * (1 - 2 * (1 - 0.5 * sqrt 2))) with (3 * sqrt 2 - 4) by nra.
  assert (1.41 <= sqrt 2) by nra. table.
Qed.
Lemma alexander3_ok : scheme_ok alexander3.
Proof.
  unfold alexander3. destruct alexander3_alpha_residual as [[L U] _].
  revert L U. generalize alexander3_alpha. intros x L U. unfold alexander3_of. cbn zeta.
  set (b1 := - (6 * x * x - 16 * x + 1) * 0.25). set (b2 := (6 * x * x - 20 * x + 5) * 0.25).
  assert (1 <= b1) by (unfold b1; nra). assert (b2 <= - 0.1) by (unfold b2; nra).
  table.
Qed.

(** ** Concrete operators, one DOF per cell *)
Definition one_cell : list cell := [mkcell 5 []].
Definition plain : env := fst (no_skip false).
Definition no_terms : terms R :=
  mkterms R false false false false false false false false false
    (fun _ _ _ => vzero) (fun _ _ => vzero) (fun _ _ _ _ _ _ => (vzero, vzero)) (fun _ _ _ _ => (vzero, vzero))
    (fun _ _ _ _ _ => vzero) (fun _ _ _ _ => vzero) (fun _ _ _ => vzero) (fun _ _ => vzero).
(** the identity as mass operator *)
Definition mass : terms R :=
  mkterms R true false false false false false false false false
    (fun _ _ x => x) (fun _ _ => vzero) (fun _ _ _ _ _ _ => (vzero, vzero)) (fun _ _ _ _ => (vzero, vzero))
    (fun _ _ _ _ _ => vzero) (fun _ _ _ _ => vzero) (fun _ _ _ => vzero) (fun _ _ => vzero).
Definition mass_j : jterms :=
  mkjterms (fun _ _ _ i j => if (i =? j)%nat then 1 else 0) (fun _ _ _ _ _ _ => ((mzero, mzero), (mzero, mzero)))
    (fun _ _ _ _ _ => mzero) (fun _ _ _ => mzero).
(** the same as a post-skeleton term *)
Definition mass_post : terms R :=
  mkterms R false false false false false false true false false
    (fun _ _ _ => vzero) (fun _ _ => vzero) (fun _ _ _ _ _ _ => (vzero, vzero)) (fun _ _ _ _ => (vzero, vzero))
    (fun _ _ _ _ _ => vzero) (fun _ _ _ _ => vzero) (fun _ _ x => x) (fun _ _ => vzero).
(** a mass operator without face terms that asks for both sides *)
Definition mass_two : terms R :=
  mkterms R true false false false false false false false true
    (fun _ _ x => x) (fun _ _ => vzero) (fun _ _ _ _ _ _ => (vzero, vzero)) (fun _ _ _ _ => (vzero, vzero))
    (fun _ _ _ _ _ => vzero) (fun _ _ _ _ => vzero) (fun _ _ _ => vzero) (fun _ _ => vzero).
(** a source: the time *)
Definition clock_source : terms R :=
  mkterms R false true false false false false false false false
    (fun _ _ _ => vzero) (fun _ t _ => t) (fun _ _ _ _ _ _ => (vzero, vzero)) (fun _ _ _ _ => (vzero, vzero))
    (fun _ _ _ _ _ => vzero) (fun _ _ _ _ => vzero) (fun _ _ _ => vzero) (fun _ _ => vzero).

Lemma zero_on_once D : constrains_once (zero_on D).
Proof. intros u v. apply functional_extensionality; intros i. unfold zero_on, vadd. destruct (D i); reflexivity. Qed.
Lemma id_once : constrains_once (fun v => v). Proof. intros u v. reflexivity. Qed.

Lemma mass_linear : linear_mass one_dof mass mass_j.
Proof.
  unfold linear_mass. repeat (split; [reflexivity|]). intros c t x y i I. cbn in I. assert (i = O) by lia. subst. unfold mv. cbn. lra.
Qed.

(** a coefficient of 10^-7 is dropped *)
Lemma tiny_dropped : let T := one_step_theta (/ 10000000) in let o := pre_step MultiplyOperator0ByDT T 0 1 1 in
  let us := fun (_ _ : nat) => 1 in
  stage_residual one_dof reaction_jump mass (fun v => v) plain one_cell o
    (pre_stage one_dof reaction_jump mass (fun v => v) plain one_cell o us ((mkla 0 0, blank), (mkla 0 0, blank))) (blank, blank) (us 1%nat) vzero O
  <> stage_formula one_dof reaction_jump mass plain one_cell o us O.
Proof.
  cbn zeta. rewrite stage_residual_value, pre_stage_value. unfold stage_formula, implicit_stage, time_at.
  cbn [pre_step OneStepModel.T stage f0 f1 t0 dt lsum seq fold_right].
  rewrite (big_false (b (one_step_theta (/ 10000000)) 1 1)) by (cbn; rewrite Rabs_right; lra).
  rewrite (big_true (b (one_step_theta (/ 10000000)) 1 0)) by (cbn; rewrite Rabs_right; lra).
  rewrite (big_true (a (one_step_theta (/ 10000000)) 1 0)) by (cbn; rewrite Rabs_left; lra).
  unfold operator_value, cell_value, a, b, d. cbn. unfold vzero. lra.
Qed.

(** a post-skeleton term of the temporal operator is dropped in the current stage *)
Lemma post_dropped : let o := pre_step MultiplyOperator0ByDT implicit_euler 0 1 1 in
  let us := fun (i _ : nat) => INR i in
  stage_residual one_dof no_terms mass_post (fun v => v) plain one_cell o
    (pre_stage one_dof no_terms mass_post (fun v => v) plain one_cell o us ((mkla 0 0, blank), (mkla 0 0, blank))) (blank, blank) (us 1%nat) vzero O = 0
  /\ stage_formula one_dof no_terms mass_post plain one_cell o us O = 1.
Proof.
  cbn zeta. rewrite stage_residual_value, pre_stage_value. unfold stage_formula, implicit_stage, time_at.
  cbn [pre_step OneStepModel.T stage f0 f1 t0 dt lsum seq fold_right].
  rewrite (big_true (b implicit_euler 1 1)) by (cbn; rewrite Rabs_right; lra).
  rewrite (big_false (b implicit_euler 1 0)) by (cbn; rewrite Rabs_right; lra).
  rewrite (big_true (a implicit_euler 1 0)) by (cbn; rewrite Rabs_left; lra).
  unfold operator_value, cell_value, a, b, d. cbn. unfold vzero. lra.
Qed.

(** the temporal operator asks for both sides: the spatial one sees every face twice *)
Lemma seen_twice : let o := pre_step MultiplyOperator0ByDT implicit_euler 0 1 1 in
  let us := fun (i g : nat) => if (i =? 1)%nat && (g =? 1)%nat then 1 else 0 in
  stage_residual one_dof reaction_jump mass_two (fun v => v) plain strip o
    (pre_stage one_dof reaction_jump mass_two (fun v => v) plain strip o us ((mkla 0 0, blank), (mkla 0 0, blank))) (blank, blank) (us 1%nat) vzero O = -2
  /\ stage_formula one_dof reaction_jump mass_two plain strip o us O = -1.
Proof.
  cbn zeta. rewrite stage_residual_value, pre_stage_value. unfold stage_formula, implicit_stage, time_at.
  cbn [pre_step OneStepModel.T stage f0 f1 t0 dt lsum seq fold_right].
  rewrite (big_true (b implicit_euler 1 1)) by (cbn; rewrite Rabs_right; lra).
  rewrite (big_false (b implicit_euler 1 0)) by (cbn; rewrite Rabs_right; lra).
  rewrite (big_true (a implicit_euler 1 0)) by (cbn; rewrite Rabs_left; lra).
  unfold operator_value, cell_value, a, b, d. cbn. unfold Nat.ltb. cbn. unfold vzero. lra.
Qed.

(** the time controller reduces dt from 2 to 1 after the first stage of Heun's method: the second stage evaluates the
    source at time 2 instead of 1 *)
Definition jblank : jest := mkjest mzero mzero mzero mzero vzero vzero ([],[]) ([],[]) ([],[]) ([],[]) [] [] vzero.
Definition late : nat -> vec := fun i _ => match i with O => 0 | 1%nat => 0 | _ => -1 end.
Lemma reduced_step :
  (let '(D, rhs) := explicit_system one_dof clock_source mass mass_j (fun v => v) plain one_cell (pre_step DoNotAssembleDT heun 0 2 2) late
      ((mkla 0 0, blank), (mkla 0 0, blank)) jblank 1 in
   forall g, mv 3 D (late 2%nat) g = rhs g) /\
  stage_formula one_dof clock_source mass plain one_cell (pre_step MultiplyOperator0ByDT heun 0 1 2) late O <> 0.
Proof.
  split.
  - pose proof (explicit_parts one_dof clock_source mass mass_j (fun v => v) plain one_cell (pre_step DoNotAssembleDT heun 0 2 2) late
      ((mkla 0 0, blank), (mkla 0 0, blank)) jblank mzero mass_linear) as P.
    unfold explicit_system. destruct (explicit_jacobian_residual _ _ _ _ _ _ _ _ _ _ _ _) as [[D al] be].
    destruct P as (PD & -> & ->). intros g. unfold mv, nsum, vadd, vscal. rewrite !PD.
    cbn [pre_step OneStepModel.T stage f0 f1 t0 dt lsum seq fold_right].
    rewrite (big_true (b heun 2 1)) by (cbn; rewrite Rabs_right; lra).
    rewrite (big_false (b heun 2 0)) by (cbn; rewrite Rabs_right; lra).
    rewrite (big_true (a heun 2 0)) by (cbn; rewrite Rabs_left; lra).
    rewrite (big_true (a heun 2 1)) by (cbn; rewrite Rabs_left; lra).
    unfold jacobian_value, cell_jac, operator_value, cell_value, a, b, d, mscatter, time_at, mzero, late, d. cbn.
    unfold vzero. destruct g; cbn; unfold mzero; lra.
  - unfold stage_formula. cbn [pre_step OneStepModel.T stage f0 f1 t0 dt lsum seq fold_right].
    unfold operator_value, cell_value, a, b, d, late. cbn. unfold vzero. lra.
Qed.

(** with the step size unchanged, the stage of the example solves the stage equation *)
Lemma unchanged_step :
  (let '(D, rhs) := explicit_system one_dof clock_source mass mass_j (fun v => v) plain one_cell (pre_step DoNotAssembleDT heun 0 1 2)
      (fun i => if (i =? 2)%nat then vzero else late i) ((mkla 0 0, blank), (mkla 0 0, blank)) jblank 1 in
   forall g, mv 3 D (fun _ => -0.5) g = rhs g) /\
  dofs_below 3 one_dof /\ linear_mass one_dof mass mass_j /\ coefficients_ok heun 2 /\ b heun 2 2 = 0.
Proof.
  split; [|split; [apply engine_meets|split; [exact mass_linear|split; [apply heun_ok; cbn; lia|reflexivity]]]].
  pose proof (explicit_parts one_dof clock_source mass mass_j (fun v => v) plain one_cell (pre_step DoNotAssembleDT heun 0 1 2)
      (fun i => if (i =? 2)%nat then vzero else late i) ((mkla 0 0, blank), (mkla 0 0, blank)) jblank mzero mass_linear) as P.
  unfold explicit_system. destruct (explicit_jacobian_residual _ _ _ _ _ _ _ _ _ _ _ _) as [[D al] be].
  destruct P as (PD & -> & ->). intros g. unfold mv, nsum, vadd, vscal. rewrite !PD.
  cbn [pre_step OneStepModel.T stage f0 f1 t0 dt lsum seq fold_right].
  rewrite (big_true (b heun 2 1)) by (cbn; rewrite Rabs_right; lra).
  rewrite (big_false (b heun 2 0)) by (cbn; rewrite Rabs_right; lra).
  rewrite (big_true (a heun 2 0)) by (cbn; rewrite Rabs_left; lra).
  rewrite (big_true (a heun 2 1)) by (cbn; rewrite Rabs_left; lra).
  unfold jacobian_value, cell_jac, operator_value, cell_value, a, b, d, mscatter, time_at, mzero, late, d. cbn.
  unfold vzero. destruct g; cbn; unfold mzero; lra.
Qed.

(** ** Dirichlet constraints *)
Lemma row_product_mv N D x g : row_product N D x g = mv N D x g.
Proof. unfold row_product, mv. induction N as [|N IH]; [reflexivity|]. rewrite seq_S, fold_left_app. cbn. rewrite IH. reflexivity. Qed.
Lemma mv_unit N K m z g : K g = true -> (g < N)%nat -> mv N (trivial_rows K m) z g = z g.
Proof.
  intros Hk Hg. unfold mv, trivial_rows. rewrite Hk.
  assert (E : forall n, nsum n (fun h => (if (g =? h)%nat then 1 else 0) * z h) = if (g <? n)%nat then z g else 0).
  { induction n as [|n IH]; [reflexivity|]. cbn [nsum]. rewrite IH. destruct (Nat.eqb_spec g n) as [->|Ne].
    - rewrite (proj2 (Nat.ltb_ge _ _)), (proj2 (Nat.ltb_lt _ _)) by lia. lra.
    - destruct (Nat.ltb_spec g n), (Nat.ltb_spec g (S n)); try lia; lra. }
  rewrite E. now rewrite (proj2 (Nat.ltb_lt _ _)).
Qed.
Lemma mv_free N K m z g : K g = false -> mv N (trivial_rows K m) z g = mv N m z g.
Proof. intros Hk. unfold mv, trivial_rows. now rewrite Hk. Qed.
Lemma mv_minus N m x y g : mv N m (fun h => x h - y h) g = mv N m x g - mv N m y g.
Proof. unfold mv. induction N as [|N IH]; cbn [nsum]; [lra|]. rewrite IH. lra. Qed.

Lemma dirichlet_derivative N K G L0 L1 J0 J1 e cells m T t h r const p q x z r0 g :
  dofs_below N G -> local_derivatives G L0 J0 -> local_derivatives G L1 J1 ->
  let o := pre_step m T t h r in
  let F := stage_residual G L0 L1 (zero_on K) e cells o const p in
  let A := dirichlet_jacobian K G L0 L1 J0 J1 e cells o q x mzero in
  (K g = false -> derivable_pt_lim (fun s => F (along x z s) r0 g) 0 (mv N A z g)) /\
  (K g = true -> (forall y, F y r0 g = 0) /\ ((g < N)%nat -> mv N A z g = z g)).
Proof.
  intros DB D0 D1 o F A. split; intros Hk.
  - unfold A, dirichlet_jacobian. rewrite mv_free by exact Hk.
    replace (fun s => F (along x z s) r0 g) with (fun s => stage_residual G L0 L1 (fun v => v) e cells o const p (along x z s) r0 g).
    + now apply stage_derivative.
    + apply functional_extensionality. intros s. unfold F, stage_residual, zero_on. rewrite Hk. reflexivity.
  - split; [intros y; unfold F, stage_residual, zero_on; now rewrite Hk|]. intros Hg. now apply mv_unit.
Qed.
Lemma dirichlet_product N K G L0 L1 J0 J1 LA0 LA1 e cells m T t h r p q x z r0 g :
  dofs_below N G -> local_apply G L0 J0 LA0 -> local_apply G L1 J1 LA1 ->
  let o := pre_step m T t h r in
  let y := dirichlet_apply K G LA0 LA1 e cells o p x z r0 in
  let A := dirichlet_jacobian K G L0 L1 J0 J1 e cells o q x mzero in
  (K g = false -> y g = r0 g + mv N A z g) /\ (K g = true -> y g = 0).
Proof.
  intros DB A0 A1 o y A. split; intros Hk; unfold y, dirichlet_apply, zero_on; rewrite Hk; [|reflexivity].
  unfold A, dirichlet_jacobian. rewrite mv_free by exact Hk. now apply stage_apply_product.
Qed.

Lemma boundary_stage N K G L0 L1 J1 e cells T t h r us p j values guess solve :
  dofs_below N G -> linear_mass G L1 J1 -> coefficients_ok T r -> b T r r = 0 ->
  let o := pre_step DoNotAssembleDT T t h r in
  (let '(D, _) := dirichlet_system K G L0 L1 J1 e cells o (fun i => if (i =? r)%nat then (fun g => if K g then values g else guess g) else us i) p j h in
     forall v g, (g < N)%nat -> mv N D (solve D v) g = v g) ->
  us r = explicit_boundary_stage N K G L0 L1 J1 e cells o us p j h values guess solve ->
  forall g, (g < N)%nat -> (K g = true -> us r g = values g) /\
    (K g = false -> stage_formula G L0 L1 e cells (pre_step MultiplyOperator0ByDT T t h r) us g = 0).
Proof.
  intros DB M HK B0 o HS E g Hg. unfold explicit_boundary_stage in E. cbv zeta in E.
  set (x := fun g => if K g then values g else guess g) in *. unfold dirichlet_system in E, HS. change (stage o) with r in E.
  destruct (explicit_system G L0 L1 J1 (zero_on K) e cells o (fun i => if (i =? r)%nat then x else us i) p j h) as [D rhs] eqn:S. cbv beta iota in E.
  set (res := zero_on K (fun g => row_product N (trivial_rows K D) x g - rhs g)) in E. pose proof (HS res g Hg) as R.
  split; intros Hk.
  - rewrite mv_unit in R by auto. rewrite E. cbv beta. rewrite R. unfold res, zero_on, x. rewrite Hk. lra.
  - apply (explicit_stage_row N G L0 L1 J1 (zero_on K) e cells T t h r us p j x g DB M HK B0); [intros v; unfold zero_on; now rewrite Hk|].
    cbv zeta. fold o. rewrite S. unfold res in R at 2. unfold zero_on in R at 1. rewrite Hk, row_product_mv, !mv_free in R by exact Hk.
    rewrite E. rewrite mv_minus, R. fold x. ring.
Qed.

(** A Dirichlet DOF with value zero under a constant source: the variant without boundary values moves it. *)
Definition unit_source : terms R :=
  mkterms R false true false false false false false false false
    (fun _ _ _ => vzero) (fun _ _ _ => 1) (fun _ _ _ _ _ _ => (vzero, vzero)) (fun _ _ _ _ => (vzero, vzero))
    (fun _ _ _ _ _ => vzero) (fun _ _ _ _ => vzero) (fun _ _ _ => vzero) (fun _ _ => vzero).
Lemma plain_moves : let o := pre_step DoNotAssembleDT explicit_euler 0 1 1 in
  explicit_plain_stage (fun _ => true) one_dof unit_source mass mass_j plain one_cell o (fun _ => vzero) ((mkla 0 0, blank), (mkla 0 0, blank)) jblank 1
    (fun _ v => v) O <> 0 /\
  (let '(D, rhs) := dirichlet_system (fun _ => true) one_dof unit_source mass mass_j plain one_cell o (fun _ => vzero) ((mkla 0 0, blank), (mkla 0 0, blank)) jblank 1 in
     forall v g, (g < 3)%nat -> mv 3 D v g = v g).
Proof.
  cbv zeta. unfold explicit_plain_stage, dirichlet_system, explicit_system.
  pose proof (explicit_parts one_dof unit_source mass mass_j (zero_on (fun _ => true)) plain one_cell (pre_step DoNotAssembleDT explicit_euler 0 1 1) (fun _ => vzero)
      ((mkla 0 0, blank), (mkla 0 0, blank)) jblank mzero mass_linear) as P.
  destruct (explicit_jacobian_residual _ _ _ _ _ _ _ _ _ _ _ _) as [[D al] be]. destruct P as (PD & -> & ->). split.
  - unfold vadd, vscal, zero_on. cbn [pre_step OneStepModel.T stage f0 f1 t0 dt lsum seq fold_right].
    rewrite (big_true (b explicit_euler 1 0)) by (cbn; rewrite Rabs_right; lra).
    unfold operator_value, cell_value, a, b, d. cbn. unfold vzero. lra.
  - intros v g Hg. now apply mv_unit.
Qed.
(** One free DOF and two constrained ones *)
Lemma boundary_meets : let o := pre_step DoNotAssembleDT explicit_euler 0 1 1 in let K := fun g => (1 <=? g)%nat in
  let values := fun _ : nat => 7 in let guess := fun _ : nat => 5 in let solve := fun (_ : mat) (v : vec) g => if (g =? 0)%nat then - v g else v g in
  let us := fun i => if (i =? 1)%nat then (fun g => if (g =? 0)%nat then 2 else 7) else (fun _ => 3) : vec in
  dofs_below 3 one_dof /\ linear_mass one_dof mass mass_j /\ coefficients_ok explicit_euler 1 /\ b explicit_euler 1 1 = 0 /\
  let '(D, rhs) := dirichlet_system K one_dof unit_source mass mass_j plain one_cell o (fun i => if (i =? 1)%nat then (fun g => if K g then values g else guess g) else us i)
     ((mkla 0 0, blank), (mkla 0 0, blank)) jblank 1 in
  (forall v g, (g < 3)%nat -> mv 3 D (solve D v) g = v g) /\
  forall g, (g < 3)%nat -> us 1%nat g = explicit_boundary_stage 3 K one_dof unit_source mass mass_j plain one_cell o us ((mkla 0 0, blank), (mkla 0 0, blank)) jblank 1 values guess solve g.
Proof.
  cbv zeta. split; [apply engine_meets|]. split; [exact mass_linear|]. split; [apply theta_ok; [now left|right; rewrite Rabs_right; lra|cbn; lia]|]. split; [reflexivity|].
  unfold explicit_boundary_stage. cbv zeta. change (stage (pre_step DoNotAssembleDT explicit_euler 0 1 1)) with 1%nat.
  set (xs := fun i => if (i =? 1)%nat then _ else _).
  unfold dirichlet_system, explicit_system.
  pose proof (explicit_parts one_dof unit_source mass mass_j (zero_on (fun g => (1 <=? g)%nat)) plain one_cell (pre_step DoNotAssembleDT explicit_euler 0 1 1) xs
      ((mkla 0 0, blank), (mkla 0 0, blank)) jblank mzero mass_linear) as P.
  destruct (explicit_jacobian_residual _ _ _ _ _ _ _ _ _ _ _ _) as [[D al] be]. destruct P as (PD & -> & ->).
  assert (E : forall h, D O h = if (h =? 0)%nat then -1 else 0).
  { intros h. rewrite PD. unfold jacobian_value, cell_jac, mscatter, time_at, mzero. cbn. destruct h; cbn; unfold mzero, vzero; lra. }
  split.
  - intros v g Hg. unfold mv, trivial_rows. cbn [nsum]. destruct g as [|[|[|g]]]; [| | |lia]; cbn; rewrite ?E; cbn; lra.
  - intros g Hg. unfold row_product, zero_on, trivial_rows, vadd, vscal. cbn [pre_step OneStepModel.T stage f0 f1 t0 dt lsum seq fold_right fold_left].
    rewrite (big_true (b explicit_euler 1 0)) by (cbn; rewrite Rabs_right; lra).
    rewrite (big_true (a explicit_euler 1 0)) by (cbn; rewrite Rabs_left; lra).
    destruct g as [|[|[|g]]]; [| | |lia]; cbn; rewrite ?E; unfold operator_value, cell_value, a, b, d, xs; cbn; unfold vzero; lra.
Qed.
