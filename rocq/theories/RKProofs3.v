(** Linear test equation and table structure. *)
From Verif Require Import RKModel RKSpec RKProofs RKProofs2.
Local Open Scope R_scope.

Lemma shu3_linear : linear_order 3 shu3.
Proof.
  exists [1; 1; 1/2; 1/6], [1], []. split; [cbn; lra|]. split.
  - intros z. unfold exp_taylor. cbn. field.
  - intros l t h u Hu. stages_of Hu 3%nat. cbn.
    assert (U1 : u 1%nat tt = u 0%nat tt + h * l * u 0%nat tt) by nra.
    assert (U2 : u 2%nat tt = 3/4 * u 0%nat tt + 1/4 * u 1%nat tt + 1/4 * (h * l) * u 1%nat tt) by nra.
    assert (U3 : u 3%nat tt = 1/3 * u 0%nat tt + 2/3 * u 2%nat tt + 2/3 * (h * l) * u 2%nat tt) by nra.
    rewrite U3, U2, U1. field.
Qed.
Lemma rk4_linear : linear_order 4 rk4.
Proof.
  exists [1; 1; 1/2; 1/6; 1/24], [1], []. split; [cbn; lra|]. split.
  - intros z. unfold exp_taylor. cbn. field.
  - intros l t h u Hu. stages_of Hu 4%nat. cbn.
    assert (U1 : u 1%nat tt = u 0%nat tt + 1/2 * (h * l) * u 0%nat tt) by nra.
    assert (U2 : u 2%nat tt = u 0%nat tt + 1/2 * (h * l) * u 1%nat tt) by nra.
    assert (U3 : u 3%nat tt = u 0%nat tt + (h * l) * u 2%nat tt) by nra.
    assert (U4 : u 4%nat tt = u 0%nat tt + h * l * (1/6 * u 0%nat tt + 1/3 * u 1%nat tt + 1/3 * u 2%nat tt + 1/6 * u 3%nat tt)) by nra.
    rewrite U4, U3, U2, U1. field.
Qed.

Lemma alexander2_linear : linear_order 2 alexander2.
Proof.
  unfold alexander2. set (al := 1 - 0.5 * sqrt 2).
  assert (R : al * al = 2 * al - 1/2) by (unfold al; pose proof sqrt2_sq; nra). clearbody al.
  exists [1; 1 - 2 * al], [1; - 2 * al; al * al], [al - al * al; - (1/2) * (al * al)]. split; [cbn; lra|]. split.
  - intros z. unfold exp_taylor. cbn. rewrite !R. field.
  - intros l t h u Hu. stages_of Hu 2%nat. cbn.
    assert (U1 : u 1%nat tt - al * (h * l) * u 1%nat tt = u 0%nat tt) by nra.
    assert (U2 : u 2%nat tt - al * (h * l) * u 2%nat tt = u 0%nat tt + (1 - al) * (h * l) * u 1%nat tt) by nra.
    transitivity ((1 - al * (h * l)) * (u 2%nat tt - al * (h * l) * u 2%nat tt)); [ring|].
    rewrite U2. transitivity ((1 - al * (h * l)) * u 0%nat tt + (1 - al) * (h * l) * (u 1%nat tt - al * (h * l) * u 1%nat tt)); [ring|].
    rewrite U1. ring.
Qed.

Lemma fractional_step_linear : linear_order 2 fractional_step.
Proof.
  unfold fractional_step. set (th := 1 - 0.5 * sqrt 2).
  replace (2 - sqrt 2) with (2 * th) by (unfold th; lra).
  assert (R : th * th = 2 * th - 1/2) by (unfold th; pose proof sqrt2_sq; nra). clearbody th.
  set (g := 2 * th * th). set (be := (1 - 2 * th) * th). set (al := 2 * th * (1 - 2 * th)).
  exists [1; 2 * be + al; be * be + 2 * be * al; be * be * al], [1; - 3 * g; 3 * g * g; - g * g * g],
    [be * be * al + g * g * g - 3 * g * g + 3/2 * g; g * g * g - 3/2 * g * g; 1/2 * g * g * g].
  split; [cbn; lra|]. split.
  - intros z. unfold exp_taylor.
    assert (G : g = 4 * th - 1) by (unfold g; nra).
    assert (Be : be = 1 - 3 * th) by (unfold be; nra).
    assert (Al : al = 2 - 6 * th) by (unfold al; nra).
    assert (C1 : 2 * be + al + 3 * g = 1) by (rewrite G, Be, Al; lra).
    assert (C2 : be * be + 2 * be * al - 3 * g * g + 3 * g = 1/2) by (rewrite G, Be, Al; nra).
    cbn. clearbody g be al.
    replace al with (1 - 3 * g - 2 * be) in * by lra.
    assert (Q : be * be + 2 * be * (1 - 3 * g - 2 * be) = 1/2 + 3 * g * g - 3 * g) by lra.
    field_simplify_eq.
    match goal with |- ?x = ?y => replace x with (y + 2 * z ^ 2 * (be * be + 2 * be * (1 - 3 * g - 2 * be) - (1/2 + 3 * g * g - 3 * g))) by field end.
    rewrite Q. field.
  - intros l t h u Hu. stages_of Hu 3%nat. cbn.
    assert (U1 : u 1%nat tt - g * (h * l) * u 1%nat tt = u 0%nat tt + be * (h * l) * u 0%nat tt) by (unfold g, be in *; lra).
    assert (U2 : u 2%nat tt - g * (h * l) * u 2%nat tt = u 1%nat tt + al * (h * l) * u 1%nat tt) by (unfold g, al in *; lra).
    assert (U3 : u 3%nat tt - g * (h * l) * u 3%nat tt = u 2%nat tt + be * (h * l) * u 2%nat tt) by (unfold g, be in *; lra).
    clearbody g be al. set (z := h * l) in *.
    transitivity ((1 - g * z) * (1 - g * z) * (u 3%nat tt - g * z * u 3%nat tt)); [unfold z; ring|].
    rewrite U3. transitivity ((1 - g * z) * (1 + be * z) * (u 2%nat tt - g * z * u 2%nat tt)); [ring|].
    rewrite U2. transitivity ((1 + be * z) * (1 + al * z) * (u 1%nat tt - g * z * u 1%nat tt)); [ring|].
    rewrite U1. unfold z. ring.
Qed.

Lemma alexander3_linear x : p3 x = 0 -> linear_order 3 (alexander3_of x).
Proof.
  intros P. unfold p3 in P.
  assert (C : x * x * x = 3 * x * x - 3/2 * x + 1/6) by lra. clear P.
  unfold alexander3_of. set (tau2 := (1 + x) * 0.5).
  set (b1 := - (6 * x * x - 16 * x + 1) * 0.25). set (b2 := (6 * x * x - 20 * x + 5) * 0.25).
  exists [1; - 2 * x + b1 + b2; x * x - x * b1 + b2 * (tau2 - 2 * x)], [1; - 3 * x; 3 * x * x; - (x * x * x)],
    [1/2 * x - 3/2 * x * x + x * x * x; 1/2 * (x * x * x) - 1/2 * x * x; 1/6 * (x * x * x)].
  split; [cbn; lra|]. split.
  - intros z. unfold exp_taylor. cbn. 
    assert (C1 : - 2 * x + b1 + b2 = 1 - 3 * x) by (unfold b1, b2; lra).
    assert (C2 : x * x - x * b1 + b2 * (tau2 - 2 * x) = 1/2 - 3 * x + 3 * x * x).
    { unfold b1, b2, tau2. nra. }
    rewrite C1, C2. rewrite !C. field.
  - intros l t h u Hu. stages_of Hu 3%nat. cbn.
    assert (U1 : u 1%nat tt - x * (h * l) * u 1%nat tt = u 0%nat tt) by nra.
    assert (U2 : u 2%nat tt - x * (h * l) * u 2%nat tt = u 0%nat tt + (tau2 - x) * (h * l) * u 1%nat tt) by nra.
    assert (U3 : u 3%nat tt - x * (h * l) * u 3%nat tt = u 0%nat tt + b1 * (h * l) * u 1%nat tt + b2 * (h * l) * u 2%nat tt) by nra.
    clear C E E0 E1 Hu. clearbody b1 b2 tau2. set (z := h * l) in *.
    transitivity ((1 - x * z) * (1 - x * z) * (u 3%nat tt - x * z * u 3%nat tt)); [unfold z; ring|].
    rewrite U3.
    transitivity ((1 - x * z) * ((1 - x * z) * u 0%nat tt + b1 * z * (u 1%nat tt - x * z * u 1%nat tt) + b2 * z * (u 2%nat tt - x * z * u 2%nat tt))); [ring|].
    rewrite U1, U2.
    transitivity ((1 - x * z) * ((1 - x * z) * u 0%nat tt + b1 * z * u 0%nat tt + b2 * z * u 0%nat tt) + b2 * z * (tau2 - x) * z * (u 1%nat tt - x * z * u 1%nat tt)); [ring|].
    rewrite U1. unfold z. ring.
Qed.

(** ** Structure *)

Ltac times := unfold consistent_times; split; [unfold d; cbn; lra|split; [unfold d; cbn; lra|]];
  intros r Hr; cbn in Hr; stage r; unfold a, b, d; cbn; try lra; try nra.

Lemma theta_times th : consistent_times (one_step_theta th). Proof. times. Qed.
Lemma heun_times : consistent_times heun. Proof. times. Qed.
Lemma shu3_times : consistent_times shu3. Proof. times. Qed.
Lemma rk4_times : consistent_times rk4. Proof. times. Qed.
Lemma alexander2_times : consistent_times alexander2. Proof. times. Qed.
Lemma fractional_step_times : consistent_times fractional_step.
Proof. pose proof sqrt2_sq. times. Qed.
Lemma alexander3_times x : consistent_times (alexander3_of x). Proof. times. Qed.

Lemma sqrt2_bounds : 1.4 < sqrt 2 < 1.5.
Proof. pose proof sqrt2_sq. assert (0 <= sqrt 2) by apply sqrt_pos. split; nra. Qed.

Ltac inside := intros i Hi; cbn in Hi; stage i; unfold d; cbn; lra.
Lemma theta_inside th : times_in_step (one_step_theta th). Proof. inside. Qed.
Lemma heun_inside : times_in_step heun. Proof. inside. Qed.
Lemma shu3_inside : times_in_step shu3. Proof. inside. Qed.
Lemma rk4_inside : times_in_step rk4. Proof. inside. Qed.
Lemma alexander2_inside : times_in_step alexander2. Proof. pose proof sqrt2_bounds. inside. Qed.
Lemma fractional_step_inside : times_in_step fractional_step. Proof. pose proof sqrt2_bounds. inside. Qed.
Lemma alexander3_inside : times_in_step alexander3.
Proof. destruct alexander3_alpha_residual as [X _]. unfold alexander3. set (al := alexander3_alpha) in *. clearbody al. inside. Qed.

Lemma theta_implicit th : 0 <= th -> implicit_iff (one_step_theta th).
Proof.
  intros P. unfold implicit_iff. cbn [implicit one_step_theta stages].
  destruct (Rlt_dec 0 th) as [L|L]; split; try discriminate; auto.
  - intros _. exists 1%nat. split; [lia|]. unfold b; cbn. lra.
  - intros (r & Hr & N). assert (r = 1%nat) as -> by lia. unfold b in N; cbn in N. exfalso. lra.
Qed.
Lemma theta_implicit_negative th : th < 0 -> ~ implicit_iff (one_step_theta th).
Proof.
  intros P [_ H]. cbn [implicit one_step_theta] in H. destruct (Rlt_dec 0 th); [lra|].
  discriminate H. exists 1%nat. split; [cbn; lia|]. unfold b; cbn. lra.
Qed.
Ltac expl := split; [discriminate|]; intros (r & Hr & N); cbn in Hr; stage r; unfold b in N; cbn in N; exfalso; lra.
Lemma heun_implicit : implicit_iff heun. Proof. expl. Qed.
Lemma shu3_implicit : implicit_iff shu3. Proof. expl. Qed.
Lemma rk4_implicit : implicit_iff rk4. Proof. expl. Qed.
Lemma alexander2_implicit : implicit_iff alexander2.
Proof. split; auto. intros _. exists 1%nat. split; [cbn; lia|]. pose proof sqrt2_bounds. unfold b; cbn. lra. Qed.
Lemma fractional_step_implicit : implicit_iff fractional_step.
Proof. split; auto. intros _. exists 1%nat. split; [cbn; lia|]. pose proof sqrt2_bounds. unfold b; cbn. nra. Qed.
Lemma alexander3_implicit : implicit_iff alexander3.
Proof.
  split; auto. intros _. exists 1%nat. split; [cbn; lia|]. destruct alexander3_alpha_residual as [X _].
  unfold alexander3. set (al := alexander3_alpha) in *. clearbody al. unfold b; cbn. lra.
Qed.

(** ** Collected *)

Lemma order_of T al eps p : well_structured T -> reduces T al -> has_order (stages T) al (d T) eps p -> scheme_order eps p T.
Proof. intros W R O. exists al. split; auto. now apply structured_equivalent. Qed.

Lemma all_orders :
  (forall th, scheme_order 0 1 (one_step_theta th)) /\ scheme_order 0 2 (one_step_theta (1/2)) /\
  scheme_order 0 1 explicit_euler /\ scheme_order 0 1 implicit_euler /\
  scheme_order 0 2 heun /\ scheme_order 0 3 shu3 /\ scheme_order 0 4 rk4 /\
  scheme_order 0 2 alexander2 /\ scheme_order 0 2 fractional_step /\ scheme_order tiny 3 alexander3.
Proof.
  assert (TH : forall th, scheme_order 0 1 (one_step_theta th)).
  { intros th. apply (order_of _ _ _ _ (theta_structured th) (theta_reduces th) (theta_order1 th)). }
  repeat split; try apply TH.
  - apply (order_of _ _ _ _ (theta_structured _) (theta_reduces _) theta_order2).
  - apply (order_of _ _ _ _ heun_structured heun_reduces heun_order2).
  - apply (order_of _ _ _ _ shu3_structured shu3_reduces shu3_order3).
  - apply (order_of _ _ _ _ rk4_structured rk4_reduces rk4_order4).
  - apply (order_of _ _ _ _ alexander2_structured alexander2_reduces alexander2_order2).
  - apply (order_of _ _ _ _ fractional_step_structured fractional_step_reduces fractional_step_order2).
  - apply (order_of _ _ _ _ (alexander3_structured _) (alexander3_reduces _) alexander3_shipped).
Qed.

Lemma exact_of T p : scheme_order 0 p T -> (1 <= stages T)%nat -> exact_on_polynomials p T.
Proof. intros (al & E & O) H. now apply (poly_exact T al). Qed.

Lemma all_exact :
  (forall th, exact_on_polynomials 1 (one_step_theta th)) /\ exact_on_polynomials 2 (one_step_theta (1/2)) /\
  exact_on_polynomials 2 heun /\ exact_on_polynomials 3 shu3 /\ exact_on_polynomials 4 rk4 /\
  exact_on_polynomials 2 alexander2 /\ exact_on_polynomials 2 fractional_step /\
  forall x, x * x * x - 3 * x * x + 3/2 * x - 1/6 = 0 -> 0.43 <= x <= 0.44 -> exact_on_polynomials 3 (alexander3_of x).
Proof.
  destruct all_orders as (O1 & O2 & _ & _ & O3 & O4 & O5 & O6 & O7 & _).
  split; [intros; apply exact_of; [apply O1|cbn; lia]|].
  do 6 (split; [apply exact_of; [assumption|cbn; lia]|]).
  intros x P X. apply exact_of; [|cbn; lia].
  apply (order_of _ _ _ _ (alexander3_structured _) (alexander3_reduces _)). apply alexander3_exact; auto.
  unfold p3; lra.
Qed.

Lemma all_linear :
  (forall th, linear_order 1 (one_step_theta th)) /\ linear_order 2 (one_step_theta (1/2)) /\
  linear_order 2 heun /\ linear_order 3 shu3 /\ linear_order 4 rk4 /\
  linear_order 2 alexander2 /\ linear_order 2 fractional_step /\
  forall x, x * x * x - 3 * x * x + 3/2 * x - 1/6 = 0 -> linear_order 3 (alexander3_of x).
Proof.
  repeat split; [apply theta_linear1|apply theta_linear2|apply heun_linear|apply shu3_linear|apply rk4_linear
    |apply alexander2_linear|apply fractional_step_linear|].
  intros x P. apply alexander3_linear. unfold p3; lra.
Qed.

Lemma alexander3_alpha_root : exists r, r * r * r - 3 * r * r + 3/2 * r - 1/6 = 0 /\ 0.43 <= r <= 0.44 /\
  Rabs (alexander3_alpha - r) <= tiny.
Proof.
  destruct root_exists as (r & Rr & P). exists r. unfold p3 in P. split; [lra|]. split; [lra|].
  assert (P' : p3 r = 0) by (unfold p3; lra).
  pose proof (alexander3_alpha_close r P' Rr). pose proof (Rabs_pos (alexander3_alpha - r)). lra.
Qed.




Lemma good_of T : well_structured T -> consistent_times T -> times_in_step T -> implicit_iff T -> good_structure T.
Proof. unfold well_structured, good_structure. tauto. Qed.

Lemma all_structured :
  (forall th, 0 <= th -> good_structure (one_step_theta th)) /\ good_structure explicit_euler /\
  good_structure implicit_euler /\ good_structure heun /\ good_structure shu3 /\ good_structure rk4 /\
  good_structure alexander2 /\ good_structure fractional_step /\ good_structure alexander3.
Proof.
  assert (TH : forall th, 0 <= th -> good_structure (one_step_theta th)).
  { intros. apply good_of; [apply theta_structured|apply theta_times|apply theta_inside|now apply theta_implicit]. }
  split; [exact TH|]. split; [apply TH; lra|]. split; [apply TH; lra|].
  split; [apply good_of; [apply heun_structured|apply heun_times|apply heun_inside|apply heun_implicit]|].
  split; [apply good_of; [apply shu3_structured|apply shu3_times|apply shu3_inside|apply shu3_implicit]|].
  split; [apply good_of; [apply rk4_structured|apply rk4_times|apply rk4_inside|apply rk4_implicit]|].
  split; [apply good_of; [apply alexander2_structured|apply alexander2_times|apply alexander2_inside|apply alexander2_implicit]|].
  split; [apply good_of; [apply fractional_step_structured|apply fractional_step_times|apply fractional_step_inside|apply fractional_step_implicit]|].
  apply good_of; [apply alexander3_structured|apply alexander3_times|apply alexander3_inside|apply alexander3_implicit].
Qed.
