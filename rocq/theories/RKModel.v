(** Model of the time stepping tables (dune/pdelab/instationary/onestepparameter.hh).
    Real arithmetic replaces floating point: rounding is not modelled. *)
From Coq Require Export Reals List Lra Lia Psatz.
Export ListNotations.
Local Open Scope R_scope.

(** TimeSteppingParameterInterface: onestepparameter.hh 42-77.  A and B have s rows and s+1 columns, D has s+1
    entries; a(r,i), b(r,i) read row r-1 (onestepparameter.hh 121-140 and the same accessors in every scheme). *)
Record tab := mktab { stages : nat; D : list R; A : list (list R); B : list (list R); implicit : bool }.
Definition a (T : tab) (r i : nat) : R := nth i (nth (r - 1) (A T) []) 0.
Definition b (T : tab) (r i : nat) : R := nth i (nth (r - 1) (B T) []) 0.
Definition d (T : tab) (i : nat) : R := nth i (D T) 0.

(** OneStepThetaParameter: 88-154. *)
Definition one_step_theta (theta : R) : tab :=
  mktab 1 [0; 1] [[-1; 1]] [[1 - theta; theta]] (if Rlt_dec 0 theta then true else false).
(** ExplicitEulerParameter: 163-180; ImplicitEulerParameter: 188-205. *)
Definition explicit_euler : tab := one_step_theta 0.
Definition implicit_euler : tab := one_step_theta 1.

(** HeunParameter: 213-278. *)
Definition heun : tab :=
  mktab 2 [0; 1; 1]
    [[-1; 1; 0]; [-0.5; -0.5; 1]]
    [[1; 0; 0]; [0; 0.5; 0]] false.

(** Shu3Parameter: 286-354. *)
Definition shu3 : tab :=
  mktab 3 [0; 1; 0.5; 1]
    [[-1; 1; 0; 0]; [-0.75; -0.25; 1; 0]; [-1/3; 0; -2/3; 1]]
    [[1; 0; 0; 0]; [0; 0.25; 0; 0]; [0; 0; 2/3; 0]] false.

(** RK4Parameter: 363-433. *)
Definition rk4 : tab :=
  mktab 4 [0; 0.5; 0.5; 1; 1]
    [[-1; 1; 0; 0; 0]; [-1; 0; 1; 0; 0]; [-1; 0; 0; 1; 0]; [-1; 0; 0; 0; 1]]
    [[0.5; 0; 0; 0; 0]; [0; 0.5; 0; 0; 0]; [0; 0; 1; 0; 0]; [1/6; 1/3; 1/3; 1/6; 0]] false.

(** Alexander2Parameter: 444-513. *)
Definition alexander2 : tab :=
  let alpha := 1 - 0.5 * sqrt 2 in
  mktab 2 [0; alpha; 1]
    [[-1; 1; 0]; [-1; 0; 1]]
    [[0; alpha; 0]; [0; 1 - alpha; alpha]] true.

(** FractionalStepParameter: 521-595. *)
Definition fractional_step : tab :=
  let theta := 1 - 0.5 * sqrt 2 in
  let thetap := 1 - 2 * theta in
  let alpha := 2 - sqrt 2 in
  let beta := 1 - alpha in
  mktab 3 [0; theta; 1 - theta; 1]
    [[-1; 1; 0; 0]; [0; -1; 1; 0]; [0; 0; -1; 1]]
    [[beta * theta; alpha * theta; 0; 0]; [0; alpha * thetap; alpha * theta; 0]; [0; 0; beta * theta; alpha * theta]] true.

(** Alexander3Parameter: 604-694; the Newton loop for alpha: 612-622. *)
Definition newton_step (alpha : R) : R :=
  alpha - (alpha * (alpha * alpha - 3 * (alpha - 0.5)) - 1/6) / (3 * alpha * (alpha - 2) + 1.5).
Definition alexander3_alpha : R := Nat.iter 10 newton_step 0.4358665215.
Definition alexander3_of (alpha : R) : tab :=
  let tau2 := (1 + alpha) * 0.5 in
  let b1 := - (6 * alpha * alpha - 16 * alpha + 1) * 0.25 in
  let b2 := (6 * alpha * alpha - 20 * alpha + 5) * 0.25 in
  mktab 3 [0; alpha; tau2; 1]
    [[-1; 1; 0; 0]; [-1; 0; 1; 0]; [-1; 0; 0; 1]]
    [[0; alpha; 0; 0]; [0; tau2 - alpha; alpha; 0]; [0; b1; b2; alpha]] true.
Definition alexander3 : tab := alexander3_of alexander3_alpha.
