(** What a time stepping scheme does and what its order means. *)
From Verif Require Import RKModel.
Local Open Scope R_scope.

(** sum over i < n *)
Fixpoint rsum (n : nat) (f : nat -> R) : R := match n with O => 0 | S k => rsum k f + f k end.

(** One step of size [h] from time [t] for u' = f(time, u), u with values indexed by [K] (a system of equations):
    the stage values [u] satisfy the documented equations (onestepparameter.hh 25-27 with m = identity and
    r = -f). *)
Definition stage_values {K} (T : tab) (f : R -> (K -> R) -> K -> R) (t h : R) (u : nat -> K -> R) : Prop :=
  forall r, (1 <= r <= stages T)%nat -> forall k,
    rsum (S (stages T)) (fun i => a T r i * u i k - h * b T r i * f (t + d T i * h) (u i) k) = 0.

(** A Runge-Kutta method given by a Butcher tableau: coefficients alpha(r,j), nodes c, and the last row as weights. *)
Definition runge_kutta {K} (s : nat) (al : nat -> nat -> R) (c : nat -> R) (f : R -> (K -> R) -> K -> R) (t h : R)
    (u : nat -> K -> R) : Prop :=
  forall r, (1 <= r <= s)%nat -> forall k,
    u r k = u O k + h * rsum (S s) (fun j => al r j * f (t + c j * h) (u j) k).

(** The order conditions (rooted trees with up to four nodes) for a tableau with stages 0..s, weights al(s,.), up to
    an error [eps]. *)
Definition near (eps x y : R) : Prop := Rabs (x - y) <= eps.
Section Conditions.
  Variables (s : nat) (al : nat -> nat -> R) (c : nat -> R) (eps : R).
  Let n := S s.
  Let w := al s.
  Definition row_sums : Prop := c O = 0 /\ c s = 1 /\ forall r, (r <= s)%nat -> near eps (rsum n (al r)) (c r).
  Definition order1 : Prop := near eps (rsum n w) 1.
  Definition order2 : Prop := near eps (rsum n (fun i => w i * c i)) (1/2).
  Definition order3 : Prop :=
    near eps (rsum n (fun i => w i * c i ^ 2)) (1/3) /\
    near eps (rsum n (fun i => w i * rsum n (fun j => al i j * c j))) (1/6).
  Definition order4 : Prop :=
    near eps (rsum n (fun i => w i * c i ^ 3)) (1/4) /\
    near eps (rsum n (fun i => w i * c i * rsum n (fun j => al i j * c j))) (1/8) /\
    near eps (rsum n (fun i => w i * rsum n (fun j => al i j * c j ^ 2))) (1/12) /\
    near eps (rsum n (fun i => w i * rsum n (fun j => al i j * rsum n (fun k => al j k * c k)))) (1/24).
  Definition has_order (p : nat) : Prop :=
    row_sums /\ order1 /\ ((2 <= p)%nat -> order2) /\ ((3 <= p)%nat -> order3) /\ ((4 <= p)%nat -> order4) /\ (1 <= p <= 4)%nat.
End Conditions.

(** The table is equivalent to the Butcher tableau [al] with nodes d(0..s): both describe the same stage values for
    every system of equations, every start time and every step size. *)
Definition equivalent_to (T : tab) (al : nat -> nat -> R) : Prop :=
  forall (K : Type) (f : R -> (K -> R) -> K -> R) t h u,
    stage_values T f t h u <-> runge_kutta (stages T) al (d T) f t h u.

(** The scheme is a Runge-Kutta method of order [p], up to a defect of [eps] in the order conditions. *)
Definition scheme_order (eps : R) (p : nat) (T : tab) : Prop :=
  exists al, equivalent_to T al /\ has_order (stages T) al (d T) eps p.

(** Polynomial of degree at most 4 with coefficients [q], and its derivative. *)
Definition poly (q : list R) (x : R) : R := fold_right (fun c acc => c + x * acc) 0 q.
Fixpoint dpoly_from (n : nat) (q : list R) : list R :=
  match q with [] => [] | c :: q' => INR n * c :: dpoly_from (S n) q' end.
Definition dpoly (q : list R) : list R := match q with [] => [] | _ :: q' => dpoly_from 1 q' end.

(** Whenever the exact solution is a polynomial in time of degree at most [p], a step reproduces it. *)
Definition exact_on_polynomials (p : nat) (T : tab) : Prop :=
  forall q t h (u : nat -> unit -> R), (length q <= S p)%nat ->
    stage_values T (fun tau _ _ => poly (dpoly q) tau) t h u ->
    u O tt = poly q t -> u (stages T) tt = poly q (t + h).

(** On u' = lambda u the step multiplies by a function P/Q of z = lambda h that agrees with exp(z) up to order p:
    P(z) - Q(z) (1 + z + ... + z^p/p!) is z^(p+1) times a polynomial. *)
Definition exp_taylor (p : nat) (z : R) : R := rsum (S p) (fun k => z ^ k / INR (fact k)).
Definition linear_order (p : nat) (T : tab) : Prop :=
  exists P Q E : list R, poly Q 0 = 1 /\
    (forall z, poly P z - poly Q z * exp_taylor p z = z ^ S p * poly E z) /\
    forall lambda t h (u : nat -> unit -> R),
      stage_values T (fun _ v k => lambda * v k) t h u ->
      poly Q (lambda * h) * u (stages T) tt = poly P (lambda * h) * u O tt.

(** Structure of the tables (C14). *)
Definition causal (T : tab) : Prop :=
  forall r i, (1 <= r <= stages T)%nat -> (r < i)%nat -> a T r i = 0 /\ b T r i = 0.
Definition unit_diagonal (T : tab) : Prop := forall r, (1 <= r <= stages T)%nat -> a T r r = 1.
Definition zero_row_sums (T : tab) : Prop :=
  forall r, (1 <= r <= stages T)%nat -> rsum (S (stages T)) (a T r) = 0.
Definition consistent_times (T : tab) : Prop :=
  d T O = 0 /\ d T (stages T) = 1 /\
  forall r, (1 <= r <= stages T)%nat -> rsum (S (stages T)) (fun i => a T r i * d T i - b T r i) = 0.
Definition times_in_step (T : tab) : Prop := forall i, (i <= stages T)%nat -> 0 <= d T i <= 1.
Definition implicit_iff (T : tab) : Prop :=
  implicit T = true <-> exists r, (1 <= r <= stages T)%nat /\ b T r r <> 0.
Definition table_shape (T : tab) : Prop :=
  length (D T) = S (stages T) /\ length (A T) = stages T /\ length (B T) = stages T /\
  Forall (fun l => length l = S (stages T)) (A T) /\ Forall (fun l => length l = S (stages T)) (B T).
Definition good_structure (T : tab) : Prop :=
  table_shape T /\ causal T /\ unit_diagonal T /\ zero_row_sums T /\ consistent_times T /\ times_in_step T /\ implicit_iff T.

(** The defect allowed in the order conditions of Alexander's third order scheme, whose coefficient the code computes
    by ten Newton steps: 10^-9216 (written so that it is never evaluated). *)
Definition tiny : R := (/ 10 ^ 9) ^ (2 ^ 10).
