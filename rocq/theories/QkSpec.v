(** Tensor product polynomials and integrals over the unit cube. *)
From Coq Require Export Permutation.
From Verif Require Import QkModel.
Local Open Scope R_scope.

Definition rsum (l : list R) : R := fold_right Rplus 0 l.
(** x_0^a_0 * x_1^a_1 * ... *)
Fixpoint monomial (a : list nat) (x : nat -> R) : R :=
  match a with [] => 1 | n :: a' => x O ^ n * monomial a' (fun j => x (S j)) end.
(** f is a linear combination of monomials in d variables with all exponents at most k. *)
Definition in_Qk (k d : nat) (f : (nat -> R) -> R) : Prop :=
  exists l : list (R * list nat), (forall w a, In (w, a) l -> length a = d /\ Forall (fun n => (n <= k)%nat) a) /\
    forall x, f x = rsum (map (fun wa => fst wa * monomial (snd wa) x) l).
(** Linear combination with the given coefficients of the given values. *)
Definition combination (c values : list R) : R := rsum (map (fun p => fst p * snd p) (combine c values)).
(** The point x with coordinate j replaced. *)
Definition moved (x : nat -> R) (j : nat) (h : R) : nat -> R := fun l => if (l =? j)%nat then h else x l.

(** v is the integral of f over [0,1]. *)
Definition integral (f : R -> R) (v : R) : Prop :=
  exists F, (forall x, derivable_pt_lim F x (f x)) /\ F 1 - F 0 = v.
Definition pcons (t : R) (x : nat -> R) : nat -> R := fun j => match j with O => t | S j' => x j' end.
(** v is the iterated integral of f over the d-dimensional unit cube. *)
Fixpoint cube_integral (d : nat) (f : (nat -> R) -> R) (v : R) : Prop :=
  match d with
  | O => f (fun _ => 0) = v
  | S d' => exists g, (forall y, integral (fun t => f (pcons t y)) (g y)) /\ cube_integral d' g v
  end.
(** What a quadrature rule makes of a function. *)
Definition quadrature (rule : list ((nat -> R) * R)) (f : (nat -> R) -> R) : R := rsum (map (fun it => f (fst it) * snd it) rule).
(** The rule integrates exactly the polynomials of degree k in each variable. *)
Definition exact_rule (k d : nat) (rule : list ((nat -> R) * R)) : Prop :=
  forall f v, in_Qk k d f -> cube_integral d f v -> quadrature rule f = v.
