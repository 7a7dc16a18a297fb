(** Specification vocabulary for the L2-orthonormal bases (C103 - C106). *)
From Coq Require Import Reals.
From Verif Require Import Common ParSpec OrthModel.

(** Multi-indices of dimension [d]; their degree. *)
Definition degree (a : multiindex) : nat := sum_nat a.
Definition of_degree_upto (d k : nat) (a : multiindex) : Prop := length a = d /\ degree a <= k.
Definition of_degree_each (d k : nat) (a : multiindex) : Prop := length a = d /\ forall e, In e a -> e <= k.
Definition in_space (b : basis_type) (d k : nat) (a : multiindex) : Prop :=
  match b with Pk => of_degree_upto d k a | Qk => of_degree_each d k a end.

(** The monomial. *)
Fixpoint monomial (a : multiindex) (x : list R) : R :=
  match a, x with
  | e :: a', y :: x' => (y ^ e * monomial a' x')%R
  | _, _ => 1%R
  end.

(** The integral of [f] from [a] to [b] is [v]: there is an antiderivative (fundamental theorem). *)
Definition is_int (f : R -> R) (a b v : R) : Prop :=
  exists F, (forall x, (a <= x <= b)%R -> derivable_pt_lim F x (f x)) /\ v = (F b - F a)%R.

(** Iterated integrals over the unit cube and over the simplex of the points with nonnegative coordinates and sum at
    most [s]. *)
Fixpoint cube_int (d : nat) (f : list R -> R) (v : R) : Prop :=
  match d with
  | 0 => v = f []
  | S d' => exists g, (forall x, (0 <= x <= 1)%R -> cube_int d' (fun y => f (x :: y)) (g x)) /\ is_int g 0 1 v
  end.
Fixpoint simplex_int (d : nat) (s : R) (f : list R -> R) (v : R) : Prop :=
  match d with
  | 0 => v = f []
  | S d' => exists g, (forall x, (0 <= x <= s)%R -> simplex_int d' (s - x) (fun y => f (x :: y)) (g x)) /\ is_int g 0 s v
  end.
Definition element_int (s : shape) (d : nat) : (list R -> R) -> R -> Prop :=
  match s with Cube => cube_int d | Simplex => simplex_int d 1 end.

(** The polynomial with given coefficients. *)
Definition polynomial (n : nat) (alpha : nat -> multiindex) (c : nat -> R) (x : list R) : R :=
  rsum (fun j => c j * monomial (alpha j) x)%R (seq 0 n).

(** The reference elements and degrees for which the construction is possible. *)
Definition supported (b : basis_type) (s : shape) (k d : nat) : Prop :=
  d <> 0 /\ (b = Pk -> k <= 24) /\
  match s with
  | Cube => True
  | Simplex => d = 1 \/ (d = 2 /\ k <= 14) \/ (d = 3 /\ k <= match b with Pk => 13 | Qk => 6 end)
  end.
