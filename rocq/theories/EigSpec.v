(** Generalized eigenvalues (no reference to the code). *)
From Coq Require Import Reals.
From Verif Require Import Common EigModel.
Local Open Scope R_scope.

(** x is an eigenvector of A x = lambda B x (entries below n). *)
Definition eigen (n : nat) (A B : mat) (lambda : R) (x : vec) : Prop :=
  (forall i, (i < n)%nat -> apply n A x i = lambda * apply n B x i) /\ exists i, (i < n)%nat /\ x i <> 0.
(** [solve b] is the solution of S y = b. *)
Definition solves (n : nat) (S : mat) (solve : vec -> vec) : Prop :=
  forall b y, (forall i, (i < n)%nat -> apply n S y i = b i) <-> (forall i, (i < n)%nat -> y i = solve b i).
(** x is an eigenvector of the linear map f with the value mu. *)
Definition eigen_of (n : nat) (f : vec -> vec) (mu : R) (x : vec) : Prop :=
  (forall i, (i < n)%nat -> f x i = mu * x i) /\ exists i, (i < n)%nat /\ x i <> 0.
(** A sorted list of numbers. *)
Fixpoint ascending (l : list R) : Prop := match l with [] => True | x :: r => (forall y, In y r -> x <= y) /\ ascending r end.
(** A cell of the overlap: all its dofs belong to several subdomains. *)
Definition in_overlap (sum : nat -> nat) (c : cell) : Prop := forall d, In d c -> (2 <= sum d)%nat.
