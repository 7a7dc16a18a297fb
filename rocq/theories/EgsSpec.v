(** What a linear solver owes, and matrices with Dirichlet constraints. *)
From Verif Require Import EgsModel EngineSpec ConsModel ConsSpec.
Local Open Scope R_scope.

Definition vnorm2 (n : nat) (v : nat -> R) : R := nsum n (fun i => v i * v i).
Definition defect2 (n : nat) (A : mat) (z r : nat -> R) : R := vnorm2 n (fun i => mv n A z i - r i).
(** Eigen's side: if a solver reports success, the defect of the system it was given is reduced by the tolerance. *)
Definition honest (n : nat) (E : eigen) : Prop :=
  forall A r tol m, o_success (E A r tol m) = true -> defect2 n A (o_vec (E A r tol m)) r <= tol * tol * vnorm2 n r.
Definition solves (n : nat) (A : mat) (z r : nat -> R) : Prop := forall i, (i < n)%nat -> mv n A z i = r i.
Definition symmetric (n : nat) (A : mat) : Prop := forall i j, (i < n)%nat -> (j < n)%nat -> A i j = A j i.
(** Entry (i, j) is read by the solver. *)
Definition reads (t : half) (i j : nat) : bool := match t with Up => (i <=? j)%nat | Lo => (j <=? i)%nat end.
