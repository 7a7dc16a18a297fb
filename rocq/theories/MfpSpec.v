(** Specification vocabulary for the matrix-free preconditioners (C99 - C102). *)
From Coq Require Import Reals.
From Verif Require Import Common ParModel ParSpec MfpModel.

(** The product of a matrix of size [n] and a vector. *)
Definition times (n : nat) (A : mat) (x : vector) : vector := fun i => rsum (fun j => A i j * x j)%R (seq 0 n).

(** The factors stored in one matrix: unit lower and upper triangle. *)
Definition lower (lu : mat) : mat := fun i k => if k <? i then lu i k else if k =? i then 1%R else 0%R.
Definition upper (lu : mat) : mat := fun k j => if k <=? j then lu k j else 0%R.

(** The contract of a decomposition with row pivoting: row [i] of the matrix is row [indices i] of the product of the
    factors, and the matrix is regular. *)
Record decomposes (n : nat) (A lu : mat) (indices : nat -> nat) : Prop := {
  dec_range : forall i, i < n -> indices i < n;
  dec_once : forall i k, i < n -> k < n -> indices i = indices k -> i = k;
  dec_product : forall i j, i < n -> j < n -> A i j = rsum (fun k => lower lu (indices i) k * upper lu k j)%R (seq 0 n);
  dec_regular : forall i, i < n -> lu i i <> 0%R
}.

(** All values of all ranks. *)
Definition all_values (ranks : nat) (data : nat -> list Z) : list Z := flat_map data (seq 0 ranks).
Definition zsum (l : list Z) : Z := fold_right Z.add 0%Z l.
(** Sample mean and corrected sample deviation. *)
Definition mean (l : list Z) : R := (rsum IZR l / INR (length l))%R.
Definition deviation (l : list Z) : R :=
  sqrt (rsum (fun x => (IZR x - mean l) * (IZR x - mean l)) l / (INR (length l) - 1))%R.
