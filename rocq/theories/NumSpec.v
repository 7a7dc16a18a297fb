(** What numerical Jacobians, their application and Jacobian-based residuals are supposed to compute. *)
From Verif Require Import NumModel EngineSpec.
Local Open Scope R_scope.

(** The contribution depends on the coefficients as  b + K x. *)
Definition affine (m n : nat) (alpha : vec -> vec) (K : mat) (b : vec) : Prop :=
  forall x i, (i < m)%nat -> alpha x i = b i + nsum n (fun j => K i j * x j).
Definition affine2 (ms mn ns nn : nat) (alpha : vec -> vec -> vec * vec) (K : blocks4) (b : vec * vec) : Prop :=
  let '((Kss, Ksn), (Kns, Knn)) := K in
  forall xs xn i,
    ((i < ms)%nat -> fst (alpha xs xn) i = fst b i + nsum ns (fun j => Kss i j * xs j) + nsum nn (fun j => Ksn i j * xn j)) /\
    ((i < mn)%nat -> snd (alpha xs xn) i = snd b i + nsum ns (fun j => Kns i j * xs j) + nsum nn (fun j => Knn i j * xn j)).

(** x shifted by h in coordinate j. *)
Definition shifted (x : vec) (j : nat) (h : R) : vec := fun k => if (k =? j)%nat then x k + h else x k.

(** Inside the m x n block the matrix [a'] is [a] plus [K]; outside it is unchanged. *)
Definition block_added (m n : nat) (a a' K : mat) : Prop :=
  forall i j, a' i j = if ((i <? m) && (j <? n))%nat then a i j + K i j else a i j.
Definition coefs_added (m : nat) (y y' v : vec) : Prop :=
  forall i, y' i = if (i <? m)%nat then y i + v i else y i.

(** Sum of the entries added at (i, j). *)
Definition entry_sum (l : list ((nat * nat) * R)) (i j : nat) : R :=
  lsum (fun e => if ((fst (fst e) =? i) && (snd (fst e) =? j))%nat then snd e else 0) l.
Definition entries_in (m n : nat) (l : list ((nat * nat) * R)) : Prop :=
  forall e, In e l -> (fst (fst e) < m /\ snd (fst e) < n)%nat.
(** r + w K x *)
Definition times_added (w : R) (K : mat) (x r r' : list R) : Prop :=
  length r' = length r /\
  forall i, (i < length r)%nat -> nth i r' 0 = nth i r 0 + w * nsum (length x) (fun j => K i j * nth j x 0).

(** A well formed local matrix and its entries. *)
Definition lmat_ok (a : lmat) : Prop := length (ldata a) = (lrows a * lcols a)%nat.
Definition entry (a : lmat) (i j : nat) : R := nth (j * lrows a + i) (ldata a) 0.
(** All positions of a matrix, row by row. *)
Definition positions (r c : nat) : list (nat * nat) := flat_map (fun i => map (fun j => (i, j)) (seq 0 c)) (seq 0 r).
