(** Specification vocabulary for the parallel hybrid preconditioner (C137). *)
From Coq Require Import Reals ZArith.
From Verif Require Import Common ParModel ParSpec DdModel DdSpec AmgModel AmgParModel.

(** The degrees of freedom of the DG space that other ranks own are constrained, the others are not (parallel
    constraints of cell-wise spaces). *)
Definition foreign_constrained (W : world) (cc : nat -> dof -> bool) : Prop :=
  forall q d, has_dof W q d -> (cc q d = false <-> smallest_ib W (fst d) q).

(** A rank knows the whole row of the matrix at the degrees of freedom it owns. *)
Definition own_rows (W : world) (A : dmat) (G : dof -> dof -> R) : Prop :=
  forall q d, has_dof W q d -> smallest_ib W (fst d) q -> full_row W A G q d.

(** A rank stores, with a cell, all CG functions on the cell. *)
Definition cells_complete (W Wc : world) (P : nat -> dof -> dof -> R) (PG : dof -> dof -> R) : Prop :=
  (forall q i k, has_dof W q i -> has_dof Wc q k -> P q i k = PG i k) /\
  (forall q i k, has_dof W q i -> (exists s, has_dof Wc s k) -> ~ has_dof Wc q k -> PG i k = 0%R).

(** The smoother of a rank works on the vectors of the rank. *)
Definition local_smoother (W : world) (S : seq_prec) : Prop :=
  (forall q v d e, q < nranks W -> In e (held W q) -> length (S q v d e) = ndofs W e) /\
  (forall q v v' d d', (forall x, has_dof W q x -> val v x = val v' x) -> (forall x, has_dof W q x -> val d x = val d' x) ->
     forall x, has_dof W q x -> val (S q v d) x = val (S q v' d') x).

(** The smoother of all ranks together: every rank works on the part of the defect it owns, the results are added. *)
Definition part_of (W : world) (owner : dof -> nat) (D : dof -> R) (s : nat) : lvec :=
  tabulate W (fun i => if owner i =? s then D i else 0%R).
Definition additive_smoother (W : world) (owner : dof -> nat) (S : seq_prec) (D : dof -> R) : dof -> R :=
  fun i => rsum (fun s => if existsb (Nat.eqb (fst i)) (held W s) then val (S s (tabulate W (fun _ => 0%R)) (part_of W owner D s)) i else 0%R)
                (seq 0 (nranks W)).

(** The AMG: a defect that is stored at the owners only gives a correction that is the same on all ranks. *)
Definition collective (Wc : world) (amg : dvec R -> dvec R -> dvec R) (C : (dof -> R) -> (dof -> R)) : Prop :=
  forall d D, (forall q k, has_dof Wc q k -> smallest_ib Wc (fst k) q -> val (d q) k = D k) ->
    (forall q k, has_dof Wc q k -> ~ smallest_ib Wc (fst k) q -> val (d q) k = 0%R) ->
    consistent Wc (amg (fun q => tabulate Wc (fun _ => 0%R)) d) (C D).

(** The sequential preconditioner with these parts; [fixed] are the constrained degrees of freedom of the CG space. *)
Definition sequential (W : world) (owner : dof -> nat) (G PG : dof -> dof -> R) (S : seq_prec) (C : (dof -> R) -> (dof -> R))
    (fixed : dof -> bool) (k1 k2 : Z) : hybrid dof dof :=
  {| dgmatrix := G; dgprec := fun _ D => additive_smoother W owner S D;
     cgprec := fun _ D => C (fun k => if fixed k then 0%R else D k); prol := PG; n1 := k1; n2 := k2 |}.
