(** Specification vocabulary for the function space facades (C162, C163). *)
From Coq Require Import Reals.
From Verif Require Import Common ParModel ParSpec DdModel DdSpec BpModel.

(** ** The facade on one process *)

(** The undistributed space: which DOFs are constrained, and the values of the vectors. *)
Record gstate := GState { constrained : dof -> Prop; values : nat -> dof -> R }.

(** [d] lies on a boundary face, of any rank, on which the boundary condition type is Dirichlet. *)
Definition on_dirichlet (W : world) (F : faces) (dirichlet : nat -> bool) (d : dof) : Prop :=
  exists q f, q < nranks W /\ In f (boundary_faces F q) /\ dirichlet (fid f) = true /\ In d (fdofs f).

(** The effect a call must have: constrained DOFs are exactly those on the Dirichlet boundary, and a set or copy changes
    exactly the DOFs its name says. *)
Definition gstep (W : world) (F : faces) (g g' : gstate) (o : call) : Prop :=
  match o with
  | AssembleConstraints dirichlet =>
      (forall d, constrained g' d <-> on_dirichlet W F dirichlet d) /\ (forall x d, values g' x d = values g x d)
  | ClearConstraints => (forall d, ~ constrained g' d) /\ (forall x d, values g' x d = values g x d)
  | SetConstrained x r =>
      (forall d, constrained g' d <-> constrained g d) /\
      (forall d, constrained g d -> values g' x d = r) /\ (forall d, ~ constrained g d -> values g' x d = values g x d) /\
      (forall y d, y <> x -> values g' y d = values g y d)
  | SetNonConstrained x r =>
      (forall d, constrained g' d <-> constrained g d) /\
      (forall d, constrained g d -> values g' x d = values g x d) /\ (forall d, ~ constrained g d -> values g' x d = r) /\
      (forall y d, y <> x -> values g' y d = values g y d)
  | CopyConstrained xin xout =>
      (forall d, constrained g' d <-> constrained g d) /\
      (forall d, constrained g d -> values g' xout d = values g xin d) /\
      (forall d, ~ constrained g d -> values g' xout d = values g xout d) /\
      (forall y d, y <> xout -> values g' y d = values g y d)
  | CopyNonConstrained xin xout =>
      (forall d, constrained g' d <-> constrained g d) /\
      (forall d, constrained g d -> values g' xout d = values g xout d) /\
      (forall d, ~ constrained g d -> values g' xout d = values g xin d) /\
      (forall y d, y <> xout -> values g' y d = values g y d)
  end.

Inductive gruns (W : world) (F : faces) : list call -> gstate -> gstate -> Prop :=
| GDone g : gruns W F [] g g
| GCall o os g g1 g2 : gstep W F g g1 o -> gruns W F os g1 g2 -> gruns W F (o :: os) g g2.

(** The vector a call writes. *)
Definition written (o : call) : option nat :=
  match o with
  | AssembleConstraints _ | ClearConstraints => None
  | SetConstrained x _ | SetNonConstrained x _ | CopyConstrained _ x | CopyNonConstrained _ x => Some x
  end.

(** ** The overlap of the grid *)

(** With at least one layer of overlap, a rank on which an entity is interior or border stores all cells around it:
    it sees every boundary face with a DOF of the entity, and none of its processor boundary faces touches it. *)
Definition overlap_ok (W : world) (F : faces) : Prop :=
  (forall q f d, q < nranks W -> In f (boundary_faces F q) -> In d (fdofs f) -> has_dof W q d) /\
  (forall q r f d, active W r d -> q < nranks W -> In f (boundary_faces F q) -> In d (fdofs f) ->
     exists g, In g (boundary_faces F r) /\ fid g = fid f /\ In d (fdofs g)) /\
  (forall r f d, active W r d -> In f (processor_faces F r) -> ~ In d (fdofs f)).
