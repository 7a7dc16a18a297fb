(** What adapters of constraint parameters mean. *)
From Verif Require Import ParamModel.

Section Spec.
  Context {T P : Type}.
  (** The object at the end of a chain of adapters. *)
  Inductive rests_on (s : list (object T P)) : nat -> nat -> Prop :=
  | rests_here i o : nth_error s i = Some o -> (forall j, o <> FluxFromDirichlet j /\ o <> DirichletFromFlux j) -> rests_on s i i
  | rests_flux i j b : nth_error s i = Some (FluxFromDirichlet j) -> rests_on s j b -> rests_on s i b
  | rests_dirichlet i j b : nth_error s i = Some (DirichletFromFlux j) -> rests_on s j b -> rests_on s i b.
  Definition is_adapter (s : list (object T P)) (i : nat) : Prop :=
    exists j, nth_error s i = Some (FluxFromDirichlet j) \/ nth_error s i = Some (DirichletFromFlux j).
End Spec.
