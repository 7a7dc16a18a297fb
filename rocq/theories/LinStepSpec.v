(** Linear operators, told from their derivative terms. *)
From Verif Require Import LinStepModel.
Local Open Scope R_scope.

(** The derivative terms do not depend on the coefficients they are evaluated for. *)
Definition linear_terms (J : jterms) : Prop :=
  (forall c t x y, j_volume J c t x = j_volume J c t y) /\ (forall c t x y, j_post J c t x = j_post J c t y) /\
  (forall c f k t x y, j_boundary J c f k t x = j_boundary J c f k t y) /\
  (forall c f k t x y x' y', j_skeleton J c f k t x y = j_skeleton J c f k t x' y').
