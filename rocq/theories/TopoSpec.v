(** Reference elements, independent of how they are numbered. *)
From Verif Require Import TopoModel.
Local Open Scope N_scope.

(** A reference element is built from a point by cones and prisms over the element of one dimension less. *)
Inductive construction := Cone | Prism.
(** The steps, first one first; the dimension is their number. *)
Definition element := list construction.
(** Cone and prism over a point are the same line, so the first step does not matter. *)
Definition same_element (e e' : element) : Prop := length e = length e' /\ tl e = tl e'.
Definition all_cones (n : nat) : element := repeat Cone n.
Definition all_prisms (n : nat) : element := repeat Prism n.
(** The numbering of dune-geometry: bit i tells how dimension i+1 is reached. *)
Fixpoint number (e : element) : N :=
  match e with
  | [] => 0
  | s :: e' => (match s with Cone => 0 | Prism => 1 end) + 2 * number e'
  end.
(** The element a basic type stands for. *)
Definition stands_for (b : basic) (e : element) : Prop :=
  match b with
  | simplex => same_element e (all_cones (length e))
  | cube => same_element e (all_prisms (length e))
  | pyramid => same_element e [Prism; Prism; Cone]
  | prism => same_element e [Prism; Cone; Prism]
  | none_type | other => False
  end.
