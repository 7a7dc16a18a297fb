(** What the cache may answer. *)
From Coq Require Import Reals.
From Verif Require Import CacheModel.
Local Open Scope R_scope.

(** Same number of coordinates, each within the tolerance. *)
Definition close (x y : list R) : Prop := Forall2 (fun a b => Rabs (a - b) <= / 100000) x y.
Definition position {B} (r : request B) : list R := match r with Function x _ => x | Jacobian x _ => x end.
Definition basis {B} (r : request B) : B := match r with Function _ b => b | Jacobian _ b => b end.
(** The right answer to a request. *)
Definition fresh {B V J} (value : B -> list R -> V) (jacobian : B -> list R -> J) (r : request B) : V + J :=
  match r with Function x b => inl (value b x) | Jacobian x b => inr (jacobian b x) end.
Definition same_kind {B} (r s : request B) : Prop :=
  match r, s with Function _ _, Function _ _ => True | Jacobian _ _, Jacobian _ _ => True | _, _ => False end.
(** Coordinates are equal or further apart than the tolerance. *)
Definition apart (x y : list R) : Prop := Forall2 (fun a b => a = b \/ / 100000 < Rabs (a - b)) x y.
(** What std::map demands of its comparison, on the keys of [S]: a strict weak ordering. *)
Definition strict_weak (S : list R -> Prop) (lt : list R -> list R -> bool) : Prop :=
  (forall x, S x -> lt x x = false) /\
  (forall x y z, S x -> S y -> S z -> lt x y = true -> lt y z = true -> lt x z = true) /\
  (forall x y z, S x -> S y -> S z -> lt x y = false -> lt y x = false -> lt y z = false -> lt z y = false ->
     lt x z = false /\ lt z x = false).
(** [q] is the first request of this kind at this position. *)
Definition matches {B} (r q : request B) : Prop := same_kind r q /\ position q = position r.
Definition first_request {B} (r : request B) (past : list (request B)) (q : request B) : Prop :=
  exists l1 l2, past = l1 ++ q :: l2 /\ matches r q /\ forall p, In p l1 -> ~ matches r p.
