(** Model of the cache of basis function values (dune/pdelab/finiteelement/localbasiscache.hh).

    A position is the list of its coordinates.  A basis object is an element of any type [B]; [value b x] and
    [jacobian b x] are what its evaluateFunction and evaluateJacobian store for the position x.  Real arithmetic is
    exact. *)
From Coq Require Export Reals.
From Verif Require Export Common.
Local Open Scope R_scope.

Definition tolerance : R := / 100000.
(** less_than: 24-35. *)
Fixpoint less_than (v1 v2 : list R) : bool :=
  match v1, v2 with
  | a :: v1', b :: v2' =>
      if Rlt_dec a (b - tolerance) then true
      else if Rlt_dec (b + tolerance) a then false
      else less_than v1' v2'
  | _, _ => false
  end.
(** std::map<DomainType,V,less_than>: the entries in the order of the map. *)
Definition cache (V : Type) := list (list R * V).
(** std::map::find: the first entry that is not before the key, if the key is not before it. *)
Fixpoint lookup {V} (c : cache V) (x : list R) : option V :=
  match c with
  | [] => None
  | (y, v) :: c' => if less_than y x then lookup c' x else if less_than x y then None else Some v
  end.
(** std::map::insert. *)
Fixpoint insert {V} (c : cache V) (x : list R) (v : V) : cache V :=
  match c with
  | [] => [(x, v)]
  | (y, u) :: c' => if less_than y x then (y, u) :: insert c' x v else if less_than x y then (x, v) :: (y, u) :: c' else (y, u) :: c'
  end.
(** evaluateFunction: 45-55 and evaluateJacobian: 57-68: the returned values and the cache afterwards. *)
Definition evaluate {B V} (compute : B -> list R -> V) (c : cache V) (x : list R) (b : B) : V * cache V :=
  match lookup c x with
  | Some v => (v, c)
  | None => (compute b x, insert c x (compute b x))
  end.

Section Histories.
Context {B V J : Type} (value : B -> list R -> V) (jacobian : B -> list R -> J).
Inductive request := Function (x : list R) (b : B) | Jacobian (x : list R) (b : B).
(** The two caches of the object: 70-72; one call and a sequence of calls, with the answers. *)
Definition serve (s : cache V * cache J) (r : request) : (V + J) * (cache V * cache J) :=
  match r with
  | Function x b => let '(v, c) := evaluate value (fst s) x b in (inl v, (c, snd s))
  | Jacobian x b => let '(v, c) := evaluate jacobian (snd s) x b in (inr v, (fst s, c))
  end.
Fixpoint answers (s : cache V * cache J) (rs : list request) : list (V + J) :=
  match rs with
  | [] => []
  | r :: rs' => let '(a, s') := serve s r in a :: answers s' rs'
  end.
End Histories.
Arguments request : clear implicits.
