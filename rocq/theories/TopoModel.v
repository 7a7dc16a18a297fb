(** common/topologyutility.hh: basic geometry types and topology ids. *)
From Coq Require Export NArith List Bool.
From Verif Require Export Common.
Export ListNotations.
Local Open Scope N_scope.

(** GeometryType::BasicType of dune-geometry; [other] stands for values of the enum without a case (extended, vertex...). *)
Inductive basic := simplex | cube | pyramid | prism | none_type | other.
(** isCube, lines 30-31 *)
Definition is_cube (dim : nat) (id : N) : bool := N.shiftr (N.lxor id (N.shiftl 1 (N.of_nat dim) - 1)) 1 =? 0.
(** isSimplex, 33-34 *)
Definition is_simplex (id : N) : bool := N.lor id 1 =? 1.
(** BasicTypeFromDimensionAndTopologyId::value, 37-42 *)
Definition basic_type (dim : nat) (id : N) : basic :=
  if is_simplex id then simplex else if is_cube dim id then cube else none_type.

(** geometryTypeFromBasicType, 51-84: topology id of the result (its dimension is [dim]).  (1 << dim) - 1 is computed in int
    and overflows from 31 on. *)
Definition type_from_basic (b : basic) (dim : nat) : res N :=
  if (dim <=? 1)%nat then Ok 0 else
  match b with
  | simplex => Ok 0
  | cube => if (dim <? 31)%nat then Ok (N.shiftl 1 (N.of_nat dim) - 1) else UB
  | pyramid => if (dim =? 3)%nat then Ok 3 else Throw
  | prism => if (dim =? 3)%nat then Ok 5 else Throw
  | none_type => Ok 0
  | other => Throw
  end.
