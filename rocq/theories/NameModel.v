(** Model of FilenameHelper, the names of the output files of a time dependent computation:
    dune/pdelab/common/instationaryfilenamehelper.hh 17-53.

    A C string is the list of its characters (numbers, without the final zero).  An int has 32 bits.

    Simplification: what lies in the buffers before the first getName() is not modelled (empty strings). *)
From Coq Require Import ZArith.
From Verif Require Import Common.
Local Open Scope Z_scope.

Notation cstring := (list Z).

(** Decimal digits of a number below 10^fuel, most significant first (printf of the C library). *)
Fixpoint decimal (fuel : nat) (n : Z) : cstring :=
  match fuel with
  | O => []
  | S f => (if n <? 10 then [] else decimal f (n / 10)) ++ [48 + n mod 10]
  end.

(** "%05d": at least five characters, filled with zeros behind the sign. *)
Definition minus_sign : Z := 45.
Definition zero_padded (width : nat) (n : Z) : cstring :=
  let ds := decimal 10 n in repeat 48 (width - length ds) ++ ds.
Definition format05 (i : Z) : cstring :=
  if i <? 0 then minus_sign :: zero_padded 4 (- i) else zero_padded 5 i.

(** snprintf(buffer,255,...): at most 254 characters are kept. *)
Definition snprintf255 (s : cstring) : cstring := firstn 254 s.

(** 30, 36: "%s-%05d" *)
Definition formatted (basename : cstring) (i : Z) : cstring := basename ++ [minus_sign] ++ format05 i.

Record helper := Helper { fname : cstring; basename : cstring; index : Z }.

(** 20-30 *)
Definition construct (base : cstring) (i : Z) : helper := Helper [] (snprintf255 base) i.

Definition int_max : Z := 2 ^ 31 - 1.

Inductive call := GetNameOf (i : Z) | GetName | Increment.

(** 32-47; getName returns the address of the member fname. *)
Definition step (h : helper) (o : call) : res helper :=
  match o with
  | GetNameOf i => Ok (Helper (snprintf255 (formatted (basename h) i)) (basename h) (index h))
  | GetName => Ok (Helper (snprintf255 (formatted (basename h) (index h))) (basename h) (index h))
  | Increment => if index h =? int_max then UB else Ok (Helper (fname h) (basename h) (index h + 1))
  end.
Definition run (os : list call) (h : helper) : res helper := foldM step os h.

(** What the program finds at the returned address when it reads it. *)
Definition read (h : helper) : cstring := fname h.
