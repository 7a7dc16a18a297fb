(** The eigenvalue solver and the local operator of the GenEO coarse space.
    backend/istl/geneo/arpackpp_geneo.hh (abbreviated arpack.hh) and
    backend/istl/geneo/localoperator_ovlp_region.hh (region.hh). *)
From Coq Require Export Reals.
From Verif Require Export Common.
Local Open Scope R_scope.

(** Vectors and matrices; the product B_.mv (dune-istl). *)
Definition vec := nat -> R.
Definition mat := nat -> nat -> R.
Fixpoint rsum (n : nat) (f : nat -> R) : R := match n with O => 0 | S k => rsum k f + f k end.
Definition apply (n : nat) (A : mat) (x : vec) : vec := fun i => rsum n (fun j => A i j * x j).

(** ** The eigenvalue solver *)

(** arpack.hh 291-292: ashiftb = a - sigma * b. *)
Definition shifted (A B : mat) (sigma : R) : mat := fun i j => A i j + (- sigma) * B i j.
(** arpack.hh 92-106: w = solve(B v); [solve] is UMFPack for the matrix of the wrapper. *)
Definition mult_mv (n : nat) (solve : vec -> vec) (B : mat) (v : vec) : vec := solve (apply n B v).
(** What ARPACK reports for one converged value: real and imaginary part and the vector. *)
Record pair := mkpair { p_re : R; p_im : R; p_vec : vec }.
(** arpack.hh 287-288 and 322-325: the arrays ev and ev_imag have nev entries, initially zero, of which the converged
    ones are set.  [None]: the memory behind RawEigenvector of a pair that did not converge. *)
Definition ev (res : list pair) (k : nat) : R := match nth_error res k with Some p => p_re p | None => 0 end.
Definition raw (res : list pair) (k : nat) : option vec := match nth_error res k with Some p => Some (p_vec p) | None => None end.
(** arpack.hh 333 and 339: sigma + 1./ev in floating point, where [None] is infinity. *)
Definition unshift (sigma x : R) : option R := if Req_EM_T x 0 then None else Some (sigma + 1 / x).
Definition less (a b : option R) : bool :=
  match a, b with Some x, Some y => if Rlt_dec x y then true else false | Some _, None => true | None, _ => false end.
(** arpack.hh 327-335: the indices sorted by the values (std::sort; ties in any order, here stable). *)
Fixpoint insert (key : nat -> option R) (k : nat) (l : list nat) : list nat :=
  match l with [] => [k] | j :: r => if less (key k) (key j) then k :: l else j :: insert key k r end.
Definition sort (key : nat -> option R) (l : list nat) : list nat := fold_left (fun acc k => insert key k acc) l [].
(** arpack.hh 271-348: computeGenNonSymMinMagnitude; the number of values is that of the vectors passed.  The
    imaginary parts are not used. *)
Definition compute (nev : nat) (sigma : R) (res : list pair) : list (option R * option vec) :=
  map (fun k => (unshift sigma (ev res k), raw res k)) (sort (fun k => unshift sigma (ev res k)) (seq 0 nev)).
Local Close Scope R_scope.

(** ** The local operator on the overlap region *)

(** A cell by its dofs; a contribution is an entry of the residual (dof and value) or of the pattern. *)
Definition cell := list nat.
(** region.hh 187-197: the loop over the dofs of the cell. *)
Fixpoint is_interior (sum : nat -> nat) (c : cell) : bool :=
  match c with [] => false | d :: r => if sum d <? 2 then true else is_interior sum r end.
(** region.hh 23-28: subdomain_sum starts with one and adds the ones of all processes that have the dof. *)
Definition subdomain_sum (others : nat -> nat) (d : nat) : nat := 1 + others d.
(** The operator it wraps: contributions by kind (types of contributions are left open). *)
Record base (X : Type) := mkbase { b_volume : cell -> list X; b_post : cell -> list X; b_boundary : cell -> list X;
                                   b_skeleton : cell -> cell -> list X; b_lambda : cell -> list X }.
Arguments mkbase {X}. Arguments b_volume {X}. Arguments b_post {X}. Arguments b_boundary {X}. Arguments b_skeleton {X}. Arguments b_lambda {X}.
(** region.hh 98-178: alpha and lambda terms, and their Jacobians. *)
Definition region {X} (sum : nat -> nat) (b : base X) : base X :=
  mkbase (fun c => if is_interior sum c then [] else b_volume b c)
         (fun c => if is_interior sum c then [] else b_post b c)
         (fun c => if is_interior sum c then [] else b_boundary b c)
         (fun s n => if is_interior sum s then [] else b_skeleton b s n)
         (fun c => if is_interior sum c then [] else b_lambda b c).
(** region.hh 66-96: the pattern; pattern_volume_post_skeleton calls pattern_volume of the base. *)
Definition region_pattern {X} (sum : nat -> nat) (b : base X) : base X :=
  mkbase (fun c => if is_interior sum c then [] else b_volume b c)
         (fun c => if is_interior sum c then [] else b_volume b c)
         (fun c => if is_interior sum c then [] else b_boundary b c)
         (fun s n => if is_interior sum s then [] else b_skeleton b s n)
         (fun _ => []).
(** The assembler: all cells, and the faces with the cell they are visited from (None: boundary). *)
Definition assemble {X} (b : base X) (cells : list cell) (faces : list (cell * option cell)) : list X :=
  flat_map (fun c => b_volume b c ++ b_lambda b c) cells ++
  flat_map (fun f => match snd f with Some n => b_skeleton b (fst f) n | None => b_boundary b (fst f) end) faces ++
  flat_map (b_post b) cells.
