(** Model of the parallel operators, scalar products and preconditioners handed to the ISTL solvers.

    Modelled code:
    - dune/pdelab/backend/istl/novlpistlsolverbackend.hh 53-128 (NonoverlappingOperator), 131-187
      (NonoverlappingScalarProduct), 235-323 (NonoverlappingJacobi), 351-359 (norm of
      the backends), 672-686 (ISTLBackend_NOVLP_ExplicitDiagonal::apply)
    - dune/pdelab/backend/istl/ovlpistlsolverbackend.hh 41-85 (OverlappingOperator), 90-130 (OverlappingScalarProduct),
      133-188 (OverlappingWrappedPreconditioner), 191-304 (UMFPackSubdomainSolver, SuperLUSubdomainSolver), 306-367
      (RestrictedSuperLUSubdomainSolver), 1046-1068 (ISTLBackend_OVLP_ExplicitDiagonal::apply)
    - dune/pdelab/backend/istl/blockmatrixdiagonal.hh 56-60, 66-82, 90-100, 293-335 (diagonal of a matrix)
    - dune/pdelab/constraints/common/constraints.hh (set_constrained_dofs)

    The distributed grid, its vectors and its communication are those of ParModel.

    Simplifications: scalar matrix blocks; a matrix is the function of its entries, absent entries are zero; real
    numbers; sequential preconditioners and direct solvers (dune-istl) are arbitrary functions. *)
From Coq Require Import Reals.
From Verif Require Import Common ParModel.

Definition order_t := list (nat * nat * nat).

(** One rank's part of a vector. *)
Definition lvec := nat -> list R.
Definition val (v : lvec) (d : dof) : R := at_dof 0%R v d.

(** The matrix of every rank: row and column DOF. *)
Definition dmat := nat -> dof -> dof -> R.

Section parallel.
  Variable W : world.
  (** The container of every rank: which DOF each of its entries belongs to. *)
  Variable shape : nat -> blocks dof.

  Definition cols (q : nat) : list dof := flatten (shape q).

  (** A vector with the value [f d] at every DOF [d]. *)
  Definition tabulate (f : dof -> R) : lvec := fun e => map (fun k => f (e, k)) (seq 0 (ndofs W e)).

  (** native(A).mv(x,y) and native(A).usmv(alpha,x,y) of dune-istl. *)
  Definition row_mv (A : dof -> dof -> R) (q : nat) (x : lvec) (i : dof) : R :=
    fold_left (fun s j => s + A i j * val x j)%R (cols q) 0%R.
  Definition mv (A : dmat) (x : dvec R) : dvec R := fun q => tabulate (row_mv (A q) q (x q)).
  Definition usmv (alpha : R) (A : dmat) (x y : dvec R) : dvec R :=
    fun q => tabulate (fun i => fold_left (fun s j => s + alpha * A q i j * val (x q) j)%R (cols q) (val (y q) i)).

  (** constraints.hh: set_constrained_dofs(cc,0.0,y); [cc q d]: the DOF has an entry in the container of rank [q]. *)
  Definition set_constrained (cc : nat -> dof -> bool) (y : dvec R) : dvec R :=
    fun q => tabulate (fun d => if cc q d then 0%R else val (y q) d).

  (** "if (gfs.gridView().comm().size()>1) communicate(AddDataHandle(y), interface)" *)
  Definition add_if_parallel (order : order_t) (y : dvec R) : res (dvec R) :=
    if 1 <? nranks W then add_handle order y else Ok y.

  (** comm().sum *)
  Definition comm_sum (f : nat -> R) : R := fold_left (fun s q => s + f q)%R (seq 0 (nranks W)) 0%R.

  (** ** Scalar products *)

  (** novlpistlsolverbackend.hh 153-160, ovlpistlsolverbackend.hh 111-118; [part] is the rank partition of the helper. *)
  Definition par_dot (part : dvec nat) (x y : dvec R) : R :=
    comm_sum (fun q => disjoint_dot q (bmap (val (x q)) (shape q)) (bmap (val (y q)) (shape q))
                                    (bmap (at_dof 0 (part q)) (shape q))).

  (** novlpistlsolverbackend.hh 165-169, ovlpistlsolverbackend.hh 123-127 *)
  Definition par_norm (part : dvec nat) (x : dvec R) : R := sqrt (par_dot part x x).

  (** novlpistlsolverbackend.hh 176-182 *)
  Definition make_consistent (order : order_t) (x : dvec R) : res (dvec R) := add_if_parallel order x.

  (** novlpistlsolverbackend.hh 351-359: norm() of the nonoverlapping backends. *)
  Definition backend_norm (part : dvec nat) (order : order_t) (v : dvec R) : res R :=
    let* x := make_consistent order v in Ok (par_norm part x).

  (** ** Nonoverlapping operator and preconditioners *)

  (** novlpistlsolverbackend.hh 84-95 *)
  Definition novlp_apply (A : dmat) (order : order_t) (x : dvec R) : res (dvec R) :=
    add_if_parallel order (mv A x).

  (** novlpistlsolverbackend.hh 103-113 *)
  Definition novlp_applyscaleadd (alpha : R) (A : dmat) (order : order_t) (x y : dvec R) : res (dvec R) :=
    add_if_parallel order (usmv alpha A x y).

  (** novlpistlsolverbackend.hh 287-300, blockmatrixdiagonal.hh 56-60: the diagonal of the rank's matrix, summed over the
      border and inverted. *)
  Definition jacobi_setup (A : dmat) (order : order_t) : res (dvec R) :=
    let* diagonal := add_handle order (fun q => tabulate (fun d => A q d d)) in
    Ok (fun q => tabulate (fun d => / val (diagonal q) d)%R).

  (** novlpistlsolverbackend.hh 311-314 *)
  Definition jacobi_apply (inverse_diagonal : dvec R) (d : dvec R) : dvec R :=
    fun q => tabulate (fun i => val (inverse_diagonal q) i * val (d q) i)%R.

  (** One step of SeqJac with relaxation 1 (dune-istl, dbjac): z + D^-1 (r - A z). *)
  Definition seq_jac (A : dmat) (z r : dvec R) : dvec R :=
    fun q => tabulate (fun i => val (z q) i + (val (r q) i - row_mv (A q) q (z q) i) / A q i i)%R.

  (** novlpistlsolverbackend.hh 672-682 *)
  Definition novlp_explicit_diagonal (A : dmat) (order : order_t) (z r : dvec R) : res (dvec R) :=
    add_if_parallel order (seq_jac A z r).

  (** ** Overlapping operator and preconditioners *)

  (** ovlpistlsolverbackend.hh 57-63 *)
  Definition ovlp_apply (cc : nat -> dof -> bool) (A : dmat) (x : dvec R) : dvec R := set_constrained cc (mv A x).

  (** ovlpistlsolverbackend.hh 66-72 *)
  Definition ovlp_applyscaleadd (cc : nat -> dof -> bool) (alpha : R) (A : dmat) (x y : dvec R) : dvec R :=
    set_constrained cc (usmv alpha A x y).

  (** A sequential preconditioner or direct solver on every rank: rank, old content of v, right hand side. *)
  Definition seq_prec := nat -> lvec -> lvec -> lvec.

  (** ovlpistlsolverbackend.hh 160-168 *)
  Definition wrapped_apply (cc : nat -> dof -> bool) (prec : seq_prec) (order : order_t) (v d : dvec R) : res (dvec R) :=
    let dd := set_constrained cc d in
    add_if_parallel order (fun q => prec q (v q) (dd q)).

  (** ovlpistlsolverbackend.hh 222-232, 279-289 *)
  Definition subdomain_apply (solver : seq_prec) (order : order_t) (v d : dvec R) : res (dvec R) :=
    add_if_parallel order (fun q => solver q (v q) (d q)).

  (** parallelhelper.hh 124-157 (maskForeignDOFs, see ParModel.mask_foreign and C40): by DOF. *)
  Definition mask_foreign_dofs (part : dvec nat) (v : dvec R) : dvec R :=
    fun q => tabulate (fun d => if at_dof 0 (part q) d =? q then val (v q) d else 0%R).

  (** ovlpistlsolverbackend.hh 341-353 *)
  Definition restricted_apply (solver : seq_prec) (part : dvec nat) (order : order_t) (v d : dvec R) : res (dvec R) :=
    let x := fun q => solver q (v q) (d q) in
    if 1 <? nranks W then add_handle order (mask_foreign_dofs part x) else Ok x.

  (** ovlpistlsolverbackend.hh 1046-1063 *)
  Definition ovlp_explicit_diagonal (A : dmat) (order : order_t) (z r : dvec R) : res (dvec R) :=
    if 1 <? nranks W then copy_handle order (seq_jac A z r) else Ok (seq_jac A z r).
End parallel.
