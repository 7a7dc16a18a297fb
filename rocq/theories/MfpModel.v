(** Model of the matrix-free block preconditioners and of the solver statistics.

    Modelled code:
    - dune/pdelab/backend/istl/matrixfree/assembledblockjacobipreconditioner.hh 162-233 (alpha_volume,
      jacobian_apply_volume)
    - dune/pdelab/backend/istl/matrixfree/iterativeblockjacobipreconditioner.hh 57-72 (point Jacobi of a block), 118-134
      (operator of a block), 337-353 (alpha_volume), 356-440 (jacobian_apply_volume)
    - dune/pdelab/backend/istl/matrixfree/blocksorpreconditioner.hh 103-287
    - dune/pdelab/backend/istl/matrixfree/gridoperatorpreconditioner.hh 32-84
    - dune/pdelab/backend/istl/matrixfree/solverstatistics.hh 33-127

    Simplifications: field operations are those of the real numbers; the LU decomposition of Eigen and the Krylov solver
    of dune-istl are parameters with the contract stated in MfpSpec; all blocks have the same size, which the fast DG
    assembler requires. *)
From Coq Require Import Reals.
From Verif Require Import Common ParModel.

Definition vector := nat -> R.
Definition mat := nat -> nat -> R.
Definition set (v : vector) (i : nat) (x : R) : vector := fun k => if k =? i then x else v k.

(** ** AssembledBlockJacobiPreconditionerLocalOperator *)

(** assembledblockjacobipreconditioner.hh 176-181: the inverse of Eigen's permutation; resized vectors are not
    initialised ([junk]). *)
Definition inverse_permutation (n : nat) (indices junk : nat -> nat) : nat -> nat :=
  fold_left (fun p i => fun k => if k =? indices i then i else p k) (seq 0 n) junk.

(** assembledblockjacobipreconditioner.hh 219-225 *)
Definition forward_solve (n : nat) (lu : mat) (perm : nat -> nat) (z ztmp : vector) : vector :=
  fold_left (fun t i => set t i (fold_left (fun rhs j => rhs - lu i j * t j)%R (seq 0 i) (z (perm i)))) (seq 0 n) ztmp.
(** assembledblockjacobipreconditioner.hh 226-232 *)
Definition backward_solve (n : nat) (lu : mat) (ztmp y : vector) : vector :=
  fold_left (fun y i => set y i (fold_left (fun rhs j => rhs - lu i j * y j)%R (rev (seq (i + 1) (n - 1 - i))) (ztmp i) / lu i i)%R)
    (rev (seq 0 n)) y.

(** jacobian_apply_volume: [lu] and [perm] from the cache. *)
Definition block_solve (n : nat) (lu : mat) (perm : nat -> nat) (z y : vector) : vector :=
  backward_solve n lu (forward_solve n lu perm z (fun _ => 0%R)) y.

(** ** IterativeBlockJacobiPreconditionerLocalOperator *)

(** std::vector::resize; new entries are zero. *)
Definition resize_real (n : nat) (l : list R) : list R := firstn n l ++ repeat 0%R (n - length l).

(** iterativeblockjacobipreconditioner.hh 342-352 for the cache entry of a cell: the point diagonal [diag] of the block
    is accumulated with the weight of the view, then every value is inverted. *)
Definition setup_diagonal (n : nat) (weight : R) (diag : vector) (entry : list R) : list R :=
  let resized := resize_real n entry in
  let accumulated := map (fun p => snd p + weight * diag (fst p))%R (combine (seq 0 n) resized) in
  map (fun val => 1 / val)%R accumulated.

(** iterativeblockjacobipreconditioner.hh 57-72 *)
Definition point_jacobi (precondition : bool) (diagonal_weight : R) (inv_diagonal : list R) (d : list R) : list R :=
  if precondition then map (fun p => diagonal_weight * fst p * snd p)%R (combine d inv_diagonal) else d.

(** iterativeblockjacobipreconditioner.hh 118-134: apply and applyscaleadd of the operator of a block; [block] is
    applyLocalDiagonalBlock without weight. *)
Definition block_apply (weight : R) (block : vector -> vector) (z : vector) : vector := fun i => (0 + weight * block z i)%R.
Definition block_applyscaleadd (weight : R) (block : vector -> vector) (alpha : R) (z y : vector) : vector :=
  fun i => (y i + alpha * block_apply weight block z i)%R.

(** iterativeblockjacobipreconditioner.hh 357-394, 402-440: [solver op prec rhs] is the Krylov solver started with zero. *)
Definition iterative_solve (solver : (vector -> vector) -> (list R -> list R) -> vector -> vector)
  (weight : R) (block : vector -> vector) (precondition : bool) (diagonal_weight : R) (inv_diagonal : list R)
  (z y : vector) : vector :=
  let y_tmp := solver (block_apply weight block) (point_jacobi precondition diagonal_weight inv_diagonal) z in
  fun i => (y i + y_tmp i)%R.

(** ** BlockSORPreconditionerLocalOperator *)

Record sor_cell := SorCell {
  cid : nat;
  interior : bool;           (** partitionType() == InteriorEntity *)
  sides : list nat           (** the cells outside the skeleton intersections, in order of visit *)
}.

Section sor.
  Variable n : nat.                              (** size of a block *)
  Variable omega weight : R.
  Variable offdiag : nat -> nat -> mat.          (** cell, number of the side: block of the wrapped operator *)
  Variable jacobi : nat -> vector -> vector -> vector.  (** cell, z, y: jacobian_apply_volume of the diagonal preconditioner *)

  (** BlockOffDiagonalLocalOperatorWrapper::jacobian_apply_skeleton: adds the block times the outside coefficients to the
      inside view (see DiagModel.off_apply and C56). *)
  Definition apply_side (c k : nat) (y_n a : vector) : vector :=
    fun i => (a i + weight * fold_left (fun s j => s + offdiag c k i j * y_n j)%R (seq 0 n) 0%R)%R.

  (** blocksorpreconditioner.hh 124, 131 (a_i = 0), 195-204, 207-217 (skeleton), 220-287 (post skeleton); [y] is the global
      vector, read and written in place through the aliased views. *)
  Definition sor_visit (z : nat -> vector) (y : nat -> vector) (c : sor_cell) : nat -> vector :=
    let a0 : vector := fun _ => 0%R in
    let a1 := fold_left (fun a k => if interior c then apply_side (cid c) k (y (nth k (sides c) 0)) a else a)
                (seq 0 (length (sides c))) a0 in
    let a2 : vector := fun i => (a1 i - z (cid c) i)%R in
    let b := jacobi (cid c) a2 (fun _ => 0%R) in
    fun c' => if c' =? cid c then (fun i => (1 - omega) * y c' i - omega * b i)%R else y c'.

  (** GridOperatorPreconditioner::apply with the fast DG assembler: two-sided, the cells in grid order. *)
  Definition sor_apply (cells : list sor_cell) (z y : nat -> vector) : nat -> vector :=
    fold_left (fun y c => sor_visit z y c) cells y.
End sor.

(** ** GridOperatorPreconditioner *)

(** The preconditioner and the setup flag of the local operator; [built] is the point at which the blocks in the cache
    were assembled; a linear operator does not look at the point. *)
Record prec_state {U : Type} := PrecState { point : option U; require_setup : bool; built : option (option U) }.
Arguments prec_state : clear implicits.
Arguments PrecState {U}.
Definition prec_init {U} : prec_state U := PrecState None true None.

Section prec.
  Context {U : Type}.
  Variable is_linear : bool.

  (** gridoperatorpreconditioner.hh 37-42 *)
  Definition set_point (u : U) (s : prec_state U) : prec_state U := PrecState (Some u) (require_setup s) (built s).
  (** setRequireSetup of the local operators *)
  Definition set_require (b : bool) (s : prec_state U) : prec_state U := PrecState (point s) b (built s).
  (** gridoperatorpreconditioner.hh 44-75 *)
  Definition pre (s : prec_state U) : res (prec_state U) :=
    if negb is_linear && match point s with None => true | Some _ => false end then Throw else
    if require_setup s
    then Ok (PrecState (point s) false (Some (if is_linear then None else point s)))
    else Ok s.
  (** gridoperatorpreconditioner.hh 77-84: the point of the blocks that are applied; the local operators assert that the
      setup was done, the cache is empty if it never was. *)
  Definition apply_prec (s : prec_state U) : res (option U) :=
    if require_setup s then UB else
    match built s with
    | None => UB
    | Some b => if is_linear then Ok b else match point s with None => UB | Some _ => Ok b end
    end.

  Inductive op := SetPoint (u : U) | SetRequire (b : bool) | Pre | Apply.
  Definition step (s : prec_state U) (o : op) : res (prec_state U) :=
    match o with
    | SetPoint u => Ok (set_point u s)
    | SetRequire b => Ok (set_require b s)
    | Pre => pre s
    | Apply => let* _ := apply_prec s in Ok s
    end.
End prec.
Arguments op : clear implicits.

(** ** SolverStatistics<int> *)

(** Signed overflow is undefined. *)
Definition int_min : Z := (- 2147483648)%Z.
Definition int_max : Z := 2147483647%Z.
Definition to_int (z : Z) : res Z := if ((int_min <=? z) && (z <=? int_max))%Z then Ok z else UB.

Section stat.
  Variable ranks : nat.
  Variable data : nat -> list Z.       (** rank: appended values *)

  (** std::accumulate(...,0), std::inner_product(...,0) *)
  Definition accumulate_int (l : list Z) : res Z := foldM (fun s x => to_int (s + x)) l 0%Z.
  Definition inner_int (l : list Z) : res Z := foldM (fun s x => let* p := to_int (x * x) in to_int (s + p)) l 0%Z.

  (** A collective operation on one value of every rank. *)
  Definition collect {A} (f : nat -> res A) : res (list A) :=
    foldM (fun l q => let* x := f q in Ok (l ++ [x])) (seq 0 ranks) [].
  Definition comm_sum (l : list Z) : Z := fold_left Z.add l 0%Z.
  Definition comm_best (better : Z -> Z -> Z) (l : list Z) : res Z :=
    match l with [] => UB | x :: t => Ok (fold_left better t x) end.

  (** solverstatistics.hh 66-70 *)
  Definition stat_size : nat := fold_left (fun s q => s + length (data q)) (seq 0 ranks) 0.
  (** solverstatistics.hh 76-82 *)
  Definition stat_avg : res R :=
    let* s := collect (fun q => accumulate_int (data q)) in
    Ok (IZR (comm_sum s) / INR stat_size)%R.
  (** solverstatistics.hh 88-98 *)
  Definition stat_stddev : res R :=
    let* s := collect (fun q => accumulate_int (data q)) in
    let* ss := collect (fun q => inner_int (data q)) in
    let gs := INR stat_size in
    Ok (sqrt (1 / (gs - 1) * (IZR (comm_sum ss) - IZR (comm_sum s) * IZR (comm_sum s) / gs)))%R.
  (** solverstatistics.hh 104-108, 114-118: min_element of an empty range is its end. *)
  Definition stat_best (better : Z -> Z -> Z) : res Z :=
    let* l := collect (fun q => comm_best better (data q)) in
    comm_best better l.
  Definition stat_min : res Z := stat_best Z.min.
  Definition stat_max : res Z := stat_best Z.max.
End stat.
