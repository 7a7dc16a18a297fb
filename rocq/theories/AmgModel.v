(** Model of the solvers that combine algebraic multigrid (AMG) with the discontinuous Galerkin (DG) spaces, and of the
    life of AMG hierarchies in the linear solver backends.

    Modelled code:
    - dune/pdelab/backend/istl/cg_to_dg_prolongation.hh 38-96 (ComputeCG2DGVisitor), 100-138 (CG2DGProlongation)
    - dune/pdelab/backend/istl/seq_amg_dg_backend.hh 28-133 (SeqDGAMGPrec), 194-196, 314-318
      (setDGSmootherRelaxation), 332-402 (ISTLBackend_SEQ_AMG_4_DG::apply)
    - dune/pdelab/backend/istl/ovlp_amg_dg_backend.hh 682-795 (ISTLBackend_OVLP_AMG_4_DG::apply; its preconditioner is in
      AmgParModel.v)
    - dune/pdelab/backend/istl/seqistlsolverbackend.hh 719-843 (ISTLBackend_SEQ_AMG)
    - dune/pdelab/backend/istl/ovlpistlsolverbackend.hh 1080-1247 (ISTLBackend_AMG),
      dune/pdelab/backend/istl/novlpistlsolverbackend.hh 883-1055 (ISTLBackend_AMG_NOVLP): the same life cycle

    Simplifications: scalar blocks; a matrix is the function of its entries; real numbers; sequential preconditioners and
    AMG (dune-istl) are arbitrary functions of the vector they are given; a finite element is its list of shape functions
    and the coefficients its interpolation computes. Timing and output are left out. *)
From Coq Require Import Reals.
From Verif Require Import Common.

(** ** The prolongation from the conforming space into the DG space *)
Section prolongation.
  (** Points of the reference element. *)
  Variable X : Type.

  (** A leaf of the local function space of the conforming space: shape functions and the positions of their
      coefficients in the local vector. *)
  Record cg_leaf := { shapes : list (X -> R); cg_index : nat -> nat }.
  (** A leaf of the local DG space: its size, the interpolation of its finite element and the positions. *)
  Record dg_leaf := { dg_size : nat; interpolate : (X -> R) -> list R; dg_index : nat -> nat }.

  (** Trees of local function spaces. *)
  Inductive tree (L : Type) := Leaf (l : L) | Node (children : list (tree L)).
  Arguments Leaf {L}. Arguments Node {L}.

  Definition matrix := nat -> nat -> R.

  (** _mat(lfsv,j,lfsu,i) = value *)
  Definition store (m : matrix) (r c : nat) (a : R) : matrix := fun i j => if (i =? r) && (j =? c) then a else m i j.

  (** cg_to_dg_prolongation.hh 75-95: ComputeCG2DGVisitor::leaf; v[j] of the interpolated coefficients. *)
  Definition visit_leaf (u : cg_leaf) (v : dg_leaf) (m : matrix) : matrix :=
    fold_left (fun m i =>
      let f := nth i (shapes u) (fun _ => 0%R) in
      let c := interpolate v f in
      fold_left (fun m j => store m (dg_index v j) (cg_index u i) (nth j c 0%R)) (seq 0 (dg_size v)) m)
      (seq 0 (length (shapes u))) m.

  (** TypeTree::applyToTreePair (dune-typetree): children with the same position are visited together; trees of different
      shape do not compile ([None]). *)
  Fixpoint visit_pair (u : tree cg_leaf) (v : tree dg_leaf) (m : matrix) : option matrix :=
    match u, v with
    | Leaf a, Leaf b => Some (visit_leaf a b m)
    | Node us, Node vs =>
        (fix children (us : list (tree cg_leaf)) (vs : list (tree dg_leaf)) (m : matrix) : option matrix :=
           match us, vs with
           | [], [] => Some m
           | a :: us', b :: vs' => match visit_pair a b m with Some m' => children us' vs' m' | None => None end
           | _, _ => None
           end) us vs m
    | _, _ => None
    end.

  (** A cell: the two local function spaces, their sizes, and the global positions of their degrees of freedom. *)
  Record pcell := { cg_tree : tree cg_leaf; dg_tree : tree dg_leaf; cg_local : nat; dg_local : nat;
                    cg_global : nat -> nat; dg_global : nat -> nat }.

  (** One cell of PGO::jacobian: the local matrix starts with zeros, jacobian_volume fills it, and its entries are added to
      the global matrix (the engine is the subject of C04 - C08; there are no constraints and the pattern is full). *)
  Definition add_cell (P : matrix) (c : pcell) : option matrix :=
    match visit_pair (cg_tree c) (dg_tree c) (fun _ _ => 0%R) with
    | None => None
    | Some m => Some (fold_left (fun P r => fold_left (fun P k => store P (dg_global c r) (cg_global c k)
                                                         (P (dg_global c r) (cg_global c k) + m r k)%R)
                                                      (seq 0 (cg_local c)) P) (seq 0 (dg_local c)) P)
    end.

  (** seq_amg_dg_backend.hh 231-235: "pmatrix = 0.0; pgo.jacobian(cgx,pmatrix);" *)
  Definition prolongation (cells : list pcell) : option matrix :=
    fold_left (fun P c => match P with Some P => add_cell P c | None => None end) cells (Some (fun _ _ => 0%R)).
End prolongation.
Arguments Leaf {L}. Arguments Node {L}.
Arguments shapes {X}. Arguments cg_index {X}. Arguments dg_size {X}. Arguments interpolate {X}. Arguments dg_index {X}.
Arguments cg_tree {X}. Arguments dg_tree {X}. Arguments cg_local {X}. Arguments dg_local {X}.
Arguments cg_global {X}. Arguments dg_global {X}. Arguments visit_leaf {X}. Arguments visit_pair {X}. Arguments add_cell {X}.
Arguments prolongation {X}. Arguments Build_cg_leaf {X}. Arguments Build_dg_leaf {X}. Arguments Build_pcell {X}.

(** ** The hybrid preconditioner *)
Section hybrid.
  (** Degrees of freedom of the DG space and of the conforming (CG) space. *)
  Variables D E : Type.
  Variable fine : list D.
  Variable coarse : list E.

  Definition dgvec := D -> R.
  Definition cgvec := E -> R.

  (** seq_amg_dg_backend.hh 31-36: members; the preconditioners get the old content of v and the defect. *)
  Record hybrid := { dgmatrix : D -> D -> R; dgprec : dgvec -> dgvec -> dgvec; cgprec : cgvec -> cgvec -> cgvec;
                     prol : D -> E -> R; n1 : Z; n2 : Z }.

  (** dgmatrix.mmv(v,d): d -= A v *)
  Definition mmv (A : D -> D -> R) (v d : dgvec) : dgvec := fun i => fold_left (fun s j => s - A i j * v j)%R fine (d i).
  (** p.mtv(d,cgd): cgd = P^T d *)
  Definition mtv (P : D -> E -> R) (d : dgvec) : cgvec := fun k => fold_left (fun s i => s + P i k * d i)%R fine 0%R.
  (** p.mv(cgv,v): v = P cgv *)
  Definition mv (P : D -> E -> R) (w : cgvec) : dgvec := fun i => fold_left (fun s k => s + P i k * w k)%R coarse 0%R.
  (** x += v *)
  Definition add (x v : dgvec) : dgvec := fun i => (x i + v i)%R.

  (** seq_amg_dg_backend.hh 89-95 and 112-118: one smoothing step on (x,d). *)
  Definition smooth_step (h : hybrid) (xd : dgvec * dgvec) : dgvec * dgvec :=
    let (x, d) := xd in
    let v := dgprec h (fun _ => 0%R) d in
    (add x v, mmv (dgmatrix h) v d).

  (** "for (int i=0; i<n; i++)" *)
  Definition smooth (h : hybrid) (n : Z) (xd : dgvec * dgvec) : dgvec * dgvec := Nat.iter (Z.to_nat n) (smooth_step h) xd.

  (** seq_amg_dg_backend.hh 97-109 *)
  Definition coarse_step (h : hybrid) (xd : dgvec * dgvec) : dgvec * dgvec :=
    let (x, d) := xd in
    let cgd := mtv (prol h) d in
    let cgv := cgprec h (fun _ => 0%R) cgd in
    let v := mv (prol h) cgv in
    (add x v, mmv (dgmatrix h) v d).

  (** seq_amg_dg_backend.hh 82-119: apply(x,b) *)
  Definition hybrid_apply (h : hybrid) (x b : dgvec) : dgvec :=
    fst (smooth h (n2 h) (coarse_step h (smooth h (n1 h) (x, b)))).

  (** seq_amg_dg_backend.hh 349-351: transposeMatMultMat and matMultMat, the CG matrix P^T A P. *)
  Definition triple_product (P : D -> E -> R) (A : D -> D -> R) : E -> E -> R :=
    fun k l => fold_left (fun s j => s + fold_left (fun s i => s + P i k * A i j)%R fine 0%R * P j l)%R fine 0%R.
End hybrid.
Arguments dgmatrix {D E}. Arguments dgprec {D E}. Arguments cgprec {D E}. Arguments prol {D E}.
Arguments n1 {D E}. Arguments n2 {D E}. Arguments Build_hybrid {D E}. Arguments mmv {D}. Arguments mtv {D E}. Arguments mv {D E}.
Arguments add {D}. Arguments smooth_step {D E}. Arguments smooth {D E}. Arguments coarse_step {D E}. Arguments hybrid_apply {D E}.
Arguments triple_product {D E}.

(** seq_amg_dg_backend.hh 194 and 315-318: "int smoother_relaxation = 1.0;", assigned from a double: the conversion
    truncates towards zero. *)
Definition truncate (x : R) : Z := if Rlt_dec x 0 then (- (up (- x) - 1))%Z else (up x - 1)%Z.
Definition set_relaxation (relaxation : R) : Z := truncate relaxation.

(** seq_amg_dg_backend.hh 384: "DGPrec(native(A),1,smoother_relaxation)": a smoother with one step and relaxation factor w
    scales its correction by w (dune-istl, Jacobi method). *)
Definition damped {D} (w : R) (correction : (D -> R) -> (D -> R)) : (D -> R) -> (D -> R) -> (D -> R) :=
  fun v d i => (v i + w * correction d i)%R.

(** ** The life of AMG hierarchies in the backends *)
Section life.
  (** Values of matrices; [galerkin] is the CG matrix of a DG matrix, [cg_rows] and [dg_rows] insert the trivial rows of
      constrained degrees of freedom (ovlp_amg_dg_backend.hh 716-728: jacobian of a grid operator with an empty local
      operator). *)
  Variable A : Type.
  Variables galerkin cg_rows dg_rows : A -> A.

  (** The matrices of the user with their present values; nothing if there is no such matrix. *)
  Definition heap := nat -> option A.
  Definition put (h : heap) (m : nat) (a : option A) : heap := fun i => if i =? m then a else h i.

  (** The matrix an operator refers to: one of the user or the member acg of the backend. *)
  Inductive mref := User (m : nat) | Acg.

  (** An AMG object keeps references to the operator and the communication object it was made with (dune-istl: it stores
      pointers that do not own; the sequential backends keep the operator alive for this reason), and the
      hierarchy of the values at that time. [amg_frame]: the call of apply whose local variables the operator and the
      communication are, or none if they are members. *)
  Record amg := { amg_matrix : mref; amg_frame : option nat; amg_setup : A }.

  (** Members of a backend. [oop]: the matrix of the member operator of ISTLBackend_SEQ_AMG; [acg] the CG matrix; [calls]
      numbers the calls of apply. *)
  Record backend := { reuse : bool; firstapply : bool; oop : option nat; acg : option A; hierarchy : option amg; calls : nat }.

  (** Constructors. *)
  Definition fresh (r : bool) : backend :=
    {| reuse := r; firstapply := true; oop := None; acg := None; hierarchy := None; calls := 0 |}.

  Definition set_reuse (r : bool) (b : backend) : backend :=
    {| reuse := r; firstapply := firstapply b; oop := oop b; acg := acg b; hierarchy := hierarchy b; calls := calls b |}.

  (** A new call of apply. *)
  Definition enter (b : backend) : backend :=
    {| reuse := reuse b; firstapply := firstapply b; oop := oop b; acg := acg b; hierarchy := hierarchy b; calls := S (calls b) |}.

  (** What a solve worked with: the matrix of the system, the finest matrix in the preconditioner, the matrix the hierarchy
      was made for. *)
  Record solve := { system : A; finest : A; made_for : A }.

  Definition matrix_of (h : heap) (b : backend) (r : mref) : res A :=
    match (match r with User m => h m | Acg => acg b end) with Some a => Ok a | None => UB end.

  (** Applying the preconditioner during call [k]: everything it refers to must exist. *)
  Definition use_amg (h : heap) (b : backend) (k : nat) : res (A * A) :=
    match hierarchy b with
    | None => UB
    | Some g =>
        if match amg_frame g with Some f => f =? k | None => true end
        then let* a := matrix_of h b (amg_matrix g) in Ok (a, amg_setup g)
        else UB
    end.

  (** "reuse==false || firstapply==true" *)
  Definition rebuild (b : backend) : bool := negb (reuse b) || firstapply b.

  (** The solver works with the operator of matrix [o] and the preconditioner. *)
  Definition solve_with (h : heap) (b : backend) (o : mref) (k : nat) : res (heap * backend * solve) :=
    let* s := matrix_of h b o in
    let* (f, g) := use_amg h b k in
    Ok (h, b, {| system := s; finest := f; made_for := g |}).

  (** seqistlsolverbackend.hh 789-821: ISTLBackend_SEQ_AMG::apply; the solver gets *oop. *)
  Definition seq_amg_apply (h : heap) (b : backend) (m : nat) : res (heap * backend * solve) :=
    match h m with
    | None => UB
    | Some a =>
        let b := enter b in
        let k := calls b in
        let b := if rebuild b
                 then {| reuse := reuse b; firstapply := false; oop := Some m; acg := acg b;
                         hierarchy := Some {| amg_matrix := User m; amg_frame := None; amg_setup := a |}; calls := k |}
                 else b in
        match oop b with None => UB | Some o => solve_with h b (User o) k end
    end.

  (** ovlpistlsolverbackend.hh 1176-1225, novlpistlsolverbackend.hh 978-1031: the operator and the communication object are
      local variables of apply. The nonoverlapping backend first makes the matrix consistent (novlpistlsolverbackend.hh
      986, see C96); for the overlapping one [prepare] is the identity. *)
  Definition par_amg_apply (prepare : A -> A) (h : heap) (b : backend) (m : nat) : res (heap * backend * solve) :=
    match h m with
    | None => UB
    | Some a0 =>
        let a := prepare a0 in
        let h := put h m (Some a) in
        let b := enter b in
        let k := calls b in
        let b := if rebuild b
                 then {| reuse := reuse b; firstapply := false; oop := oop b; acg := acg b;
                         hierarchy := Some {| amg_matrix := User m; amg_frame := Some k; amg_setup := a |}; calls := k |}
                 else b in
        solve_with h b (User m) k
    end.

  (** seq_amg_dg_backend.hh 339-394: the CG matrix and the operator of the hierarchy are members. *)
  Definition seq_dg_apply (h : heap) (b : backend) (m : nat) : res (heap * backend * solve) :=
    match h m with
    | None => UB
    | Some a =>
        let b := enter b in
        let k := calls b in
        let b := if rebuild b
                 then {| reuse := reuse b; firstapply := false; oop := oop b; acg := Some (galerkin a);
                         hierarchy := Some {| amg_matrix := Acg; amg_frame := None; amg_setup := galerkin a |}; calls := k |}
                 else b in
        solve_with h b (User m) k
    end.

  (** ovlp_amg_dg_backend.hh 689-787: as before with local operator and communication; the trivial rows are inserted into
      the user's matrix after the triple product. *)
  Definition ovlp_dg_apply (h : heap) (b : backend) (m : nat) : res (heap * backend * solve) :=
    match h m with
    | None => UB
    | Some a =>
        let b := enter b in
        let k := calls b in
        let c := cg_rows (galerkin a) in
        let h := put h m (Some (dg_rows a)) in
        let b := if rebuild b
                 then {| reuse := reuse b; firstapply := false; oop := oop b; acg := Some c;
                         hierarchy := Some {| amg_matrix := Acg; amg_frame := Some k; amg_setup := c |}; calls := k |}
                 else b in
        solve_with h b (User m) k
    end.

  (** What a program does with a backend and its matrices: Assign also creates the matrix. *)
  Inductive event := Solve (m : nat) | SetReuse (r : bool) | Assign (m : nat) (a : A) | Destroy (m : nat).

  (** One event with the apply of the backend; the results of the solves are collected. *)
  Definition step (apply : heap -> backend -> nat -> res (heap * backend * solve)) (s : heap * backend * list solve) (e : event)
    : res (heap * backend * list solve) :=
    match s with
    | (h, b, out) =>
        match e with
        | Solve m => let* (h', b', o) := apply h b m in Ok (h', b', out ++ [o])
        | SetReuse r => Ok (h, set_reuse r b, out)
        | Assign m a => Ok (put h m (Some a), b, out)
        | Destroy m => Ok (put h m None, b, out)
        end
    end.

  (** A program from the construction of the backend on. *)
  Definition run (apply : heap -> backend -> nat -> res (heap * backend * solve)) (r : bool) (l : list event)
    : res (heap * backend * list solve) := foldM (step apply) l (fun _ => None, fresh r, []).
End life.
Arguments put {A}. Arguments fresh {A}. Arguments system {A}. Arguments finest {A}. Arguments made_for {A}. Arguments Build_solve {A}.
Arguments seq_amg_apply {A}. Arguments par_amg_apply {A}. Arguments seq_dg_apply {A}. Arguments ovlp_dg_apply {A}.
Arguments Solve {A}. Arguments SetReuse {A}. Arguments Assign {A}. Arguments Destroy {A}. Arguments run {A}. Arguments step {A}.
Arguments reuse {A}. Arguments firstapply {A}. Arguments oop {A}. Arguments acg {A}. Arguments hierarchy {A}. Arguments calls {A}.
Arguments amg_matrix {A}. Arguments amg_frame {A}. Arguments amg_setup {A}. Arguments enter {A}. Arguments set_reuse {A}.
Arguments matrix_of {A}. Arguments use_amg {A}. Arguments rebuild {A}. Arguments solve_with {A}.
