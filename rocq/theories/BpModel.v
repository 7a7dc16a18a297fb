(** Model of the function space facades of the boilerplate code on distributed vectors.

    Modelled code:
    - dune/pdelab/boilerplate/pdelab.hh 202-282 (StructuredGrid for YaspGrid), 498-577 (CGCONBase: make_consistent of the
      three solver categories), 652-685 and 768-801 (CGSpace: assembleConstraints, clearConstraints, setConstrainedDOFS,
      setNonConstrainedDOFS, copyConstrainedDOFS, copyNonConstrainedDOFS), 823-885 (DGCONBase), 947-982 (the same
      members of DGPkSpace; the other discontinuous spaces repeat them)
    - dune/pdelab/constraints/common/constraints.hh 796-802, 936-940, 960-965, 987-992 (helpers on constrained DOFs)
    - dune/pdelab/constraints/conforming.hh 45-140 (which faces constrain their DOFs)

    The distributed grid, its vectors and its communication are those of ParModel and DdModel.

    Simplifications: one function space per run; a boundary face is the list of its DOFs with a number by which the
    boundary condition type can tell it from others; real numbers instead of floating point numbers; the messages of
    every communication arrive in the same order [order] and those of the setup of the parallel helper in the order
    [porder]. *)
From Coq Require Import Reals.
From Verif Require Import Common ParModel DdModel.

Record face := Face { fid : nat; fdofs : list dof }.

(** What a rank's grid view offers to the constraints assembler: boundary faces and processor boundary faces. *)
Record faces := Faces { boundary_faces : nat -> list face; processor_faces : nat -> list face }.

Inductive category := Sequential | Overlapping | Nonoverlapping.

Definition dof_eqb (d e : dof) : bool := (fst d =? fst e) && (snd d =? snd e).

(** constraints.hh (constraints), conforming.hh 53-93 and 109-136: the keys of the container of rank [q]; [dirichlet]
    is the boundary condition type.  OverlappingConformingDirichletConstraints adds the processor boundary. *)
Definition assembled (F : faces) (c : category) (dirichlet : nat -> bool) (q : nat) : list dof :=
  flat_map (fun f => if dirichlet (fid f) then fdofs f else []) (boundary_faces F q) ++
  match c with
  | Overlapping => flat_map fdofs (processor_faces F q)
  | Sequential | Nonoverlapping => []
  end.

Section facade.
  Variable W : world.
  Variable F : faces.
  Variable c : category.
  Variable porder order : order_t.

  (** The helpers on one rank; [keys]: the keys of the container in the order of the hash map.
      x[k] = value: *)
  Definition write (k : dof) (r : R) (v : dof -> R) : dof -> R := fun d => if dof_eqb k d then r else v d.
  (** constraints.hh 796-802 *)
  Definition set_loop (keys : list dof) (r : R) (v : dof -> R) : dof -> R :=
    fold_left (fun v k => write k r v) keys v.
  (** constraints.hh 936-940 *)
  Definition copy_loop (keys : list dof) (xin xout : dof -> R) : dof -> R :=
    fold_left (fun v k => write k (xin k) v) keys xout.
  (** constraints.hh 960-965: tmp(xg.gridFunctionSpace()); tmp = x; copy_constrained_dofs(cg,xg,tmp); xg = tmp *)
  Definition set_non_loop (keys : list dof) (r : R) (v : dof -> R) : dof -> R := copy_loop keys v (fun _ => r).
  (** constraints.hh 987-992: tmp(xin); copy_constrained_dofs(cg,xout,tmp); xout = tmp *)
  Definition copy_non_loop (keys : list dof) (xin xout : dof -> R) : dof -> R := copy_loop keys xout xin.

  (** pdelab.hh 516-517, 544-553, 571-572, 834-835, 850-851, 867-876; the parallel helper is built in every call
      (ParModel.rank_partition). *)
  Definition make_consistent (x : dvec R) : res (dvec R) :=
    match c with
    | Sequential | Nonoverlapping => Ok x
    | Overlapping =>
        let* part := rank_partition W porder in
        let masked := mask_foreign_dofs W part x in
        if 1 <? nranks W then add_handle order masked else Ok masked
    end.

  (** The space with its container (per rank) and the vectors of the program. *)
  Record state := State { cc : nat -> list dof; vectors : nat -> dvec R }.

  Inductive call :=
  | AssembleConstraints (dirichlet : nat -> bool)
  | ClearConstraints
  | SetConstrained (x : nat) (r : R)
  | SetNonConstrained (x : nat) (r : R)
  | CopyConstrained (xin xout : nat)
  | CopyNonConstrained (xin xout : nat).

  Definition store (st : state) (x : nat) (v : dvec R) : res state :=
    let* v := make_consistent v in
    Ok (State (cc st) (fun y => if y =? x then v else vectors st y)).

  (** pdelab.hh 652-685, 768-801, 947-982 *)
  Definition step (st : state) (o : call) : res state :=
    match o with
    | AssembleConstraints dirichlet => Ok (State (assembled F c dirichlet) (vectors st))
    | ClearConstraints => Ok (State (fun _ => []) (vectors st))
    | SetConstrained x r =>
        store st x (fun q => tabulate W (set_loop (cc st q) r (val (vectors st x q))))
    | SetNonConstrained x r =>
        store st x (fun q => tabulate W (set_non_loop (cc st q) r (val (vectors st x q))))
    | CopyConstrained xin xout =>
        store st xout (fun q => tabulate W (copy_loop (cc st q) (val (vectors st xin q)) (val (vectors st xout q))))
    | CopyNonConstrained xin xout =>
        store st xout (fun q => tabulate W (copy_non_loop (cc st q) (val (vectors st xin q)) (val (vectors st xout q))))
    end.

  (** A program that uses the space. *)
  Definition run (os : list call) (st : state) : res state := foldM step os st.
End facade.

(** ** StructuredGrid *)

(** What is handed to the constructor of YaspGrid: extensions, cells, periodicity, overlap; the grid starts at the
    origin. *)
Record yasp := Yasp { lengths : list R; ncells : list nat; periodicity : list bool; layers : nat }.

(** pdelab.hh 202-215: unit cube; the type of the elements is ignored. *)
Definition yasp_unit (dim cells overlap : nat) : yasp :=
  Yasp (repeat 1%R dim) (repeat cells dim) (repeat false dim) overlap.

(** The check of 223-228 and 255-260. *)
Definition corner_rejected (lower upper : R) : bool :=
  if Rlt_dec (Rabs upper * (1 / 10 ^ 10)) (Rabs lower) then true else false.

(** pdelab.hh 218-247 ([periodic] all false) and 250-280. *)
Definition yasp_box (lower upper : list R) (cells : list nat) (periodic : list bool) (overlap : nat) : res yasp :=
  if existsb (fun p => corner_rejected (fst p) (snd p)) (combine lower upper) then Throw
  else Ok (Yasp upper cells periodic overlap).
