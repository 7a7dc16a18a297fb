(** Model of the GenEO two-level Schwarz preconditioner.

    Modelled code (dune/pdelab/backend/istl/geneo):
    - partitionofunity.hh 16-33 (standardPartitionOfUnity), 54-131 (sarkisPartitionOfUnity)
    - multicommdatahandle.hh 24-75 (MultiCommGatherScatter)
    - subdomainprojectedcoarsespace.hh 55-259 (setup_coarse_system, basis_array_offset, restrict, prolongate)
    - two_level_schwarz.hh 64-99 (TwoLevelOverlappingAdditiveSchwarz::apply)
    - geneobasis.hh 42-113, liptonbabuskabasis.hh 29-83 (selection, weighting and scaling of the basis vectors)

    The distributed grid, the messages and AddDataHandle are those of ParModel.

    Simplifications: real numbers; the direct solvers (UMFPack) and the eigensolver (ARPACK) are parameters; timers,
    barriers and output are left out; a collective operation is computed once for all ranks.  In
    sarkisPartitionOfUnity the checks for dimension, order and domain are assumed to have passed, an entity is a vertex
    with one DOF, and [position] is its position in the unit square. *)
From Coq Require Import Reals.
From Verif Require Import Common ParModel.

(** ** Partition of unity *)

(** constraints/common: set_constrained_dofs(cc, 0.0, v); [cons q e i]: DOF i of entity e is constrained on rank q. *)
Definition set_zero (cons : nat -> nat -> nat -> bool) (v : dvec R) : dvec R :=
  fun q e => zip (fun i x => if cons q e i then 0%R else x) (seq 0 (length (v q e))) (v q e).

(** partitionofunity.hh 29-30 *)
Definition invert_positive (x : R) : R := if Rlt_dec 0 x then (1 / x)%R else x.

(** partitionofunity.hh 16-33 *)
Definition standard_partition (W : world) (cons : nat -> nat -> nat -> bool) (order : list (nat * nat * nat))
  : res (dvec R) :=
  let* v := add_handle order (set_zero cons (filled W (fun _ => 1%R))) in
  Ok (fun q e => map invert_positive (set_zero cons v q e)).

Record layout := Layout {
  cells_x : nat;
  cells_y : nat;
  overlap : nat;
  partition_x : nat;
  partition_y : nat
}.

(** partitionofunity.hh 94-113: the distance function of rank [r] at the position [(x, y)].
    Integer division of the rank; std::min(a,b) is op_min. *)
Definition sarkis_distance (L : layout) (r : nat) (p : R * R) : R :=
  let '(x, y) := p in
  let Hx := (1 / INR (partition_x L))%R in
  let Hy := (1 / INR (partition_y L))%R in
  let hx := (INR (overlap L) / INR (cells_x L))%R in
  let hy := (INR (overlap L) / INR (cells_y L))%R in
  let row := r / partition_x L in
  let col := r - partition_x L * row in
  let dx1 := (INR (col + 1) * Hx + hx - x)%R in
  let dx2 := (x - (INR col * Hx - hx))%R in
  let dy1 := (INR (row + 1) * Hy + hy - y)%R in
  let dy2 := (y - (INR row * Hy - hy))%R in
  let dy2 := if row =? 0 then (2 * Hy)%R else dy2 in
  let dy1 := if row + 1 =? partition_y L then (2 * Hy)%R else dy1 in
  let dx2 := if col =? 0 then (2 * Hx)%R else dx2 in
  let dx1 := if col + 1 =? partition_x L then (2 * Hx)%R else dx1 in
  op_min (op_min (op_min dx1 dx2) dy1) dy2.

(** partitionofunity.hh 121-126 *)
Definition weigh (x sum : R) : R := if Rlt_dec 0 x then (x * (1 / sum))%R else x.

(** partitionofunity.hh 74-130 *)
Definition sarkis_partition (W : world) (L : layout) (position : nat -> R * R) (cons : nat -> nat -> nat -> bool)
  (order : list (nat * nat * nat)) : res (dvec R) :=
  let part : dvec R := fun q e => repeat (sarkis_distance L q (position e)) (ndofs W e) in
  let* sum := add_handle order part in
  Ok (set_zero cons (fun q e => zip weigh (part q e) (sum q e))).

(** ** Coarse space *)

(** The DOFs of a rank in the order of its vectors.  The order has no influence on the results. *)
Definition dofs_of (W : world) (q : nat) : list dof :=
  flat_map (fun e => map (fun i => (e, i)) (seq 0 (ndofs W e))) (held W q).

(** multicommdatahandle.hh 40: std::distance(begin, std::find(begin, end, r)) *)
Fixpoint index_of (r : nat) (l : list nat) : nat :=
  match l with [] => 0 | x :: t => if x =? r then 0 else S (index_of r t) end.

Section coarse.
  Variable W : world.
  Variable nb : nat -> list nat.                  (** neighbor_ranks_ of each rank *)
  Variable size : nat -> nat.                     (** basis_size() of each rank *)
  Variable phi : nat -> nat -> nat -> list R.     (** rank, basis index: get_basis_vector *)
  Variable A : nat -> dof -> dof -> R.            (** rank: AF_exterior_, zero outside its pattern *)

  (** Product of two vectors of rank [q]. *)
  Definition dot (q : nat) (u v : nat -> list R) : R :=
    fold_left (fun s x => (s + at_dof 0 u x * at_dof 0 v x)%R) (dofs_of W q) 0%R.

  (** native(AF_exterior_).mv(v, Atimesv) *)
  Definition mv (q : nat) (v : nat -> list R) : nat -> list R :=
    fun e => map (fun i => fold_left (fun s y => (s + A q (e, i) y * at_dof 0 v y)%R) (dofs_of W q) 0%R)
                 (seq 0 (ndofs W e)).

  (** subdomainprojectedcoarsespace.hh 208-214 *)
  Definition offset (r : nat) : nat := fold_left (fun o i => o + size i) (seq 0 r) 0.
  (** lines 68-72 *)
  Definition global_size : nat := fold_left (fun n r => n + size r) (seq 0 (nranks W)) 0.
  (** line 74 *)
  Definition max_size : nat := fold_left (fun m r => Nat.max m (size r)) (seq 0 (nranks W)) 0.

  (** multicommdatahandle.hh 24-32: the values of the vector that is passed; the receiver also sees the sender's rank.
      subdomainprojectedcoarsespace.hh 99-106: basis vector [r], or zeros. *)
  Definition passed (r s e : nat) (_ : list (list R)) : nat * list R :=
    (s, if r <? size s then phi s r e else repeat 0%R (ndofs W e)).

  (** multicommdatahandle.hh 34-60: [targets] are the values of the target vectors on the entity. *)
  Definition multi_scatter (q e : nat) (targets : list (list R)) (received : nat * list R) : res (list (list R)) :=
    let '(remote_rank, values) := received in
    let remote_index := index_of remote_rank (nb q) in
    if remote_index =? length (nb q) then Throw else
    if negb (length (nth remote_index targets []) =? length values) then Throw else
    Ok (upd remote_index values targets).

  (** lines 88-92: one zero vector per neighbour *)
  Definition neighbor_basis0 : dvec (list R) := fun q e => repeat (repeat 0%R (ndofs W e)) (length (nb q)).

  (** local_rows[basis_index][neighbor_id].push_back(entry) *)
  Definition push (i k : nat) (x : R) (rows : list (list (list R))) : list (list (list R)) :=
    upd i (upd k (nth k (nth i rows []) [] ++ [x]) (nth i rows [])) rows.

  (** lines 83-86 *)
  Definition rows0 (q : nat) : list (list (list R)) := repeat (repeat [] (length (nb q) + 1)) (size q).

  (** lines 112-116 and 126-132: the products of all own basis vectors with A times the vector [v] *)
  Definition products (q k : nat) (v : nat -> list R) (rows : list (list (list R))) : list (list (list R)) :=
    let Atimesv := mv q v in
    fold_left (fun rows i => push i k (dot q (phi q i) Atimesv) rows) (seq 0 (size q)) rows.

  (** lines 108-133, round [r] on rank [q]; [nbasis] are the target vectors *)
  Definition local_products (r : nat) (nbasis : dvec (list R)) (q : nat) (rows : list (list (list R)))
    : list (list (list R)) :=
    let rows := if r <? size q then products q (length (nb q)) (phi q r) rows else rows in
    fold_left (fun rows k =>
        if size (nth k (nb q) 0) <=? r then rows
        else products q k (fun e => nth k (nbasis q e) []) rows)
      (seq 0 (length (nb q))) rows.

  (** lines 95-135; [orders r] is the order in which the messages of round [r] arrive *)
  Definition rounds (orders : nat -> list (nat * nat * nat)) : res (dvec (list R) * (nat -> list (list (list R)))) :=
    foldM (fun '(nbasis, rows) r =>
        let* nbasis := communicate (passed r) multi_scatter (orders r) nbasis in
        Ok (nbasis, fun q => local_products r nbasis q (rows q)))
      (seq 0 max_size) (neighbor_basis0, rows0).

  (** lines 153-168 *)
  Definition positions (q : nat) : list nat :=
    map (fun j => offset q + j) (seq 0 (size q)) ++
    flat_map (fun n => map (fun j => offset n + j) (seq 0 (size n))) (nb q).

  (** lines 171-185: which entries of local_rows are sent, in the same order as the positions *)
  Definition sources (q : nat) : list (nat * nat) :=
    map (fun j => (length (nb q), j)) (seq 0 (size q)) ++
    flat_map (fun k => map (fun j => (k, j)) (seq 0 (size (nth k (nb q) 0)))) (seq 0 (length (nb q))).

  Definition entries (q i : nat) (rows : list (list (list R))) : res (list R) :=
    foldM (fun l '(k, j) =>
        match nth_error (nth k (nth i rows []) []) j with Some x => Ok (l ++ [x]) | None => UB end)
      (sources q) [].

  (** lines 137-200: the rows of the coarse matrix, the same on all ranks: pairs of column and value *)
  Definition coarse_system (orders : nat -> list (nat * nat * nat)) : res (list (list (nat * R))) :=
    let* (_, rows) := rounds orders in
    foldM (fun M q =>
        foldM (fun M i => let* x := entries q i (rows q) in Ok (M ++ [combine (positions q) x])) (seq 0 (size q)) M)
      (seq 0 (nranks W)) [].

  (** lines 188-196: an entry of a row; a column that was not inserted is zero, a later assignment replaces *)
  Definition entry (M : list (list (nat * R))) (r c : nat) : R :=
    fold_left (fun v '(pos, x) => if pos =? c then x else v) (nth r M []) 0%R.

  (** lines 222-231 *)
  Definition displs : list nat :=
    fold_left (fun d r => fold_left (fun d i => upd i (nth i d 0 + size r) d) (seq (r + 1) (nranks W - (r + 1))) d)
      (seq 0 (nranks W)) (repeat 0 (nranks W)).

  (** lines 236-240 *)
  Definition local_defect (fine : dvec R) (q : nat) : list R := map (fun i => dot q (phi q i) (fine q)) (seq 0 (size q)).

  (** line 242: MPI_Allgatherv puts the block of rank r at displs[r] *)
  Definition restrict (fine : dvec R) : list R :=
    fold_left (fun buf r =>
        fold_left (fun buf i => upd (nth r displs 0 + i) (nth i (local_defect fine r) 0%R) buf) (seq 0 (size r)) buf)
      (seq 0 (nranks W)) (repeat 0%R global_size).

  (** lines 248-259 *)
  Definition prolongate (coarse : list R) (q : nat) : nat -> list R :=
    fold_left (fun v i => fun e => zip Rplus (v e) (map (fun x => (x * nth (offset q + i) coarse 0)%R) (phi q i e)))
      (seq 0 (size q)) (fun e => repeat 0%R (ndofs W e)).

  (** ** Preconditioner *)

  Variable local_solve : nat -> (nat -> list R) -> (nat -> list R).   (** solverf_ of each rank *)
  Variable coarse_solve : list R -> list R.                            (** coarse_solver_ *)

  (** two_level_schwarz.hh 64-99; [active] is coarse_space_active_ *)
  Definition schwarz_apply (active : bool) (order : list (nat * nat * nat)) (d : dvec R) : res (dvec R) :=
    let v : dvec R := fun q => local_solve q (d q) in
    if negb active then add_handle order v
    else
      let coarse_defect := restrict d in
      let v0 := coarse_solve coarse_defect in
      add_handle order (fun q e => zip Rplus (v q e) (prolongate v0 q e)).
End coarse.

(** ** Local basis *)

(** geneobasis.hh 73-90 and liptonbabuskabasis.hh 45-61: the number of vectors that are used. *)
Definition picked (threshold : R) (nev : nat) (eigenvalues : list R) : res nat :=
  if Rle_dec 0 threshold then
    match find (fun i => if Rlt_dec threshold (nth i eigenvalues 0%R) then true else false) (seq 0 nev) with
    | Some i => Ok i
    | None => Throw
    end
  else Ok nev.

Definition two_norm2 (v : list R) : R := fold_left (fun s x => (s + x * x)%R) v 0%R.

(** geneobasis.hh 42-113: arguments and results that matter.  [eigen n] are the [n] eigenvalues and eigenvectors that
    ARPACK computes, as flat vectors.  The result is the basis and the value of the reference argument nev. *)
Definition geneo_basis (eigen : nat -> list R * list (list R)) (threshold : R) (part_unity : list R) (nev : nat)
  (nev_arpack : option nat) (add_part_unity : bool) : res (list (list R) * nat) :=
  let nev_arpack := match nev_arpack with None => Nat.max nev 2 | Some n => n end in
  if nev_arpack <? nev then Throw else
  let '(eigenvalues, eigenvectors) := eigen nev_arpack in
  let* cnt := picked threshold nev eigenvalues in
  let basis := map (fun i => zip Rmult part_unity (nth i eigenvectors [])) (seq 0 cnt) in
  let basis := map (fun v => map (fun x => (x * (1 / two_norm2 v))%R) v) basis in
  let basis := if (add_part_unity && (if Rlt_dec (1 / 10000000000) (nth 0 eigenvalues 0%R) then true else false))%bool
               then removelast (part_unity :: basis) else basis in
  Ok (basis, nev).
