(** Statistics about the patterns of matrices: backend/istl/patternstatistics.hh, backend/istl/bcrsmatrixbackend.hh (allocation) and
    the life of the statistics in backend/istl/bcrsmatrix.hh. *)
From Verif Require Export Common PatternModel.

(** PatternStatistics, patternstatistics.hh 13-93 *)
Record stat := mkstat { nonZeros : nat; longestRow : nat; overflowed : nat; estimate : nat; st_rows : nat }.
(** allocate_bcrs_matrix for a leaf, bcrsmatrixbackend.hh 85-121: [n] is c.N(), set from the ordering.  The rows of the matrix get the columns
    of the pattern (C09); sorting and data are not modelled.  An index of row_sizes that does not exist would be read as zero. *)
Definition leaf_stat (n : nat) (p : pattern) : stat :=
  let row_sizes := sizes p in
  let '(nnz, longest) := fold_left (fun '(nnz, longest) i => (nnz + nth i row_sizes 0, Nat.max longest (nth i row_sizes 0))) (seq 0 n) (0, 0) in
  mkstat nnz longest (overflowCount p) (epr p) n.
(** childOrdering(i) *)
Definition child (o : ostruct) (i : nat) : ostruct := match o with ONode l => nth i l (OLeaf 0) | OLeaf _ => OLeaf 0 end.
(** allocate_bcrs_matrix for an interior matrix, bcrsmatrixbackend.hh 135-167: all blocks, row by row *)
Fixpoint allocate (t : npat) : ostruct -> ostruct -> list stat :=
  match t with
  | NLeaf p => fun ro _ => [leaf_stat (blockCount ro) p]
  | NNode _ nc subs =>
      let f := map allocate subs in
      fun ro co => flat_map (fun i => flat_map (fun j => nth (i * nc + j) f (fun _ _ => []) (child ro i) (child co j)) (seq 0 (blockCount co)))
                            (seq 0 (blockCount ro))
  end.

(** ** Matrix objects (ISTL::BCRSMatrix): a shared pointer to a container and the statistics.  A container is represented by the statistics of
    its present pattern; a grid operator by the statistics of the pattern it builds. *)
Record object := mkobj { cont : option nat; stats : list stat }.
Record world := mkworld { containers : list (list stat); objects : list object }.
Inductive op :=
| New (go : list stat)                  (* bcrsmatrix.hh 77-82, 100-106 *)
| NewOn (go : list stat) (c : nat)      (* 93-98: storage given by the user *)
| Unattached                            (* 108-110 *)
| Attached                              (* 112-115 *)
| Copy (i : nat)                        (* 117-119 *)
| Assign (i j : nat)                    (* 121-135 *)
| Detach (i : nat)                      (* 169-173 *)
| Attach (i j : nat).                   (* 175-178: with the storage() of object j *)
(** Dereferencing an empty pointer and numbers that do not exist: [UB]. *)
Definition deref {A} (l : list A) (i : nat) : res A := match nth_error l i with Some a => Ok a | None => UB end.
Definition pointee (w : world) (o : object) : res (list stat) := match cont o with Some c => deref (containers w) c | None => UB end.
Definition step (w : world) (o : op) : res world :=
  match o with
  | New go => Ok (mkworld (containers w ++ [go]) (objects w ++ [mkobj (Some (length (containers w))) go]))
  | NewOn go c => let* _ := deref (containers w) c in Ok (mkworld (upd c go (containers w)) (objects w ++ [mkobj (Some c) go]))
  | Unattached => Ok (mkworld (containers w) (objects w ++ [mkobj None []]))
  | Attached => Ok (mkworld (containers w ++ [[]]) (objects w ++ [mkobj (Some (length (containers w))) []]))
  | Copy i =>
      let* a := deref (objects w) i in let* s := pointee w a in
      Ok (mkworld (containers w ++ [s]) (objects w ++ [mkobj (Some (length (containers w))) []]))
  | Assign i j =>
      let* a := deref (objects w) i in let* b := deref (objects w) j in
      if i =? j then Ok w else
      let* s := pointee w b in
      match cont a with
      | Some c => let* _ := deref (containers w) c in Ok (mkworld (upd c s (containers w)) (upd i (mkobj (Some c) []) (objects w)))
      | None => Ok (mkworld (containers w ++ [s]) (upd i (mkobj (Some (length (containers w))) []) (objects w)))
      end
  | Detach i => let* _ := deref (objects w) i in Ok (mkworld (containers w) (upd i (mkobj None []) (objects w)))
  | Attach i j =>
      let* a := deref (objects w) i in let* b := deref (objects w) j in Ok (mkworld (containers w) (upd i (mkobj (cont b) (stats a)) (objects w)))
  end.
Definition run (l : list op) (w : world) : res world := foldM step l w.
Definition start : world := mkworld [] [].
(** patternStatistics, bcrsmatrix.hh 137-163: InvalidStateException if there are none *)
Definition patternStatistics (w : world) (i : nat) : res (list stat) :=
  let* a := deref (objects w) i in match stats a with [] => Throw | s => Ok s end.
