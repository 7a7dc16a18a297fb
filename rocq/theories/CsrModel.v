(** Model of the matrices of the simple backend: the CSR matrix (dune/pdelab/backend/simple/sparse.hh) and the dense matrix
    (dune/pdelab/backend/simple/matrix.hh).  Values are exact reals.  Not modelled: attach/detach and sharing of storage,
    copy construction, the container type template parameter, &_data[end] for the end pointer of the last row. *)
From Verif Require Export Common.
From Coq Require Export Reals.
Local Open Scope R_scope.

(** SparseMatrixPattern, one set of columns per row (the iteration order of unordered_set is the order of the list): sparse.hh 22-40 *)
Definition pattern := list (list nat).
Definition mem (c : nat) (r : list nat) : bool := existsb (Nat.eqb c) r.
(** add_link: 30-34 *)
Definition add_link (p : pattern) (rc : nat * nat) : res pattern :=
  match nth_error p (fst rc) with
  | None => UB
  | Some r => Ok (upd (fst rc) (if mem (snd rc) r then r else snd rc :: r) p)
  end.

(** SparseMatrixData: 42-53 (rows and cols; _non_zeros is the length of data) *)
Record csr := mkcsr { rows : nat; cols : nat; data : list R; colindex : list nat; rowoffset : list nat }.

Fixpoint insert (x : nat) (l : list nat) : list nat :=
  match l with [] => [x] | y :: r => if (x <=? y)%nat then x :: l else y :: insert x r end.
Definition sort (l : list nat) : list nat := fold_right insert [] l.

(** the running offsets computed by calc_offset: 292-296 *)
Fixpoint offsets (offset : nat) (p : pattern) : list nat :=
  match p with [] => [] | r :: p' => (offset + length r)%nat :: offsets (offset + length r) p' end.
(** allocate_matrix: 284-315; one block per row *)
Definition allocate (p : pattern) (ncols : nat) (e : R) : csr :=
  let ro := 0%nat :: offsets 0 p in
  mkcsr (length p) ncols (repeat e (last ro 0%nat)) (concat (map sort p)) ro.

(** std::lower_bound on a sorted range: the first position whose entry is not less than the key *)
Fixpoint lower_bound (key : nat) (l : list nat) : nat :=
  match l with [] => 0 | x :: r => if (x <? key)%nat then S (lower_bound key r) else 0 end.
(** operator(): 218-236; [chk]: asserts are compiled in (a failed assert is [Throw]) *)
Definition position (chk : bool) (m : csr) (i j : nat) : res nat :=
  match nth_error (rowoffset m) i, nth_error (rowoffset m) (S i) with
  | Some b, Some e =>
      let k := (b + lower_bound j (slice b (e - b) (colindex m)))%nat in
      if chk && (k =? e)%nat then Throw else if (k <? length (data m))%nat then Ok k else UB
  | _, _ => UB
  end.
Definition set_data (m : csr) (d : list R) : csr := mkcsr (rows m) (cols m) d (colindex m) (rowoffset m).
Definition read (chk : bool) (m : csr) (i j : nat) : res R := let* k := position chk m i j in Ok (nth k (data m) 0).
Definition write (chk : bool) (m : csr) (i j : nat) (f : R -> R) : res csr :=
  let* k := position chk m i j in Ok (set_data m (upd k (f (nth k (data m) 0)) (data m))).

(** std::fill of positions [b, e) *)
Definition fill_range (b e : nat) (v : R) (d : list R) : list R := firstn b d ++ repeat v (e - b) ++ skipn (b + (e - b)) d.
(** clear_row, clear_row_block: 268-282 *)
Definition clear_row (chk : bool) (m : csr) (i : nat) (diag : R) : res csr :=
  match nth_error (rowoffset m) i, nth_error (rowoffset m) (S i) with
  | Some b, Some e => write chk (set_data m (fill_range b e 0 (data m))) i i (fun _ => diag)
  | _, _ => UB
  end.

(** Operations on a matrix: entry assignment and accumulation, assignment of a scalar (183-187), scaling (189-194), clear_row. *)
Inductive op := Put (i j : nat) (v : R) | Accu (i j : nat) (v : R) | Assign (v : R) | Scale (v : R) | Clear (i : nat) (v : R).
Definition step (chk : bool) (m : csr) (o : op) : res csr :=
  match o with
  | Put i j v => write chk m i j (fun _ => v)
  | Accu i j v => write chk m i j (fun x => x + v)
  | Assign v => Ok (set_data m (repeat v (length (data m))))
  | Scale v => Ok (set_data m (map (fun x => v * x) (data m)))
  | Clear i v => clear_row chk m i v
  end.

(** sparse_inner_product: 317-330 *)
Fixpoint inner (acc : R) (d : list R) (c : list nat) (x : list R) : res R :=
  match d, c with
  | v :: d', k :: c' => match nth_error x k with Some w => inner (acc + v * w) d' c' x | None => UB end
  | _, _ => Ok acc
  end.
Definition row_product (m : csr) (r : nat) (x : list R) : res R :=
  match nth_error (rowoffset m) r, nth_error (rowoffset m) (S r) with
  | Some b, Some e => inner 0 (slice b (e - b) (data m)) (slice b (e - b) (colindex m)) x
  | _, _ => UB
  end.
Definition put (r : nat) (v : R) (y : list R) : res (list R) := if (r <? length y)%nat then Ok (upd r v y) else UB.
(** mv: 196-205 *)
Definition mv (m : csr) (x y : list R) : res (list R) :=
  foldM (fun y r => let* v := row_product m r x in put r v y) (seq 0 (rows m)) y.
(** usmv: 207-216 *)
Definition usmv (m : csr) (alpha : R) (x y : list R) : res (list R) :=
  foldM (fun y r => let* v := row_product m r x in put r (nth r y 0 + alpha * v) y) (seq 0 (rows m)) y.

(** ** Dense matrix: matrix.hh *)
Record dense := mkdense { drows : nat; dcols : nat; entries : list R }.
Definition dallocate (n k : nat) (e : R) : dense := mkdense n k (repeat e (n * k)).
(** operator(): 163-171 *)
Definition dread (m : dense) (i j : nat) : res R :=
  match nth_error (entries m) (i * dcols m + j) with Some v => Ok v | None => UB end.
Definition dwrite (m : dense) (i j : nat) (f : R -> R) : res dense :=
  match nth_error (entries m) (i * dcols m + j) with
  | Some v => Ok (mkdense (drows m) (dcols m) (upd (i * dcols m + j) (f v) (entries m)))
  | None => UB
  end.
Definition dstep (m : dense) (o : op) : res dense :=
  match o with
  | Put i j v => dwrite m i j (fun _ => v)
  | Accu i j v => dwrite m i j (fun x => x + v)
  | Assign v => Ok (mkdense (drows m) (dcols m) (repeat v (length (entries m))))
  | Scale v => Ok (mkdense (drows m) (dcols m) (map (fun x => v * x) (entries m)))
  | Clear i v =>
      if (S i * dcols m <=? length (entries m))%nat
      then dwrite (mkdense (drows m) (dcols m) (fill_range (i * dcols m) (S i * dcols m) 0 (entries m))) i i (fun _ => v)
      else UB
  end.
(** std::inner_product over one row: 143, 154 *)
Fixpoint dinner (acc : R) (d x : list R) (n : nat) {struct n} : res R :=
  match n with
  | O => Ok acc
  | S n' => match d, x with v :: d', w :: x' => dinner (acc + v * w) d' x' n' | _, _ => UB end
  end.
(** mv, usmv: 138-161; the loop is over the entries of [y] *)
Fixpoint dmv_rows (f : R -> R -> R) (m : dense) (x : list R) (it : list R) (y : list R) : res (list R) :=
  match y with
  | [] => Ok []
  | v :: y' => let* s := dinner 0 it x (dcols m) in
               let* r := dmv_rows f m x (skipn (dcols m) it) y' in Ok (f v s :: r)
  end.
Definition dmv (m : dense) (x y : list R) : res (list R) := dmv_rows (fun _ s => s) m x (entries m) y.
Definition dusmv (m : dense) (alpha : R) (x y : list R) : res (list R) := dmv_rows (fun v s => v + alpha * s) m x (entries m) y.
