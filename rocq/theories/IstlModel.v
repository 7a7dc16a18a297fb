(** Model of the nested ISTL vectors and matrices: element access, iteration, rows, block diagonals, block sizes.

    Modelled code (dune/pdelab/backend/istl):
    - vectorhelpers.hh 24-75 (access_vector_element), 140-440 (block structure of a function space)
    - vectoriterator.hh 107-358 (vector_iterator)
    - vector.hh 238-248 (operator[]), 320-345 (begin, end)
    - matrixhelpers.hh 190-420 (access_matrix_element, clear_matrix_row, clear_matrix_row_block,
      write_matrix_element_if_exists, write_matrix_element_if_exists_to_block)
    - bcrsmatrix.hh 190-240 (operator(), clear_row, clear_row_block)
    - blockmatrixdiagonal.hh 46-215 (functions of namespace diagonal), 217-262 (MatrixElementVector), 300-350 (gather, scatter)
    - tags.hh (the tags that select an overload, here a match on the kind and the size of a block)

    A nested index is a list with the innermost component first, as in MultiIndexModel.  An integer parameter i, the
    position of the next component and -1 at the end, is represented by r = i + 1.  A violated assertion or an access out
    of bounds is UB.  Simplifications: real entries; a reference to an entry is the path of positions leading to it,
    outermost first; copying, resizing (done by dune-functions) and arithmetic of vectors are those of dune-istl. *)
From Coq Require Import Reals.
From Verif Require Import Common.

(** FieldVector, BlockVector; DynamicVector is like a FieldVector of a size other than one *)
Inductive nvec := Field (l : list R) | Block (l : list nvec).
Definition path := list nat.

(** ** Access: vectorhelpers.hh 24-48 *)
Fixpoint access (b : nvec) (ci : list nat) (r : nat) {struct b} : res path :=
  match b with
  | Field [_] => if r <=? 1 then Ok [0] else UB                           (* field_vector_1 *)
  | Field l => if r =? 1 then match nth_error ci 0 with                    (* field_vector_n *)
                              | Some k => if k <? length l then Ok [k] else UB
                              | None => UB
                              end else UB
  | Block l =>                                                            (* block_vector *)
      match r with
      | 0 => UB
      | S r => match nth_error ci r with
               | Some k => (fix go l j := match l, j with
                              | c :: _, 0 => let* p := access c ci r in Ok (k :: p)
                              | _ :: l, S j => go l j
                              | [], _ => UB
                              end) l k
               | None => UB
               end
      end
  end.
(** vector.hh 238-248 *)
Definition at_index (v : nvec) (ci : list nat) : res path := access v ci (length ci).

(** Reading and assigning through a reference *)
Fixpoint get (v : nvec) (p : path) : option R :=
  match v, p with
  | Field l, [k] => nth_error l k
  | Block l, k :: p => match nth_error l k with Some c => get c p | None => None end
  | _, _ => None
  end.
Fixpoint put (v : nvec) (p : path) (x : R) : nvec :=
  match v, p with
  | Field l, [k] => Field (upd k x l)
  | Block l, k :: p => match nth_error l k with Some c => Block (upd k (put c p x) l) | None => v end
  | _, _ => v
  end.

(** ** Iteration *)

(** _iterators and _end: position and end at each level *)
Definition tuple := nat -> nat * nat.
Definition set_level (l : nat) (x : nat * nat) (t : tuple) : tuple := fun l' => if l' =? l then x else t l'.

(** start: vectoriterator.hh 229-285; [pre] is the address of the block.  The result says whether there is an entry. *)
Fixpoint start (b : nvec) (l : nat) (pre : path) (t : tuple) (cur : path) {struct b} : bool * tuple * path :=
  match b with
  | Field [_] => (true, t, pre ++ [0])
  | Field xs => let t := set_level l (0, length xs) t in
                if 0 =? length xs then (false, t, cur) else (true, t, pre ++ [0])
  | Block bs =>
      (fix scan bs k t := match bs with
         | [] => (false, t, cur)
         | c :: r => match start c (S l) (pre ++ [k]) t cur with
                     | (true, t, cur) => (true, t, cur)
                     | (false, t, _) => scan r (S k) (set_level l (S k, snd (t l)) t)
                     end
         end) bs 0 (set_level l (0, length bs) t)
  end.

(** The loop of advance over the blocks after the current one: 338-345 *)
Fixpoint scan_from (l : nat) (pre : path) (cur : path) (bs : list nvec) (k : nat) (t : tuple) : bool * tuple * path :=
  match bs with
  | [] => (false, t, cur)
  | c :: r => match start c (S l) (pre ++ [k]) t cur with
              | (true, t, cur) => (true, t, cur)
              | (false, t, _) => scan_from l pre cur r (S k) (set_level l (S k, snd (t l)) t)
              end
  end.

(** advance: 288-348; dereferencing an iterator at the end of its block is UB *)
Fixpoint advance (b : nvec) (l : nat) (pre : path) (t : tuple) (cur : path) {struct b} : res (bool * tuple * path) :=
  match b with
  | Field [_] => Ok (false, t, cur)
  | Field _ => let it := S (fst (t l)) in
                let t := set_level l (it, snd (t l)) t in
                if it =? snd (t l) then Ok (false, t, cur) else Ok (true, t, pre ++ [it])
  | Block bs =>
      (fix pick bs j := match bs, j with
         | c :: r, 0 =>
             let* (ok, t1, cur1) := advance c (S l) (pre ++ [fst (t l)]) t cur in
             if (ok : bool) then Ok (true, t1, cur1)
             else let k := S (fst (t1 l)) in Ok (scan_from l pre cur r k (set_level l (k, snd (t1 l)) t1))
         | _ :: r, S j => pick r j
         | [], _ => UB
         end) bs (fst (t l))
  end.

(** _at_end, _current and the iterators *)
Record iter := mkiter { at_end : bool; current : path; levels : tuple }.
(** the constructor: 123-130; the pointer is null before start *)
Definition begin_of (v : nvec) : iter :=
  let '(ok, t, cur) := start v 0 [] (fun _ => (0, 0)) [] in mkiter (negb ok) cur t.
Definition end_of (v : nvec) : iter := mkiter true [] (fun _ => (0, 0)).
(** increment: 216-221 *)
Definition next (v : nvec) (s : iter) : res iter :=
  if at_end s then UB else
  let* (ok, t, cur) := advance v 0 [] (levels s) (current s) in Ok (mkiter (negb ok) cur t).
(** operator==: 186-200 *)
Definition equal (a b : iter) : bool :=
  if negb (at_end a) then if at_end b then false else if list_eq_dec Nat.eq_dec (current a) (current b) then true else false
  else at_end b.
(** operator*: 170-174 *)
Definition deref (s : iter) : res path := if at_end s then UB else Ok (current s).
(** A loop from begin() to end() over the vector with at most [n] increments, collecting the visited entries *)
Fixpoint visit (v : nvec) (n : nat) (s : iter) : res (list path) :=
  if equal s (end_of v) then Ok [] else
  match n with
  | 0 => UB
  | S n => let* p := deref s in let* s := next v s in let* r := visit v n s in Ok (p :: r)
  end.

(** ** Matrices *)

(** FieldMatrix of n rows and m columns; BCRSMatrix: the rows with the columns and blocks that exist *)
Inductive nmat := FM (n m : nat) (rows : list (list R)) | BM (rows : list (list (nat * nmat))).

Definition entry2 (rows : list (list R)) (r c : nat) : option R :=
  match nth_error rows r with Some row => nth_error row c | None => None end.
Fixpoint find_col {A} (c : nat) (row : list (nat * A)) : option A :=
  match row with [] => None | (c', b) :: row => if c' =? c then Some b else find_col c row end.

(** An entry through a reference; the paths of row and column, outermost first *)
Fixpoint mget (A : nmat) (rp cp : path) {struct A} : option R :=
  match A with
  | FM _ _ rows => match rp, cp with [r], [c] => entry2 rows r c | _, _ => None end
  | BM rows => match rp, cp with
               | r :: rp, c :: cp =>
                   (fix row l j := match l, j with
                      | x :: _, 0 => (fix col x := match x with
                                        | [] => None
                                        | (c', b) :: x => if c' =? c then mget b rp cp else col x
                                        end) x
                      | _ :: l, S j => row l j
                      | [], _ => None
                      end) rows r
               | _, _ => None
               end
  end.

(** access_matrix_element: matrixhelpers.hh 190-237; a block that does not exist is UB *)
Fixpoint maccess (A : nmat) (ri ci : list nat) (i j : nat) {struct A} : res (path * path) :=
  match A with
  | FM n m _ =>
      match n =? 1, m =? 1 with
      | true, true => if (i =? 0) && (j =? 0) then Ok ([0], [0]) else UB
      | true, false => if (i =? 0) && (j =? 1) then
                         match nth_error ci 0 with Some c => if c <? m then Ok ([0], [c]) else UB | None => UB end else UB
      | false, true => if (i =? 1) && (j =? 0) then
                         match nth_error ri 0 with Some r => if r <? n then Ok ([r], [0]) else UB | None => UB end else UB
      | false, false => if (i =? 1) && (j =? 1) then
                          match nth_error ri 0, nth_error ci 0 with
                          | Some r, Some c => if (r <? n) && (c <? m) then Ok ([r], [c]) else UB
                          | _, _ => UB
                          end else UB
      end
  | BM rows =>
      match i, j with
      | S i, S j =>
          match nth_error ri i, nth_error ci j with
          | Some r, Some c =>
              (fix row l k := match l, k with
                 | x :: _, 0 => (fix col x := match x with
                                   | [] => UB
                                   | (c', b) :: x => if c' =? c then let* (p, q) := maccess b ri ci i j in Ok (r :: p, c :: q) else col x
                                   end) x
                 | _ :: l, S k => row l k
                 | [], _ => UB
                 end) rows r
          | _, _ => UB
          end
      | _, _ => UB
      end
  end.
(** bcrsmatrix.hh 190-198 *)
Definition at_entry (A : nmat) (ri ci : list nat) : res (path * path) := maccess A ri ci (length ri) (length ci).

(** Apply an operation to the element of a list *)
Section on.
  Context {A B : Type}.
  Variable f : A -> res A.
  Fixpoint on_nth (k : nat) (l : list A) {struct l} : res (list A) :=
    match l, k with
    | [], _ => UB
    | x :: l, 0 => let* x := f x in Ok (x :: l)
    | x :: l, S k => let* l := on_nth k l in Ok (x :: l)
    end.
  Fixpoint on_all (l : list (nat * A)) : res (list (nat * A)) :=
    match l with [] => Ok [] | (c, x) :: l => let* x := f x in let* l := on_all l in Ok ((c, x) :: l) end.
  Fixpoint on_col (c : nat) (l : list (nat * A)) {struct l} : res (list (nat * A)) :=
    match l with
    | [] => Ok []
    | (c', b) :: l => if c' =? c then let* b := f b in Ok ((c', b) :: l) else let* l := on_col c l in Ok ((c', b) :: l)
    end.
  (** The list of the results for all positions, with the position *)
  Variable g : nat -> A -> res B.
  Fixpoint mapi_res (k : nat) (l : list A) {struct l} : res (list B) :=
    match l with [] => Ok [] | x :: l => let* y := g k x in let* r := mapi_res (S k) l in Ok (y :: r) end.
End on.
Definition zeros (row : list R) : list R := map (fun _ => 0%R) row.

(** clear_matrix_row: 281-307 *)
Fixpoint clear_matrix_row (A : nmat) (ri : list nat) (i : nat) {struct A} : res nmat :=
  match A with
  | FM n m rows =>
      if n =? 1 then if i =? 0 then let* rows := on_nth (fun x => Ok (zeros x)) 0 rows in Ok (FM n m rows) else UB
      else if i =? 1 then match nth_error ri 0 with
                          | Some r => let* rows := on_nth (fun x => Ok (zeros x)) r rows in Ok (FM n m rows)
                          | None => UB
                          end else UB
  | BM rows =>
      match i with
      | 0 => UB
      | S i => match nth_error ri i with
               | Some r => let* rows := on_nth (on_all (fun b => clear_matrix_row b ri i)) r rows in Ok (BM rows)
               | None => UB
               end
      end
  end.

(** clear_matrix_row_block: 310-342 *)
Fixpoint clear_matrix_row_block (A : nmat) (ri : list nat) (i : nat) {struct A} : res nmat :=
  match A with
  | FM n m rows =>
      if n =? 1 then if m =? 1 then if i =? 0 then Ok (FM n m (map zeros rows)) else UB else Throw
      else if i =? 1 then Ok (FM n m (map zeros rows)) else UB
  | BM rows =>
      match i with
      | 0 => UB
      | S i => match nth_error ri i with
               | Some r => let* rows := on_nth (on_all (fun b => clear_matrix_row_block b ri i)) r rows in Ok (BM rows)
               | None => UB
               end
      end
  end.

Definition set_entry (v : R) (r c : nat) (rows : list (list R)) : res (list (list R)) :=
  on_nth (fun row => on_nth (fun _ => Ok v) c row) r rows.

(** write_matrix_element_if_exists: 346-388 *)
Fixpoint write_if_exists (v : R) (A : nmat) (ri ci : list nat) (i j : nat) {struct A} : res nmat :=
  match A with
  | FM n m rows =>
      match n =? 1, m =? 1 with
      | true, true => if (i =? 0) && (j =? 0) then let* rows := set_entry v 0 0 rows in Ok (FM n m rows) else UB
      | true, false => if (i =? 0) && (j =? 1) then
                         match nth_error ci 0 with Some c => let* rows := set_entry v 0 c rows in Ok (FM n m rows) | None => UB end else UB
      | false, true => if (i =? 1) && (j =? 0) then
                         match nth_error ri 0 with Some r => let* rows := set_entry v r 0 rows in Ok (FM n m rows) | None => UB end else UB
      | false, false => if (i =? 1) && (j =? 1) then
                          match nth_error ri 0, nth_error ci 0 with
                          | Some r, Some c => let* rows := set_entry v r c rows in Ok (FM n m rows)
                          | _, _ => UB
                          end else UB
      end
  | BM rows =>
      match i, j with
      | S i, S j =>
          match nth_error ri i, nth_error ci j with
          | Some r, Some c => let* rows := on_nth (on_col (fun b => write_if_exists v b ri ci i j) c) r rows in Ok (BM rows)
          | _, _ => UB
          end
      | _, _ => UB
      end
  end.

(** write_matrix_element_if_exists_to_block: 393-431 *)
Fixpoint write_to_block (v : R) (A : nmat) (ri ci : list nat) (i j : nat) {struct A} : res nmat :=
  match A with
  | FM n m rows =>
      match n =? 1, m =? 1 with
      | true, true => if (i =? 0) && (j =? 0) then let* rows := set_entry v 0 0 rows in Ok (FM n m rows) else UB
      | true, false => Throw
      | false, true => Throw
      | false, false => if (i =? 1) && (j =? 1) then
                          let* rows := foldM (fun rows k => set_entry v k k rows) (seq 0 n) rows in Ok (FM n m rows) else UB
      end
  | BM rows =>
      match i, j with
      | S i, S j =>
          match nth_error ri i, nth_error ci j with
          | Some r, Some c => let* rows := on_nth (on_col (fun b => write_to_block v b ri ci i j) c) r rows in Ok (BM rows)
          | _, _ => UB
          end
      | _, _ => UB
      end
  end.

(** bcrsmatrix.hh 228-240 *)
Definition clear_row (A : nmat) (ri : list nat) (v : R) : res nmat :=
  let* A := clear_matrix_row A ri (length ri) in write_if_exists v A ri ri (length ri) (length ri).
Definition clear_row_block (A : nmat) (ri : list nat) (v : R) : res nmat :=
  let* A := clear_matrix_row_block A ri (length ri) in write_to_block v A ri ri (length ri) (length ri).

(** ** Diagonal blocks *)

(** matrix_element_vector: blockmatrixdiagonal.hh 21-46 *)
Inductive dvec := DF (n m : nat) (rows : list (list R)) | DB (l : list dvec).

(** matrix_element_vector_from_matrix: 49-66; m[i][i] has to exist *)
Fixpoint diagonal (A : nmat) : res dvec :=
  match A with
  | FM n m rows => Ok (DF n m rows)
  | BM rows => let* l := mapi_res (fun i row => (fix col row := match row with
                                      | [] => UB
                                      | (c, b) :: row => if c =? i then diagonal b else col row
                                      end) row) 0 rows in Ok (DB l)
  end.

(** invert_blocks: 69-86; [inv] is FieldMatrix::invert *)
Fixpoint invert_blocks (inv : list (list R) -> list (list R)) (d : dvec) : dvec :=
  match d with DF n m rows => DF n m (inv rows) | DB l => DB (map (invert_blocks inv) l) end.

(** FieldMatrix::mv *)
Definition dot (row x : list R) : R := fold_left (fun s ab => (s + fst ab * snd ab)%R) (combine row x) 0%R.
(** mv: 89-107; all entries of y are overwritten *)
Fixpoint mv (d : dvec) (x : nvec) {struct d} : res nvec :=
  match d, x with
  | DF n m rows, Field l => if length l =? m then Ok (Field (map (fun row => dot row l) rows)) else UB
  | DB ds, Block xs =>
      let* ys := (fix go ds xs := match ds with
                    | [] => Ok []
                    | d :: ds => match xs with
                                 | x :: xs => let* y := mv d x in let* r := go ds xs in Ok (y :: r)
                                 | [] => UB
                                 end
                    end) ds xs in Ok (Block ys)
  | _, _ => UB
  end.

(** row_size: 120-143; the block vectors use their first block *)
Fixpoint row_size (d : dvec) : res nat :=
  match d with DF _ m _ => Ok m | DB (d :: _) => row_size d | DB [] => UB end.

(** The entries from row_begin to row_end: 147-213 *)
Fixpoint row_of (d : dvec) (ci : list nat) (r : nat) {struct d} : res (list R) :=
  match d with
  | DF n _ rows => if n =? 1 then if r =? 0 then match rows with row :: _ => Ok row | [] => UB end else UB
                   else if r =? 1 then match nth_error ci 0 with
                                       | Some k => match nth_error rows k with Some row => Ok row | None => UB end
                                       | None => UB
                                       end else UB
  | DB ds => match r with
             | 0 => UB
             | S r => match nth_error ci r with
                      | Some k => (fix go l j := match l, j with
                                     | d :: _, 0 => row_of d ci r
                                     | _ :: l, S j => go l j
                                     | [], _ => UB
                                     end) ds k
                      | None => UB
                      end
             end
  end.
(** Writing through these pointers *)
Fixpoint set_row (d : dvec) (ci : list nat) (r : nat) (new : list R) {struct d} : res dvec :=
  match d with
  | DF n m rows => if n =? 1 then if r =? 0 then let* rows := on_nth (fun _ => Ok new) 0 rows in Ok (DF n m rows) else UB
                   else if r =? 1 then match nth_error ci 0 with
                                       | Some k => let* rows := on_nth (fun _ => Ok new) k rows in Ok (DF n m rows)
                                       | None => UB
                                       end else UB
  | DB ds => match r with
             | 0 => UB
             | S r => match nth_error ci r with
                      | Some k => let* ds := on_nth (fun d => set_row d ci r new) k ds in Ok (DB ds)
                      | None => UB
                      end
             end
  end.

(** AddMatrixElementVectorDataHandle: size 288-297, gather 300-313, scatter 319-338, for the DOFs [cis] of an entity *)
Definition dh_size (d : dvec) (cis : list (list nat)) : res nat :=
  foldM (fun s ci => let* n := row_size d in Ok (s + n)) cis 0.
Definition dh_gather (d : dvec) (cis : list (list nat)) : res (list R) :=
  foldM (fun buf ci => let* row := row_of d ci (length ci) in Ok (buf ++ row)) cis [].
Fixpoint add_row (row buf : list R) : res (list R * list R) :=
  match row with
  | [] => Ok ([], buf)
  | a :: row => match buf with
                | b :: buf => let* (row, buf) := add_row row buf in Ok ((a + b)%R :: row, buf)
                | [] => UB
                end
  end.
Definition dh_scatter (d : dvec) (cis : list (list nat)) (buf : list R) : res (dvec * list R) :=
  foldM (fun '(d, buf) ci =>
      let* row := row_of d ci (length ci) in
      let* (row, buf) := add_row row buf in
      let* d := set_row d ci (length ci) row in Ok (d, buf)) cis (d, buf).

(** ** Block structure of the vector of a function space: vectorhelpers.hh 140-410 *)

Inductive blocking := NoBlocking | Dynamic | Fixed.
(** A space: a leaf with blocking, block size given by the user (0: none) and the size found in the finite element map (0:
    none); an inner node with blocking. *)
Inductive space := SLeaf (b : blocking) (user detected : nat) | SInner (b : blocking) (ch : list space).

(** vector_type: BlockVector nested to a depth, of FieldVectors *)
Record descriptor := mkdesc { no_blocking : bool; cascaded : bool; valid : bool; block_size : nat; cumulative : nat; depth : nat }.

(** blocked(gfs) of the backend of a leaf: descriptors.hh 66-80, for orderings that do not deactivate the blocking *)
Definition leaf_blocked (b : blocking) (user : nat) : bool :=
  match b with NoBlocking => false | Dynamic => true | Fixed => (1 <? user) || (user =? 0) end.
(** leaf_vector_descriptor: 154-215; a failing static_assert is Throw *)
Definition leaf_descriptor (b : blocking) (user detected : nat) : res descriptor :=
  let cumulative := if 0 <? user then user else detected in
  match b with
  | Dynamic => Throw
  | _ =>
      if negb ((user =? 0) || (match cumulative with 0 => 0 | _ => detected mod cumulative end =? 0)) then Throw
      else if (match b with Fixed => true | _ => false end) && negb (0 <? cumulative) then Throw
      else Ok (mkdesc true (match b with NoBlocking => true | _ => false end) (0 <? cumulative)
                 (match b with Fixed => cumulative | _ => 1 end) cumulative 1)
  end.
(** cascading_vector_descriptor: 244-284 *)
Definition sibling (s c : descriptor) : descriptor :=
  let nb := no_blocking s && ((block_size s =? block_size c) && (depth s =? depth c)) in
  let bs := if nb then block_size s else 1 in
  mkdesc nb (cascaded s && cascaded c) (valid s && valid c) bs (cumulative s + cumulative c) 1.
(** parent_child_vector_descriptor: 311-410 *)
Definition parent (b : blocking) (c : descriptor) : res descriptor :=
  match b with
  | NoBlocking => if no_blocking c then Ok (mkdesc true (cascaded c) (valid c) (block_size c) (cumulative c) (depth c)) else Throw
  | Dynamic => if no_blocking c then Ok (mkdesc true false (valid c) (block_size c) (cumulative c) (S (depth c))) else Throw
  | Fixed => if cascaded c && valid c then Ok (mkdesc (no_blocking c) false (valid c) (cumulative c) (cumulative c) 1) else Throw
  end.
Fixpoint describe (s : space) : res descriptor :=
  match s with
  | SLeaf b u d => leaf_descriptor b u d
  | SInner b ch =>
      match ch with
      | [] => Throw
      | c :: r => let* d := describe c in
                  let* d := (fix go d r := match r with
                               | [] => Ok d
                               | c :: r => let* e := describe c in go (sibling d e) r
                               end) d r in
                  parent b d
      end
  end.
