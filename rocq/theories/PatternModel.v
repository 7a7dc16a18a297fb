(** Model of dune/pdelab/backend/istl/bcrspattern.hh: sparsity pattern builders. *)
From Verif Require Import Common.

(** bcrspattern.hh:57  [empty = ~size_type(0)]: marker of an unused slot (64 bit size_type). *)
Definition empty : N := 18446744073709551615%N.

(** bcrspattern.hh:306-311  data members.  The two orderings enter only through
    [blockCount()] of the row ordering, kept here as [rows].  Columns are [N] so that the marker
    can be written down; rows and slot positions are [nat].  [overflow] is the std::set of pairs,
    kept as its sorted (lexicographic) list of elements. *)
Record pattern := mkPattern {
  rows : nat;
  epr : nat;                  (* _entries_per_row *)
  slots : list N;             (* _indices *)
  overflow : list (nat * N)   (* _overflow *)
}.

(** bcrspattern.hh:264-269  constructor. *)
Definition create (r e : nat) : pattern :=
  {| rows := r; epr := e; slots := repeat empty (r * e); overflow := [] |}.

(** std::find_if over one row with PaddedColumnCriterion (bcrspattern.hh:69-83, 107):
    distance from [begin] of the first slot equal to [j] or empty, None for [end]. *)
Fixpoint find_padded (j : N) (l : list N) : option nat :=
  match l with
  | [] => None
  | k :: t => if (N.eqb k j || N.eqb k empty)%bool then Some 0
              else option_map S (find_padded j t)
  end.

(** operator< of std::pair. *)
Definition pair_ltb (p q : nat * N) : bool :=
  (fst p <? fst q)%nat || ((fst p =? fst q)%nat && (snd p <? snd q)%N).

(** std::set::insert. *)
Fixpoint set_insert (p : nat * N) (s : list (nat * N)) : list (nat * N) :=
  match s with
  | [] => [p]
  | q :: t => if pair_ltb p q then p :: q :: t
              else if pair_ltb q p then q :: set_insert p t
              else q :: t
  end.

(** bcrspattern.hh:96-119  add_link.  [i], [j] are the last entries of the two container indices.
    A row outside the pattern makes the iterator arithmetic leave the vector: [UB]. *)
Definition add_link (p : pattern) (l : nat * N) : res pattern :=
  let (i, j) := l in
  if i <? rows p then
    let row := slice (epr p * i) (epr p) (slots p) in
    match find_padded j row with
    | Some k => Ok {| rows := rows p; epr := epr p;
                      slots := upd (epr p * i + k) j (slots p); overflow := overflow p |}
    | None => Ok {| rows := rows p; epr := epr p; slots := slots p;
                    overflow := set_insert (i, j) (overflow p) |}
    end
  else UB.

(** bcrspattern.hh:143-149  number of used slots before the first empty one. *)
Fixpoint used (l : list N) : nat :=
  match l with [] => 0 | k :: t => if N.eqb k empty then 0 else S (used t) end.

(** bcrspattern.hh:152-153  advance the overflow iterator while it is in row [i];
    returns the number of steps and the new iterator (as the remaining elements). *)
Fixpoint count_row (i : nat) (o : list (nat * N)) : nat * list (nat * N) :=
  match o with
  | (r, _) :: t => if r =? i then let (n, o') := count_row i t in (S n, o') else (0, o)
  | [] => (0, o)
  end.

(** bcrspattern.hh:134-156  sizes(rit): [i] current row, [n] rows left, [o] overflow iterator. *)
Fixpoint sizes_loop (p : pattern) (i n : nat) (o : list (nat * N)) : list nat :=
  match n with
  | O => []
  | S n' =>
      let s := used (slice (i * epr p) (epr p) (slots p)) in
      let (c, o') := count_row i o in
      (s + c) :: sizes_loop p (S i) n' o'
  end.
(** bcrspattern.hh:159-164 *)
Definition sizes (p : pattern) : list nat := sizes_loop p 0 (rows p) (overflow p).

(** bcrspattern.hh:299-302 *)
Definition overflowCount (p : pattern) : nat := length (overflow p).

(** bcrspattern.hh:234-240  row iterator.  [_it]/[_end] are kept as the list of slots left in the row,
    [_oit]/[_oend] as the list of overflow elements left. *)
Record iter := mkIter {
  it_row : nat; in_overflow : bool; at_end : bool;
  it_slots : list N; it_over : list (nat * N)
}.

(** std::set::lower_bound(make_pair(row,0)). *)
Fixpoint lower_bound (k : nat * N) (s : list (nat * N)) : list (nat * N) :=
  match s with
  | [] => []
  | q :: t => if pair_ltb q k then lower_bound k t else s
  end.

(** [_it == _end || *_it == empty] *)
Definition no_slot (l : list N) : bool := match l with [] => true | k :: _ => N.eqb k empty end.

(** bcrspattern.hh:217-232  iterator constructor. *)
Definition iter_make (p : pattern) (row : nat) (ae : bool) : iter :=
  let s := slice (row * epr p) (epr p) (slots p) in
  let o := lower_bound (row, 0%N) (overflow p) in
  if (negb ae && no_slot s)%bool
  then mkIter row true (match o with [] => true | (r, _) :: _ => negb (r =? row) end) s o
  else mkIter row false ae s o.

(** bcrspattern.hh:181-203  increment. *)
Definition iter_incr (it : iter) : iter :=
  if in_overflow it then
    let o := tl (it_over it) in
    mkIter (it_row it) true
      (match o with [] => true | (r, _) :: _ => if negb (r =? it_row it) then true else at_end it end)
      (it_slots it) o
  else
    let s := tl (it_slots it) in
    if no_slot s then
      mkIter (it_row it) true
        (match it_over it with [] => true
         | (r, _) :: _ => if it_row it <? r then true else at_end it end)
        s (it_over it)
    else mkIter (it_row it) false (at_end it) s (it_over it).

(** bcrspattern.hh:173-179  dereference ([None]: invalid iterator). *)
Definition iter_deref (it : iter) : option N :=
  if in_overflow it then match it_over it with [] => None | (_, j) :: _ => Some j end
  else match it_slots it with [] => None | k :: _ => Some k end.

(** bcrspattern.hh:205-215  equals, with iterators into the same vector/set compared by the number of
    elements left. *)
Definition iter_equals (a b : iter) : bool :=
  if negb (it_row a =? it_row b) then false
  else if (at_end a || at_end b)%bool then (at_end a && at_end b)%bool
  else if in_overflow a then length (it_over a) =? length (it_over b)
  else length (it_slots a) =? length (it_slots b).

(** The loop [for (it = begin(i); it != end(i); ++it) use( *it)] (e.g. bcrsmatrixbackend.hh, row insertion),
    with explicit fuel; [None]: fuel exhausted or an invalid dereference. *)
Fixpoint iter_loop (fuel : nat) (it e : iter) : option (list N) :=
  if iter_equals it e then Some [] else
  match fuel with
  | O => None
  | S f => match iter_deref it with
           | None => None
           | Some j => option_map (cons j) (iter_loop f (iter_incr it) e)
           end
  end.
Definition row_columns (p : pattern) (i : nat) : option (list N) :=
  iter_loop (epr p + length (overflow p)) (iter_make p i false) (iter_make p i true).

(** All links added one after the other. *)
Definition build (r e : nat) (links : list (nat * N)) : res pattern :=
  foldM add_link links (create r e).

(** bcrspattern.hh:271-279  rowOrdering()/colOrdering(), with the two orderings as opaque values. *)
Definition rowOrdering {O} (row_ordering col_ordering : O) : O := row_ordering.
Definition colOrdering {O} (row_ordering col_ordering : O) : O := row_ordering.

(** bcrspattern.hh:322-402  NestedPattern: a dense [rows x cols] array of subpatterns, or a leaf. *)
Inductive npat :=
| NLeaf (p : pattern)
| NNode (nrows ncols : nat) (subs : list npat).

(** bcrspattern.hh:340-351 (and 123-128 for the leaf): the path is the container index read from its
    last entry ([back()]) to its first; [back_popped()] is the tail of the path.  On a leaf only the last entry
    is read.  The sub-pattern position is [ri.back() * cols + ci.back()]. *)
Fixpoint nadd (t : npat) (ri ci : list N) : res npat :=
  match ri, ci with
  | i :: ri', j :: ci' =>
    match t with
    | NLeaf p => let* p' := add_link p (N.to_nat i, j) in Ok (NLeaf p')
    | NNode r c subs =>
        let pos := N.to_nat i * c + N.to_nat j in
        let fix go (k : nat) (l : list npat) : res (list npat) :=
          match l, k with
          | [], _ => UB
          | s :: l', O => let* s' := nadd s ri' ci' in Ok (s' :: l')
          | s :: l', S k' => let* l'' := go k' l' in Ok (s :: l'')
          end in
        let* subs' := go pos subs in Ok (NNode r c subs')
    end
  | _, _ => UB
  end.

(** bcrspattern.hh:391-394  subPattern(i,j). *)
Definition subPattern (t : npat) (i j : nat) : option npat :=
  match t with NLeaf _ => None | NNode _ c subs => nth_error subs (i * c + j) end.

(** Block structure of an ordering as seen by NestedPattern: [OLeaf n] an ordering whose [n] blocks are not
    subdivided any further, [ONode l] an ordering with children [childOrdering(0..)]. *)
Inductive ostruct := OLeaf (n : nat) | ONode (children : list ostruct).
Definition blockCount (o : ostruct) : nat :=
  match o with OLeaf n => n | ONode l => length l end.

(** bcrspattern.hh:373-388  NestedPattern(row_ordering, col_ordering, entries_per_row): double loop with
    push_back, and 264-269 at the leaf.  [None] when row and column structure do not have the same
    nesting depth (such a pattern type cannot be instantiated). *)
Fixpoint ncreate (ro co : ostruct) (e : nat) : option npat :=
  match ro, co with
  | OLeaf n, OLeaf _ => Some (NLeaf (create n e))
  | ONode rs, ONode cs =>
      let fix loop_i (rs : list ostruct) : option (list npat) :=
        match rs with
        | [] => Some []
        | r :: rs' =>
            let fix loop_j (l : list ostruct) : option (list npat) :=
              match l with
              | [] => loop_i rs'
              | c :: l' => match ncreate r c e, loop_j l' with
                           | Some x, Some xs => Some (x :: xs)
                           | _, _ => None
                           end
              end in
            loop_j cs
        end in
      option_map (NNode (length rs) (length cs)) (loop_i rs)
  | _, _ => None
  end.

(** All links (pairs of container indices) added one after the other. *)
Definition nbuild (t : npat) (links : list (list N * list N)) : res npat :=
  foldM (fun t l => nadd t (fst l) (snd l)) links t.

(** Repeated [subPattern] down to a leaf: the pattern of the matrix block addressed by the block indices
    [bs] (outermost first). *)
Fixpoint block (t : npat) (bs : list (nat * nat)) : option pattern :=
  match bs with
  | [] => match t with NLeaf p => Some p | NNode _ _ _ => None end
  | (i, j) :: bs' => match subPattern t i j with Some s => block s bs' | None => None end
  end.
