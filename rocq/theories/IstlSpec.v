(** Specification vocabulary for nested ISTL containers (C78-C82). *)
From Coq Require Import Reals.
From Verif Require Import Common IstlModel.

(** Lexicographic order of the addresses of entries *)
Inductive lex_lt : path -> path -> Prop :=
| Lex_here : forall i j p q, i < j -> lex_lt (i :: p) (j :: q)
| Lex_later : forall i p q, lex_lt p q -> lex_lt (i :: p) (i :: q).

(** The type BlockVector<...BlockVector<FieldVector<R,n>>> with [d] levels of BlockVector *)
Inductive has_type (n : nat) : nat -> nvec -> Prop :=
| Has_field : forall l, length l = n -> has_type n 0 (Field l)
| Has_block : forall d l, (forall c, In c l -> has_type n d c) -> has_type n (S d) (Block l).

(** The container index of an entry: innermost component first; in blocks of size one the last component is left out. *)
Definition index (n : nat) (p : path) : list nat := if n =? 1 then rev (removelast p) else rev p.

(** A vector whose blocks have the sizes that a size provider gives for their address *)
Inductive shaped (size : path -> nat) : path -> nvec -> Prop :=
| Shaped_field : forall pre l, length l = size pre -> shaped size pre (Field l)
| Shaped_block : forall pre l, length l = size pre -> (forall k c, nth_error l k = Some c -> shaped size (pre ++ [k]) c) ->
    shaped size pre (Block l).

(** Matrices of [d] levels of BCRSMatrix with FieldMatrix<R,n,m>; no column twice in a row *)
Inductive mtype (n m : nat) : nat -> nmat -> Prop :=
| Mtype_field : forall rows, length rows = n -> (forall r, In r rows -> length r = m) -> mtype n m 0 (FM n m rows)
| Mtype_block : forall d rows, (forall row, In row rows -> NoDup (map fst row)) ->
    (forall row c b, In row rows -> In (c, b) row -> mtype n m d b) -> mtype n m (S d) (BM rows).

(** [rp] is the address of a row, of [d] components and one more for the row in the small blocks. *)
Inductive is_row (n : nat) : nat -> nmat -> path -> Prop :=
| Row_field : forall m rows r, r < n -> is_row n 0 (FM n m rows) [r]
| Row_block : forall d rows r row rp, nth_error rows r = Some row -> length rp = S d -> (n = 1 -> last rp 0 = 0) ->
    (forall c b, In (c, b) row -> is_row n d b rp) -> is_row n (S d) (BM rows) (r :: rp).

(** All diagonal blocks exist; the vector has the structure of the rows of the matrix. *)
Inductive matches (n : nat) : nmat -> nvec -> Prop :=
| Match_field : forall rows l, length l = n -> length rows = n -> (forall r, In r rows -> length r = n) -> matches n (FM n n rows) (Field l)
| Match_block : forall rows xs, length rows = length xs ->
    (forall i row x, nth_error rows i = Some row -> nth_error xs i = Some x -> exists b, find_col i row = Some b /\ matches n b x) ->
    matches n (BM rows) (Block xs).

Definition value (o : option R) : R := match o with Some x => x | None => 0%R end.
Definition rsum (n : nat) (f : nat -> R) : R := fold_right Rplus 0%R (map f (seq 0 n)).
Definition delta (i j : nat) : R := if i =? j then 1%R else 0%R.

(** The small blocks *)
Fixpoint small_blocks (d : dvec) : list (list (list R)) :=
  match d with DF _ _ rows => [rows] | DB l => flat_map small_blocks l end.
Definition inverts (n : nat) (inv : list (list R) -> list (list R)) (rows : list (list R)) : Prop :=
  length (inv rows) = n /\ (forall r, In r (inv rows) -> length r = n) /\
  forall i j, i < n -> j < n -> rsum n (fun k => value (entry2 rows i k) * value (entry2 (inv rows) k j))%R = delta i j.

(** Leaf sizes of a space *)
Fixpoint leaf_sizes (s : space) : list nat := match s with SLeaf _ u d => [if 0 <? u then u else d] | SInner _ ch => flat_map leaf_sizes ch end.
Fixpoint unblocked (s : space) : bool :=
  match s with SLeaf NoBlocking _ _ => true | SInner NoBlocking ch => forallb unblocked ch | _ => false end.

(** A row of a vector of small blocks: [p] leads to the block, its last component is the row. *)
Fixpoint block_row (d : dvec) (p : path) {struct p} : option (list R) :=
  match d, p with
  | DF _ _ rows, [r] => nth_error rows r
  | DB ds, k :: p => match nth_error ds k with Some d => block_row d p | None => None end
  | _, _ => None
  end.
(** Square blocks of size [n] below [d] levels *)
Inductive dtype (n : nat) : nat -> dvec -> Prop :=
| Dtype_field : forall rows, length rows = n -> (forall r, In r rows -> length r = n) -> dtype n 0 (DF n n rows)
| Dtype_block : forall d l, (forall c, In c l -> dtype n d c) -> dtype n (S d) (DB l).
(** There is a first block on every level down to the small blocks. *)
Fixpoint has_first (d : dvec) : Prop := match d with DF _ _ _ => True | DB (d :: _) => has_first d | DB [] => False end.
(** No node with dynamic blocking *)
Fixpoint flat_space (s : space) : bool :=
  match s with SLeaf b _ _ => true | SInner Dynamic _ => false | SInner _ ch => forallb flat_space ch end.
