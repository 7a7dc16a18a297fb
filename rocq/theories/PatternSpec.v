(** What a sparsity pattern should be: the set of links that were added. *)
From Verif Require Import Common PatternModel.

(** Links a matrix assembly may add to a pattern with [r] rows: the row exists and the column is an index of
    a matrix that fits into memory (the last 64 bit value is reserved). *)
Definition valid_links (r : nat) (links : list (nat * N)) : Prop :=
  forall i j, In (i, j) links -> i < r /\ j <> empty.

(** Number of distinct columns linked to row [i]. *)
Definition row_size (i : nat) (links : list (nat * N)) : nat :=
  length (nodup N.eq_dec (map snd (filter (fun p => fst p =? i) links))).

(** Nested indices: [ri], [ci] (outermost block first) address an entry of a matrix with row structure [ro]
    and column structure [co]. *)
Inductive valid_nlink : ostruct -> ostruct -> list N -> list N -> Prop :=
| vn_leaf n m i j : N.to_nat i < n -> j <> empty -> valid_nlink (OLeaf n) (OLeaf m) [i] [j]
| vn_node rs cs i j r c ri ci :
    nth_error rs (N.to_nat i) = Some r -> nth_error cs (N.to_nat j) = Some c ->
    valid_nlink r c ri ci ->
    valid_nlink (ONode rs) (ONode cs) (i :: ri) (j :: ci).

(** Row and column structure have the same nesting depth everywhere. *)
Inductive same_depth : nat -> ostruct -> Prop :=
| sd_leaf n : same_depth 0 (OLeaf n)
| sd_node d l : Forall (same_depth d) l -> same_depth (S d) (ONode l).

(** [bs] leads to a leaf block with [n] rows. *)
Inductive leaf_block : ostruct -> ostruct -> list (nat * nat) -> nat -> Prop :=
| lb_leaf n m : leaf_block (OLeaf n) (OLeaf m) [] n
| lb_node rs cs i j r c bs n :
    nth_error rs i = Some r -> nth_error cs j = Some c ->
    leaf_block r c bs n ->
    leaf_block (ONode rs) (ONode cs) ((i, j) :: bs) n.
