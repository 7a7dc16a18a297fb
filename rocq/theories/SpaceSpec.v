(** What grid function spaces promise, stated on the tree of spaces the user built. *)
From Verif Require Import Common SpaceModel.

(** The number of degrees of freedom of a finite element map on a grid. *)
Definition dofs_on (dim : nat) (g : nat -> nat) (d : nat -> nat) : nat :=
  sum_nat (map (fun c => d c * g c) (seq 0 (S dim))).

(** The dimension of a space: the sum over its leaves. *)
Fixpoint dimension (dim : nat) (g : nat -> nat) (t : stree) : nat :=
  match t with
  | SLeaf _ _ f _ => dofs_on dim g (f_dofs f)
  | SNode _ _ cs => sum_nat (map (dimension dim g) cs)
  end.
(** The number of shape functions on a cell. *)
Fixpoint shapes (t : stree) : nat :=
  match t with SLeaf _ _ f _ => f_max f | SNode _ _ cs => sum_nat (map shapes cs) end.

(** The dofs of all leaves on one entity of a codimension, and the number of entities that carry dofs. *)
Fixpoint dofs_at (t : stree) (c : nat) : nat :=
  match t with SLeaf _ _ f _ => f_dofs f c | SNode _ _ cs => sum_nat (map (fun t => dofs_at t c) cs) end.
Definition carriers (dim : nat) (g : nat -> nat) (d : nat -> nat) : nat :=
  sum_nat (map (fun c => if 0 <? d c then g c else 0) (seq 0 (S dim))).
(** The number of top-level blocks of a vector: one block per entity that carries dofs, one per child, or
    the children's blocks, as the tag and the backend ask for. *)
Fixpoint blocks (dim : nat) (g : nat -> nat) (t : stree) : nat :=
  match t with
  | SLeaf _ _ f true => carriers dim g (f_dofs f)
  | SLeaf _ _ f false => dofs_on dim g (f_dofs f)
  | SNode _ (EntityBlocked true) cs => carriers dim g (dofs_at t)
  | SNode _ (EntityBlocked false) cs => dofs_on dim g (dofs_at t)
  | SNode _ (Lexicographic true) cs => length cs
  | SNode _ (Interleaved true m) cs => sum_nat (map (blocks dim g) cs) / S m
  | SNode _ _ cs => sum_nat (map (blocks dim g) cs)
  end.

(** A space and all its descendants; its proper descendants. *)
Fixpoint members (t : stree) : list stree :=
  t :: match t with SLeaf _ _ _ _ => [] | SNode _ _ cs => flat_map members cs end.
Definition below (t : stree) : list stree := match t with SLeaf _ _ _ _ => [] | SNode _ _ cs => flat_map members cs end.
(** The members that are not inside an entity-blocked space: their dofs are consecutive blocks. *)
Fixpoint free (t : stree) : list stree :=
  t :: match t with
       | SLeaf _ _ _ _ => []
       | SNode _ (EntityBlocked _) _ => []
       | SNode _ _ cs => flat_map free cs
       end.
(** The leaf spaces inside an entity-blocked space. *)
Fixpoint leaf_ids (t : stree) : list nat :=
  match t with SLeaf id _ _ _ => [id] | SNode _ _ cs => flat_map leaf_ids cs end.
Fixpoint enclosed (t : stree) : list nat :=
  match t with
  | SLeaf _ _ _ _ => []
  | SNode _ (EntityBlocked _) cs => flat_map leaf_ids cs
  | SNode _ _ cs => flat_map enclosed cs
  end.

(** Every entity-blocked space of the tree has leaves on one entity set. *)
Fixpoint consistent (t : stree) : Prop :=
  match t with
  | SLeaf _ _ _ _ => True
  | SNode _ (EntityBlocked _) cs => exists s, forall x, In x (flat_map leaf_sets cs) -> x = s
  | SNode _ _ cs => fold_right (fun t P => consistent t /\ P) True cs
  end.
(** No space of the tree interleaves the blocks of its children. *)
Fixpoint not_interleaved (t : stree) : Prop :=
  match t with
  | SLeaf _ _ _ _ => True
  | SNode _ (EntityBlocked _) _ => True
  | SNode _ (Interleaved true _) _ => False
  | SNode _ _ cs => fold_right (fun t P => not_interleaved t /\ P) True cs
  end.

(** A program that copies spaces only before it calls update() or ordering() on them. *)
Definition copies_early (ops : list op) : Prop :=
  forall pre c post, ops = pre ++ CopySpace c :: post -> ~ In (GetOrdering c) pre /\ forall f, ~ In (Update c f) pre.
Definition no_copies (ops : list op) : Prop := forall c, ~ In (CopySpace c) ops.
Definition grid_unchanged (ops : list op) : Prop := forall g, ~ In (ChangeGrid g) ops.

(** The space [k] and its descendants report the sizes of the spaces they describe on the current grid. *)
Record up_to_date (dim : nat) (w : world) (k : nat) : Prop := mkutd {
  utd_size : size w k = Ok (dimension dim (w_grid w) (w_tree w k));
  utd_blocks : blockCount w k = Ok (blocks dim (w_grid w) (w_tree w k));
  utd_ordering : ordering_size w k = Some (dimension dim (w_grid w) (w_tree w k));
  utd_sub : forall t, In t (free (w_tree w k)) -> ~ In (root_id t) (enclosed (w_tree w k)) ->
    size w (root_id t) = Ok (dimension dim (w_grid w) t) /\ blockCount w (root_id t) = Ok (blocks dim (w_grid w) t);
  utd_leaf : forall j, In j (enclosed (w_tree w k)) -> (forall t, In t (free (w_tree w k)) -> root_id t <> j) ->
    size w j = Throw /\ blockCount w j = Throw;
  utd_global : forall j, In j (map root_id (free (w_tree w k)) ++ enclosed (w_tree w k)) ->
    globalSize w j = Ok (dimension dim (w_grid w) (w_tree w k)) /\ maxLocalSize w j = Ok (shapes (w_tree w k)) }.
