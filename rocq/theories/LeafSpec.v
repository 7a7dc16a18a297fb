(** What the theorems about leaf updates talk about: the DOFs that the finite elements of the cells attach to entities. *)
From Verif Require Export LeafModel OrderingSpec.

(** The entity exists in the grid. *)
Definition in_grid (counts : list nat) (en : ent) : Prop := fst en < length counts /\ snd en < nth (fst en) counts 0.

(** Local keys refer to entities of the grid. *)
Definition on_entities (counts : list nat) (cells : list keys) : Prop :=
  forall c en i, In c cells -> In (en, i) c -> in_grid counts en.

(** Some cell has DOF number [i] on entity [en]. *)
Definition attached (cells : list keys) (en : ent) (i : nat) : Prop := exists c, In c cells /\ In (en, i) c.

Definition same_entity (a b : ent) : bool := (fst a =? fst b) && (snd a =? snd b).

(** Number of DOFs that one cell, or all cells together, see on an entity: one more than the largest number in use. *)
Definition cell_dofs (c : keys) (en : ent) : nat :=
  list_max (map (fun k => S (snd k)) (filter (fun k => same_entity (fst k) en) c)).
Definition number_of_dofs (cells : list keys) (en : ent) : nat := list_max (map (fun c => cell_dofs c en) cells).

(** Within a cell all sub-entities of one geometry type that carry DOFs carry the same number. *)
Definition uniform (c : keys) : Prop :=
  forall en i en' i', In (en, i) c -> In (en', i') c -> fst en = fst en' -> cell_dofs c en = cell_dofs c en'.

(** Cells that share an entity agree on the number of its DOFs. *)
Definition consistent (cells : list keys) : Prop :=
  forall c c' en i i', In c cells -> In c' cells -> In (en, i) c -> In (en, i') c' -> cell_dofs c en = cell_dofs c' en.

(** Every cell has sub-entities of every type that carries DOFs at all, with [n gt] DOFs each. *)
Definition homogeneous (counts : list nat) (n : nat -> nat) (cells : list keys) : Prop :=
  forall c gt, In c cells -> gt < length counts ->
    (forall en i, In (en, i) c -> fst en = gt -> cell_dofs c en = n gt) /\
    ((exists en i, In (en, i) c /\ fst en = gt) \/ n gt = 0).

(** The numbers of the DOFs of an entity have no gaps, and every entity of a type that carries DOFs has some. *)
Definition no_gaps (cells : list keys) : Prop :=
  forall en i j, attached cells en i -> j < i -> attached cells en j.
Definition covered (counts : list nat) (cells : list keys) : Prop :=
  forall en en' i, attached cells en i -> in_grid counts en' -> fst en' = fst en -> exists j, attached cells en' j.

(** The finite element map keeps its promise of fixed sizes. *)
Definition keeps_promise (f : fem) (cells : list keys) : Prop :=
  (forall en i, attached cells en i -> i < fem_size f (fst en)) /\
  (forall c, In c cells -> length c <= fem_max_local f).

(** The hypotheses under which an update is claimed to find all DOFs. *)
Definition well_behaved (f : fem) (counts : list nat) (cells : list keys) : Prop :=
  on_entities counts cells /\ (if fem_fixed f then keeps_promise f cells else Forall uniform cells).

(** The finite element maps of a tree: the leaf reached by a path of child numbers. *)
Inductive leaf_at : ftree -> list nat -> fem -> list keys -> Prop :=
| la_leaf f cells b : leaf_at (FLeaf f cells b) [] f cells
| la_node b cs k t p f cells : nth_error cs k = Some t -> leaf_at t p f cells -> leaf_at (FNode b cs) (k :: p) f cells.
