(** What the local containers and views promise. *)
From Verif Require Import ViewModel.
Local Open Scope nat_scope.

(** A local matrix a program can have: made with a shape, then changed by calls that did not leave its storage. *)
Definition reachable (m : lmat) : Prop := exists r c t ops, foldM lstep ops (make r c t) = Ok m.
Definition inside (m : lmat) (i j : nat) : Prop := i < rows m /\ j < cols m.
Definition total (l : list R) : R := fold_right Rplus 0%R l.
(** All places of a matrix, row by row. *)
Definition row_by_row (r c : nat) : list (nat * nat) := flat_map (fun i => map (fun j => (i, j)) (seq 0 c)) (seq 0 r).

(** Whether view k has been handed out for writing since it was made or reset last. *)
Definition touches (k : nat) (o : wop) : bool :=
  match o with
  | Nested k' _ | Accumulate k' _ _ _ | RawAccumulate k' _ _ _ | WriteContainer k' _ _ => Nat.eqb k k'
  | _ => false
  end.
Definition resets (k : nat) (o : wop) : bool := match o with ResetModified k' => Nat.eqb k k' | _ => false end.
Definition written_since (k : nat) (ops : list wop) : bool :=
  fold_left (fun b o => if touches k o then true else if resets k o then false else b) ops false.
Definition by_data (o : wop) : bool := match o with WriteData _ _ _ => true | _ => false end.
Definition product (l : list R) : R := fold_right Rmult 1%R l.
(** View 0 of weight w and views nested in each other with the weights of the list. *)
Definition nest (w : R) (ws : list R) : list wop := MakeView w :: map (fun p => Nested (fst p) (snd p)) (combine (seq 0 (length ws)) ws).

(** The entries a part of a vector view is about: places in the local container and global indices, side by side. *)
Definition local_places (idx : list nat) (p : part) : list nat :=
  match p with Whole => seq 0 (length idx) | Child ch => ch | Sub ch => seq 0 (length ch) end.
Definition global_indices (idx : list nat) (p : part) : list nat :=
  match p with Whole => idx | Child ch | Sub ch => map (fun l => nth l idx 0) ch end.
(** The part asks for entries that are there. *)
Definition fits (idx : list nat) (p : part) : Prop :=
  match p with Whole => True | Child ch | Sub ch => Forall (fun l => l < length idx) ch end.
(** A view is ready for an exchange: attached to container c, bound to the indices, the part fits, its places are in the
    local container and its indices in the global one. *)
Definition ready (s : vworld) (c : nat) (idx : list nat) (p : part) : Prop :=
  container (vv s) = Some c /\ bound (vv s) = Some idx /\ fits idx p /\
  Forall (fun q => q < length (local s)) (local_places idx p) /\
  Forall (fun k => vectors s c k <> None) (global_indices idx p).
(** The j-th entry of the part is place q of the local container and index k of the global one. *)
Definition linked (idx : list nat) (p : part) (q k : nat) : Prop :=
  exists j, nth_error (local_places idx p) j = Some q /\ nth_error (global_indices idx p) j = Some k.

(** A contribution: view, local indices of the function space, number of the degree of freedom, value, and whether the
    weight is left out. *)
Record contribution := mkc { c_view : nat; c_lfs : list nat; c_dof : nat; c_value : R; c_raw : bool }.
Definition call (c : contribution) : wop :=
  if c_raw c then RawAccumulate (c_view c) (c_lfs c) (c_dof c) (c_value c) else Accumulate (c_view c) (c_lfs c) (c_dof c) (c_value c).
(** What it adds to entry i if view k has weight [w k]. *)
Definition share (w : nat -> R) (i : nat) (c : contribution) : R :=
  if match nth_error (c_lfs c) (c_dof c) with Some i' => Nat.eqb i' i | None => false end
  then if c_raw c then c_value c else (w (c_view c) * c_value c)%R else 0%R.
