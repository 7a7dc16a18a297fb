(** Specification vocabulary for the DG/AMG solvers (C134 - C136). *)
From Coq Require Import Reals.
From Verif Require Import Common ParSpec AmgModel.

(** ** Functions on cells (C134) *)

(** The leaf of a tree at a path. *)
Fixpoint leaf_at {L} (t : tree L) (path : list nat) : option L :=
  match t, path with
  | Leaf l, [] => Some l
  | Node children, k :: path' => match nth_error children k with Some c => leaf_at c path' | None => None end
  | _, _ => None
  end.

(** Two trees have the same paths to leaves and the same numbers of children. *)
Inductive same_shape {L M} : tree L -> tree M -> Prop :=
| same_leaf l m : same_shape (Leaf l) (Leaf m)
| same_node us vs : Forall2 same_shape us vs -> same_shape (Node us) (Node vs).

(** A list of distinct functions taking [n] coefficients: interpolation that is linear. *)
Definition linear_interpolation {X} (I : (X -> R) -> list R) : Prop :=
  (forall f g, (forall x, f x = g x) -> I f = I g) /\
  (forall j, nth j (I (fun _ => 0%R)) 0%R = 0%R) /\
  (forall a f g j, nth j (I (fun x => a * f x + g x)%R) 0%R = (a * nth j (I f) 0 + nth j (I g) 0)%R).

(** The local function spaces of a cell: same trees; every coefficient has its own position in the local vector. *)
Record cell_ok {X} (c : pcell X) : Prop := {
  same_trees : same_shape (cg_tree c) (dg_tree c);
  cg_range : forall p u i, leaf_at (cg_tree c) p = Some u -> i < length (shapes u) -> cg_index u i < cg_local c;
  cg_distinct : forall p u i i', leaf_at (cg_tree c) p = Some u -> i < length (shapes u) -> i' < length (shapes u) ->
    cg_index u i = cg_index u i' -> i = i';
  dg_range : forall p v j, leaf_at (dg_tree c) p = Some v -> j < dg_size v -> dg_index v j < dg_local c;
  dg_distinct : forall p p' v v' j j', leaf_at (dg_tree c) p = Some v -> leaf_at (dg_tree c) p' = Some v' ->
    j < dg_size v -> j' < dg_size v' -> dg_index v j = dg_index v' j' -> p = p' /\ j = j';
  dg_linear : forall p v, leaf_at (dg_tree c) p = Some v -> linear_interpolation (interpolate v) }.

(** DG: the degrees of freedom of different cells are different. *)
Definition dg_numbering {X} (cells : list (pcell X)) : Prop :=
  forall a b c d r s, nth_error cells a = Some c -> nth_error cells b = Some d -> r < dg_local c -> s < dg_local d ->
    dg_global c r = dg_global d s -> a = b /\ r = s.

(** Component of the function with conforming coefficients [w] on a cell. *)
Definition cg_value {X} (w : nat -> R) (c : pcell X) (u : cg_leaf X) (x : X) : R :=
  rsum (fun i => w (cg_global c (cg_index u i)) * nth i (shapes u) (fun _ => 0) x)%R (seq 0 (length (shapes u))).

(** Component of the function with DG coefficients [y] on a cell, for the basis [psi] of the finite element. *)
Definition dg_value {X} (y : nat -> R) (c : pcell X) (v : dg_leaf X) (psi : nat -> X -> R) (x : X) : R :=
  rsum (fun j => y (dg_global c (dg_index v j)) * psi j x)%R (seq 0 (dg_size v)).

(** Product with a matrix of [n] columns. *)
Definition times (P : matrix) (n : nat) (w : nat -> R) (r : nat) : R := rsum (fun k => P r k * w k)%R (seq 0 n).

(** ** Algebra of the hybrid preconditioner (C135) *)

(** Product of a matrix with a vector over a list of indices. *)
Definition lin {I J} (l : list J) (M : I -> J -> R) (v : J -> R) (i : I) : R := rsum (fun j => M i j * v j)%R l.
Definition transposed {I J} (M : I -> J -> R) : J -> I -> R := fun j i => M i j.
Definition inner {I} (l : list I) (a b : I -> R) : R := rsum (fun i => a i * b i)%R l.

(** Started with zero, the preconditioner is the product with S. *)
Definition acts_as {I} (l : list I) (prec : (I -> R) -> (I -> R) -> (I -> R)) (S : I -> I -> R) : Prop :=
  forall d i, In i l -> prec (fun _ => 0%R) d i = lin l S d i.

Definition symmetric {I} (l : list I) (M : I -> I -> R) : Prop := forall i j, In i l -> In j l -> M i j = M j i.

(** What is left of an error after one smoothing step, I - S A, and after the correction in the CG space, I - P C P^T A. *)
Definition smoothing_error {D} (fine : list D) (A S : D -> D -> R) (e : D -> R) : D -> R :=
  fun i => (e i - lin fine S (lin fine A e) i)%R.
Definition coarse_error {D E} (fine : list D) (coarse : list E) (A : D -> D -> R) (P : D -> E -> R) (C : E -> E -> R) (e : D -> R) : D -> R :=
  fun i => (e i - lin coarse P (lin coarse C (lin fine (transposed P) (lin fine A e))) i)%R.

Definition energy {D} (fine : list D) (A : D -> D -> R) (e : D -> R) : R := inner fine e (lin fine A e).

(** The CG problem: the product with P^T A P. *)
Definition galerkin_product {D E} (fine : list D) (coarse : list E) (A : D -> D -> R) (P : D -> E -> R) (w : E -> R) : E -> R :=
  lin fine (transposed P) (lin fine A (lin coarse P w)).

(** C solves the CG problem. *)
Definition solves_cg {D E} (fine : list D) (coarse : list E) (A : D -> D -> R) (P : D -> E -> R) (C : E -> E -> R) : Prop :=
  forall g k, In k coarse -> galerkin_product fine coarse A P (lin coarse C g) k = g k.

(** ** Programs with a backend (C136), read off the list of events *)

(** The matrices after the events if no solve changes them. *)
Definition matrices {A} (l : list (event A)) : nat -> option A :=
  fold_left (fun h e => match e with Assign m a => fun i => if i =? m then Some a else h i
                                  | Destroy m => fun i => if i =? m then None else h i
                                  | _ => h end) l (fun _ => None).

(** The reuse flag after the events. *)
Definition reusing {A} (r : bool) (l : list (event A)) : bool :=
  fold_left (fun r e => match e with SetReuse b => b | _ => r end) l r.

Definition solves {A} (l : list (event A)) : bool := existsb (fun e => match e with Solve _ => true | _ => false end) l.

(** Solves are called with existing matrices only. *)
Definition legal {A} (l : list (event A)) : Prop :=
  forall pre m post, l = pre ++ Solve m :: post -> matrices pre m <> None.

(** The matrix of the last solve that was the first one or came with the flag off: its events before it. *)
Definition setup_at {A} (r : bool) (l pre : list (event A)) (m : nat) : Prop :=
  exists post, l = pre ++ Solve m :: post /\ (solves pre = false \/ reusing r pre = false) /\
    (forall mid k rest, post = mid ++ Solve k :: rest -> reusing r (pre ++ Solve m :: mid) = true).
