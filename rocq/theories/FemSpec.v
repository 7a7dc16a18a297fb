(** What finite element maps promise, stated with the reference elements and the sets of nodes. *)
From Verif Require Import Common FemModel.

(** ** Reference elements *)
Inductive shape := Simplex | Cube.
Fixpoint binom (n k : nat) : nat :=
  match n, k with _, 0 => 1 | 0, S _ => 0 | S n, S k => binom n k + binom n (S k) end.
(** The number of faces of dimension [e] of the [d]-dimensional simplex or cube, and their type. *)
Definition subs (sh : shape) (d e : nat) : nat := match sh with Simplex => binom (S d) (S e) | Cube => 2 ^ (d - e) * binom d e end.
Definition type_of (sh : shape) (e : nat) : gtype := match sh with Simplex => simplex (N.of_nat e) | Cube => cube (N.of_nat e) end.
(** The dofs a cell collects from its faces of all dimensions. *)
Definition collected (sh : shape) (d : nat) (m : femap) : N :=
  fold_right N.add 0%N (map (fun e => (N.of_nat (subs sh d e) * fm_size m (type_of sh e))%N) (seq 0 (S d))).

(** The exponents of the polynomials of degree at most [k] in [d] variables (or the Lagrange nodes of the
    simplex), and those of degree at most [k] in each variable. *)
Fixpoint monomials (d k : nat) : list (list nat) :=
  match d with 0 => [[]] | S d => flat_map (fun i => map (cons i) (monomials d (k - i))) (seq 0 (S k)) end.
Fixpoint tensor (d k : nat) : list (list nat) :=
  match d with 0 => [[]] | S d => flat_map (fun i => map (cons i) (tensor d k)) (seq 0 (S k)) end.

(** The map [m] describes elements with [n] shape functions on cells of this shape: a cell collects [n]
    dofs, hasDOFs() says where they are, and no cell has more than maxLocalSize(). *)
Record describes (sh : shape) (d : nat) (m : femap) (n : nat) : Prop := mkdesc {
  ds_dim : fm_dim m = N.of_nat d;
  ds_sum : collected sh d m = N.of_nat n;
  ds_has : forall c, c <= d -> (fm_has m (N.of_nat c) = true <-> (0 < fm_size m (type_of sh (d - c)))%N);
  ds_max : (N.of_nat n <= fm_max m)%N }.

(** The interior nodes of a face of dimension [e]. *)
Definition inner_tensor (d k e : nat) : nat := if k =? 0 then (if e =? d then 1 else 0) else (k - 1) ^ e.
Definition inner_simplex (d k e : nat) : nat :=
  if k =? 0 then (if e =? d then 1 else 0) else if e <? k then length (monomials e (k - S e)) else 0.

(** ** Lagrange elements of neighbouring simplices *)
(** The position of each vertex number in the sorted list. *)
Definition rank (x : nat) (l : list nat) : nat := length (filter (fun y => y <? x) l).
Definition ranks (l : list nat) : list nat := map (fun x => rank x l) l.
(** dune-localfunctions (trusted): the k-1 dofs in the interior of the edge between the local vertices [a] and
    [b] are numbered from the lower local vertex to the higher one, and the other way round if the vertex map
    of the element gives the lower local vertex the higher number.  The number of the [s]-th node counted
    from [a]. *)
Definition edge_dof (k : nat) (p : list nat) (a b s : nat) : nat :=
  let raw := if a <? b then s - 1 else k - 1 - s in
  if nth (max a b) p 0 <? nth (min a b) p 0 then k - 2 - raw else raw.

(** ** Faces and edges *)
(** A set bit means that the shape function of the face or edge is inverted. *)
Definition sign (o : N) (f : nat) : Z := if N.testbit o (N.of_nat f) then (-1)%Z else 1%Z.
(** Every face belongs to at most one intersection (no hanging nodes), and has a bit. *)
Definition conforming (faces : nat) (cells : list (list inter)) : Prop :=
  forall cell, In cell cells -> NoDup (map fst cell) /\ forall f o, In (f, o) cell -> f < faces.
(** Where the edge function points: from the first to the second vertex (local numbers). *)
Definition tangent (o : N) (i : nat) (e : nat * nat) : nat * nat :=
  let lo := min (fst e) (snd e) in let hi := max (fst e) (snd e) in
  if N.testbit o (N.of_nat i) then (hi, lo) else (lo, hi).
(** dune-geometry: the edges of the hexahedron. *)
Definition hexahedron : list (nat * nat) :=
  [(0,4);(1,5);(2,6);(3,7);(0,2);(1,3);(0,1);(2,3);(4,6);(5,7);(4,5);(6,7)].

(** ** Variable order *)
(** The order that was last given to a cell. *)
Definition last_order (default : N) (sets : list (nat * N)) (i : nat) : N :=
  fold_left (fun p s => if fst s =? i then snd s else p) sets default.
