(** Finite element maps: how many dofs they attach to the entities of a grid, which variant of an
    element they choose for a cell, and what they remember about the grid. *)
From Verif Require Import Common.
Local Open Scope N_scope.

(** ** Geometry types *)

(** dune-geometry: a topology id and a dimension; the lowest bit of the id does not matter. *)
Record gtype := mkgt { g_none : bool; g_id : N; g_dim : N }.
Definition gt_eqb (a b : gtype) : bool :=
  Bool.eqb (g_none a) (g_none b) && (g_none a || (g_dim a =? g_dim b) && (g_id a / 2 =? g_id b / 2)).
Definition simplex (d : N) : gtype := mkgt false 0 d.
Definition cube (d : N) : gtype := mkgt false (2 ^ d - 1) d.
Definition vertex : gtype := simplex 0.
Definition line : gtype := simplex 1.
Definition triangle : gtype := simplex 2.
Definition tetrahedron : gtype := simplex 3.
Definition quadrilateral : gtype := cube 2.

(** ** Arithmetic of unsigned int *)
Definition w32 : N := 2 ^ 32.
Definition uadd (a b : N) : N := (a + b) mod w32.
Definition usub (a b : N) : N := (a + w32 - b) mod w32.
Definition umul (a b : N) : N := (a * b) mod w32.

(** ** Sizes *)

(** finiteelementmap.hh 43-94: what a map tells without a cell: hasDOFs(codim), size(gt) and
    maxLocalSize(), for maps with fixedSize() = true. *)
Record femap := mkfem { fm_dim : N; fm_has : N -> bool; fm_size : gtype -> N; fm_max : N }.

(** pkfem.hh 27-71. *)
Definition pk1 (k : N) : femap :=
  mkfem 1
    (fun c => if c =? 1 then 0 <? k else if c =? 0 then negb (k =? 1) else false)
    (fun gt => if gt_eqb gt vertex then (if 0 <? k then 1 else 0)
               else if gt_eqb gt line then (if 0 <? k then usub k 1 else 1) else 0)
    (uadd k 1).
(** pkfem.hh 78-166. *)
Definition pk2 (k : N) : femap :=
  mkfem 2
    (fun c => if c =? 2 then 0 <? k else if c =? 1 then 1 <? k else if c =? 0 then (2 <? k) || (k =? 0) else false)
    (fun gt => if gt_eqb gt vertex then (if 0 <? k then 1 else 0)
               else if gt_eqb gt line then (if 1 <? k then usub k 1 else 0)
               else if gt_eqb gt triangle then (if 2 <? k then umul (usub k 2) (usub k 1) / 2 else if k =? 0 then 1 else 0)
               else 0)
    (umul (uadd k 1) (uadd k 2) / 2).
(** pkfem.hh 173-283. *)
Definition pk3 (k : N) : femap :=
  mkfem 3
    (fun c => if c =? 3 then 0 <? k else if c =? 2 then 1 <? k else if c =? 1 then 2 <? k
              else if c =? 0 then (k =? 0) || (3 <? k) else false)
    (fun gt => if gt_eqb gt vertex then (if 0 <? k then 1 else 0)
               else if gt_eqb gt line then (if 1 <? k then usub k 1 else 0)
               else if gt_eqb gt triangle then (if 2 <? k then umul (usub k 2) (usub k 1) / 2 else 0)
               else if gt_eqb gt tetrahedron then (if k =? 0 then 1 else umul (umul (usub k 3) (usub k 2)) (usub k 1) / 6)
               else 0)
    (umul (umul (uadd k 1) (uadd k 2)) (uadd k 3) / 6).
(** qkfem.hh 18-78 (k = 1 and k = 2; the loop of maxLocalSize multiplies by k+1 once per dimension). *)
Definition qk (d k : N) : femap :=
  mkfem d
    (fun c => if k =? 1 then c =? d else (k =? 2))
    (fun gt => if k =? 1 then (if gt_eqb gt vertex then 1 else 0) else if k =? 2 then 1 else 0)
    (N.iter d (fun r => r * (k + 1)) 1).
(** pk1d.hh 22-68 (k is a run time number of type size_t). *)
Definition pk1d (k : N) : femap :=
  mkfem 1
    (fun c => if c =? 0 then negb (k =? 1) else if c =? 1 then 0 <? k else false)
    (fun gt => if (g_dim gt =? 0) then (if 0 <? k then 1 else 0)
               else if (g_dim gt =? 1) then (if 0 <? k then k - 1 else 1) else 0)
    (k + 1).
(** p0fem.hh 15-51, monomfem.hh 17-54, opbfem.hh 15-50, qkdg.hh 30-178: all dofs in the cells, which have
    the type [t]. *)
Definition in_cells (d : N) (t : gtype) (n : N) : femap :=
  mkfem d (fun c => c =? 0) (fun gt => if gt_eqb gt t then n else 0) n.
(** rt0cube2dfem.hh 37-55, rt0simplex2dfem.hh 37-55, rt0cube3dfem.hh 37-55, rt0simplex3dfem.hh 37-55:
    one dof per face, which has the type [t]. *)
Definition rt0 (d : N) (t : gtype) (max : N) : femap :=
  mkfem d (fun c => c =? 1) (fun gt => if gt_eqb gt t then 1 else 0) max.
Definition rt0_cube2 : femap := rt0 2 line 4.
Definition rt0_simplex2 : femap := rt0 2 line 3.
Definition rt0_cube3 : femap := rt0 3 quadrilateral 6.
Definition rt0_simplex3 : femap := rt0 3 triangle 4.
(** rt1cube2dfem.hh 37-64, rt1simplex2dfem.hh 37-64, rt1cube3dfem.hh 37-64, rt2cube2dfem.hh 37-64. *)
Definition rt_high (d cell face max : N) : femap :=
  mkfem d (fun c => (c =? 0) || (c =? 1)) (fun gt => if g_dim gt =? d then cell else if g_dim gt =? d - 1 then face else 0) max.
Definition rt1_cube2 : femap := rt_high 2 4 2 12.
Definition rt1_simplex2 : femap := rt_high 2 2 2 8.
Definition rt1_cube3 : femap := rt_high 3 12 4 36.
Definition rt2_cube2 : femap := rt_high 2 12 3 24.
(** bdm1cube2dfem.hh 64-88, bdm1simplex2dfem.hh 64-88. *)
Definition bdm1 (max : N) : femap := mkfem 2 (fun c => c =? 1) (fun gt => if g_dim gt =? 1 then 2 else 0) max.
(** rannacherturekfem.hh 15-38: [d] is a template parameter. *)
Definition rannacher_turek (d : N) : femap := mkfem d (fun c => c =? 1) (fun gt => if gt_eqb gt line then 1 else 0) 4.
(** edges0.5fem.hh 24-67. *)
Definition edge05 (d : N) : femap := mkfem d (fun c => d - c =? 1) (fun gt => if gt_eqb gt line then 1 else 0) (2 * d).
(** powerfem.hh 65-83. *)
Definition power (n : N) (m : femap) : femap :=
  mkfem (fm_dim m) (fm_has m) (fun gt => n * fm_size m gt) (n * fm_max m).

(** pkqkfem.hh 23-52: the elements are created for the requested order, which is searched from maxP
    downwards.  [None]: it throws. *)
Fixpoint pkqk_init (maxP : nat) (order : N) : option N :=
  if order =? N.of_nat maxP then Some order
  else match maxP with O => None | S p => pkqk_init p order end.
(** pkqkfem.hh 98-110: cubes get the Qk element, simplices the Pk element. *)
Definition is_cube (gt : gtype) : bool := gt_eqb gt (cube (g_dim gt)).
Definition is_simplex (gt : gtype) : bool := gt_eqb gt (simplex (g_dim gt)).
Inductive pkqk_element := QkElement (order : N) | PkElement (order : N).
Definition pkqk_find (order : N) (gt : gtype) : res pkqk_element :=
  if is_cube gt then Ok (QkElement order) else if is_simplex gt then Ok (PkElement order) else Throw.
(** pkqkfem.hh 119-130 and 137-140. *)
Definition pkqk_has (d order codim : N) : bool :=
  if codim =? 0 then (order =? 0) || (1 <? order) else if codim =? d then 0 <? order else 1 <? order.
Definition pkqk_max (d : N) : N := 2 ^ d.

(** utility.hh 31-59. [None]: the function has returned 0. *)
Definition block_visit (size : gtype -> N) (st : option N) (gt : gtype) : option N :=
  match st with
  | None => None
  | Some s => let n := size gt in if 0 <? n then (if (0 <? s) && negb (s =? n) then None else Some n) else Some s
  end.
Definition block_types (dim : nat) : list gtype :=
  flat_map (fun d => mkgt true 0 (N.of_nat d) :: map (fun id => mkgt false (N.of_nat id) (N.of_nat d)) (seq 0 (2 ^ dim))) (seq 0 (S dim)).
Definition block_size (dim : nat) (size : gtype -> N) : N :=
  match fold_left (block_visit size) (block_types dim) (Some 0) with None => 0 | Some s => s end.
Local Close Scope N_scope.

(** ** Orientation of Pk elements *)

(** std::next_permutation on distinct numbers. *)
Fixpoint insert (x : nat) (l : list nat) : list nat :=
  match l with [] => [x] | y :: r => if x <=? y then x :: y :: r else y :: insert x r end.
Definition sort (l : list nat) : list nat := fold_right insert [] l.
Fixpoint next_perm (l : list nat) : option (list nat) :=
  match l with
  | [] => None
  | x :: r =>
      match next_perm r with
      | Some r' => Some (x :: r')
      | None =>
          match sort (filter (fun y => x <? y) r) with
          | [] => None
          | y :: _ => Some (y :: sort (x :: remove Nat.eq_dec y r))
          end
      end
  end.
(** The sequence of permutations, starting with [l]; it returns to the sorted one after the last. *)
Fixpoint perms (n : nat) (l : list nat) : list (list nat) :=
  match n with O => [] | S n => l :: perms n (match next_perm l with Some l' => l' | None => sort l end) end.

(** A Pk element is the vertex map it was built with (LagrangeSimplexLocalFiniteElement(vertexmap)). *)
(** pkfem.hh 96-105: the variants for triangles. *)
Definition pk2_variants : list (list nat) := perms 6 [0; 1; 2].
(** pkfem.hh 108-122, given the indices of the vertices. *)
Definition b2n (b : bool) : nat := if b then 1 else 0.
Definition pk2_find (n0 n1 n2 : nat) : res (list nat) :=
  match nth_error pk2_variants (2 * (b2n (n1 <? n0) + b2n (n2 <? n0)) + b2n (n2 <? n1)) with Some p => Ok p | None => UB end.

(** pkfem.hh 287-290. *)
Definition compress (p : list nat) : nat := nth 0 p 0 + nth 1 p 0 * 4 + nth 2 p 0 * 16 + nth 3 p 0 * 64.
(** pkfem.hh 190-202: the variants for tetrahedra and the table that finds them. *)
Definition pk3_variants : list (list nat) := perms 24 [0; 1; 2; 3].
Definition pk3_index : list nat :=
  fst (fold_left (fun st p => (upd (compress p) (snd st) (fst st), S (snd st))) pk3_variants (repeat 0 256, 0)).
(** pkfem.hh 218-226: one step of the reduction of the vertex numbers to 0..3. *)
Definition pk3_min (v : list nat) (i : nat) : option nat :=
  fold_left (fun m j => if (match m with None => true | Some m => nth j v 0 <? nth m v 0 end) && (i <=? nth j v 0) then Some j else m)
    (seq 0 4) None.
Definition pk3_reduce (v : list nat) : res (list nat) :=
  foldM (fun v i => match pk3_min v i with None => UB | Some m => Ok (upd m i v) end) (seq 0 4) v.
(** pkfem.hh 205-228. *)
Definition pk3_find (n0 n1 n2 n3 : nat) : res (list nat) :=
  let* v := pk3_reduce [n0; n1; n2; n3] in
  match nth_error pk3_index (compress v) with
  | None => UB
  | Some n => match nth_error pk3_variants n with Some p => Ok p | None => UB end
  end.
(** simplices in pkqkfem.hh 33-36: the default constructed element, which has the identity map. *)
Definition pkqk_vertex_map (n : list nat) : list nat := seq 0 (length n).

(** ** Orientation of faces and edges *)

(** A cell as the loop over the grid sees it: the intersections with indexInInside and the index of the
    outside cell, if there is one on this process. *)
Definition inter := (nat * option nat)%type.
(** finiteelementmap.hh 245-258, bdm1cube2dfem.hh 43-54, bdm1simplex2dfem.hh 43-54: the entry of orient (an
    unsigned char) of the cell with index [me]. *)
Definition byte (x : N) : N := (x mod 256)%N.
Definition rt_orient (me : nat) (l : list inter) : N :=
  fold_left (fun o i => match snd i with
                        | Some out => if me <? out then byte (N.lor o (N.shiftl 1 (N.of_nat (fst i)))) else o
                        | None => o end) l 0%N.
(** finiteelementmap.hh 234-259: the map stores one entry per cell of the grid it was built on.  [cells] lists
    the cells by index. *)
Definition rt_new (cells : list (list inter)) : list N :=
  map (fun i => rt_orient i (nth i cells [])) (seq 0 (length cells)).
(** finiteelementmap.hh 262-267: the variant, if the array has it. *)
Definition rt_find (variants : nat) (orient : list N) (index : nat) : res N :=
  match nth_error orient index with
  | None => UB
  | Some o => if (o <? N.of_nat variants)%N then Ok o else UB
  end.

(** finiteelementmap.hh 181-200: [edges] are the vertex numbers of the edges in the reference element,
    [vid] the global ids of the vertices of the cell. *)
Definition edge_orient (edges : list (nat * nat)) (vid : nat -> nat) : N :=
  fold_left (fun o ie =>
      let '(i, (v0, v1)) := ie in
      if negb (Bool.eqb (v1 <? v0) (vid v1 <? vid v0)) then byte (N.lor o (N.shiftl 1 (N.of_nat i))) else o)
    (combine (seq 0 (length edges)) edges) 0%N.

(** ** Maps with state *)

(** variablemonomfem.hh 40-130, variableqkdgfem.hh 40-120, variableopbfem.hh 41-122: the order of each cell,
    stored as unsigned char; the mapper (held by reference) numbers the cells of the current grid. *)
Record vmap := mkvmap { v_default : N; v_orders : list N; v_maxP : N }.
Definition v_new (cells : nat) (default maxP : N) : vmap := mkvmap default (repeat (byte default) cells) maxP.
(** variablemonomfem.hh 88-94.  The assertion and the access to the vector: undefined behaviour. *)
Definition v_set (m : vmap) (i : nat) (p : N) : res vmap :=
  if (v_maxP m <? p)%N then UB
  else if i <? length (v_orders m) then Ok (mkvmap (v_default m) (upd i (byte p) (v_orders m)) (v_maxP m)) else UB.
(** variablemonomfem.hh 96-103. *)
Definition v_get (m : vmap) (i : nat) : res N :=
  match nth_error (v_orders m) i with None => UB | Some p => if (v_maxP m <? p)%N then UB else Ok p end.
(** variablemonomfem.hh 68-85: the order of the element find() returns, that of getFEM(p) and getFEM(). *)
Definition v_fem (m : vmap) (p : N) : res N := if (v_maxP m <? p)%N then UB else Ok p.
Definition v_find (m : vmap) (i : nat) : res N := let* p := v_get m i in v_fem m p.
Definition v_fem_default (m : vmap) : res N := v_fem m (v_default m).

(** mimeticfem.hh 28-54: elements for 0, 1, ... faces in a vector that grows when a cell with more faces is
    met.  A reference returned by find() is the buffer and the position; growing the vector (beyond its
    capacity, which is its size) gives it a new buffer. *)
Record mimetic := mkmim { mi_buffer : nat; mi_size : nat }.
Definition mi_new : mimetic := mkmim 0 20.
Definition mi_find (m : mimetic) (n : nat) : mimetic * (nat * nat) :=
  if n <? mi_size m then (m, (mi_buffer m, n)) else (mkmim (S (mi_buffer m)) (S n), (S (mi_buffer m), n)).
(** Using a reference: its element, if the buffer still exists. *)
Definition mi_use (m : mimetic) (r : nat * nat) : res nat := if fst r =? mi_buffer m then Ok (snd r) else UB.
