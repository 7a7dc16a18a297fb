(** Model of the local containers and of the views through which they are exchanged with global ones:
    - gridoperator/common/localmatrix.hh (LocalMatrix, its iterator, WeightedMatrixAccumulationView)
    - gridfunctionspace/localvector.hh (LocalVector, WeightedVectorAccumulationView)
    - backend/common/uncachedvectorview.hh, uncachedmatrixview.hh.
    Entries are real numbers; indices are natural numbers (container indices are compared only for equality).  An access
    outside a std::vector, to an entry that is not in the pattern, or through a null pointer is UB. *)
From Coq Require Export Reals.
From Verif Require Export Common.
Local Open Scope nat_scope.

(** std::vector access *)
Definition look (l : list R) (i : nat) : res R := match nth_error l i with Some v => Ok v | None => UB end.
Definition put (l : list R) (i : nat) (v : R) : res (list R) := if Nat.ltb i (length l) then Ok (upd i v l) else UB.

(** ** LocalMatrix: localmatrix.hh 177-462.  (The default constructor leaves the shape uninitialised; not modelled.) *)
Record lmat := mklmat { rows : nat; cols : nat; store : list R }.
(** getEntry: 433-453 *)
Definition place_of (m : lmat) (i j : nat) : nat := j * rows m + i.
Definition entry (m : lmat) (i j : nat) : res R := look (store m) (place_of m i j).
Definition set_entry (m : lmat) (i j : nat) (v : R) : res lmat :=
  let* s := put (store m) (place_of m i j) v in Ok (mklmat (rows m) (cols m) s).
(** LocalMatrix(r,c,t), LocalMatrix(r,c): 292-304; assign: 322-327 *)
Definition make (r c : nat) (t : R) : lmat := mklmat r c (repeat t (r * c)).
(** resize: 307-312 (std::vector::resize keeps the leading entries, new ones are zero) *)
Definition resize (r c : nat) (m : lmat) : lmat :=
  mklmat r c (firstn (r * c) (store m) ++ repeat 0%R (r * c - length (store m))).
(** operator=(t): 315-319; operator*=: 356-366 *)
Definition fill (t : R) (m : lmat) : lmat := mklmat (rows m) (cols m) (map (fun _ => t) (store m)).
Definition scale (x : R) (m : lmat) : lmat := mklmat (rows m) (cols m) (map (fun v => x * v)%R (store m)).
(** umv, usmv: 381-400 *)
Definition usmv (m : lmat) (alpha : R) (x y : list R) : res (list R) :=
  foldM (fun y i => foldM (fun y j =>
    let* v := look y i in let* a := entry m i j in let* u := look x j in put y i (v + alpha * a * u)%R)
    (seq 0 (cols m)) y) (seq 0 (rows m)) y.
Definition umv (m : lmat) (x y : list R) : res (list R) :=
  foldM (fun y i => foldM (fun y j =>
    let* v := look y i in let* a := entry m i j in let* u := look x j in put y i (v + a * u)%R)
    (seq 0 (cols m)) y) (seq 0 (rows m)) y.
(** The iterator: 215-286 *)
Definition begin_ (m : lmat) : nat * nat := (0, 0).
Definition end_ (m : lmat) : nat * nat := if Nat.ltb 0 (cols m) then (rows m, 0) else begin_ m.
Definition increment (m : lmat) (p : nat * nat) : nat * nat :=
  if Nat.ltb (snd p) (cols m - 1) then (fst p, S (snd p)) else (S (fst p), 0).
Definition decrement (m : lmat) (p : nat * nat) : nat * nat :=
  if Nat.ltb 0 (snd p) then (fst p, snd p - 1) else (fst p - 1, cols m - 1).
Definition same_place (p q : nat * nat) : bool := Nat.eqb (fst p) (fst q) && Nat.eqb (snd p) (snd q).
(** for (it = begin(); it != end(); ++it): the places visited; None if the loop does more than [fuel] rounds *)
Fixpoint loop (m : lmat) (fuel : nat) (p : nat * nat) : option (list (nat * nat)) :=
  if same_place p (end_ m) then Some []
  else match fuel with
       | O => None
       | S k => match loop m k (increment m p) with Some l => Some (p :: l) | None => None end
       end.

(** Calls that change a LocalMatrix. *)
Inductive lop := Resize (r c : nat) | Assign (r c : nat) (t : R) | Fill (t : R) | Scale (x : R) | SetEntry (i j : nat) (v : R).
Definition lstep (m : lmat) (o : lop) : res lmat :=
  match o with
  | Resize r c => Ok (resize r c m)
  | Assign r c t => Ok (make r c t)
  | Fill t => Ok (fill t m)
  | Scale x => Ok (scale x m)
  | SetEntry i j v => set_entry m i j v
  end.

(** ** Weighted accumulation views: localvector.hh 27-170 *)
(** A local vector and the views made of it, in the order of their creation: weight and modification flag each. *)
Record wviews := mkw { vec : list R; views : list (R * bool) }.
(** A call: on the vector itself or on view k; [lfs] lists the local indices of a local function space. *)
Inductive wop :=
| MakeView (w : R)                                      (* LocalVector::weightedAccumulationView: 215-218 *)
| Nested (k : nat) (w : R)                              (* view k .weightedAccumulationView: 48-51 *)
| SetWeight (k : nat) (w : R)                           (* 72-75 *)
| Accumulate (k : nat) (lfs : list nat) (n : nat) (v : R)     (* 79-83 *)
| RawAccumulate (k : nat) (lfs : list nat) (n : nat) (v : R)  (* 91-95 *)
| ResetModified (k : nat)                               (* 121-124 *)
| WriteContainer (k : nat) (i : nat) (v : R)            (* container() or base(): 127-149 *)
| WriteData (k : nat) (i : nat) (v : R).                (* data(): 152-155, does not set the flag *)
Definition view_at (s : wviews) (k : nat) : res (R * bool) := match nth_error (views s) k with Some p => Ok p | None => UB end.
Definition local_index (lfs : list nat) (n : nat) : res nat := match nth_error lfs n with Some i => Ok i | None => UB end.
Definition add_to (l : list R) (i : nat) (v : R) : res (list R) := let* u := look l i in put l i (u + v)%R.
Definition flag (k : nat) (w : R) (l : list (R * bool)) : list (R * bool) := upd k (w, true) l.
Definition wstep (s : wviews) (o : wop) : res wviews :=
  match o with
  | MakeView w => Ok (mkw (vec s) (views s ++ [(w, false)]))
  | Nested k w => let* (u, _) := view_at s k in Ok (mkw (vec s) (flag k u (views s) ++ [((w * u)%R, false)]))
  | SetWeight k w => let* (_, f) := view_at s k in Ok (mkw (vec s) (upd k (w, f) (views s)))
  | Accumulate k lfs n v =>
      let* (u, _) := view_at s k in let* i := local_index lfs n in
      let* l := add_to (vec s) i (u * v)%R in Ok (mkw l (flag k u (views s)))
  | RawAccumulate k lfs n v =>
      let* (u, _) := view_at s k in let* i := local_index lfs n in
      let* l := add_to (vec s) i v in Ok (mkw l (flag k u (views s)))
  | ResetModified k => let* (u, _) := view_at s k in Ok (mkw (vec s) (upd k (u, false) (views s)))
  | WriteContainer k i v => let* (u, _) := view_at s k in let* l := put (vec s) i v in Ok (mkw l (flag k u (views s)))
  | WriteData k i v => let* _ := view_at s k in let* l := put (vec s) i v in Ok (mkw l (views s))
  end.

(** ** Views on global containers *)
(** A global container: the value of each index, or that there is no such entry. *)
Section Links.
  Variable K : Type.
  Variable eqk : K -> K -> bool.
  Definition glob := K -> option R.
  Definition gset (g : glob) (k : K) (v : R) : res glob :=
    match g k with Some _ => Ok (fun k' => if eqk k k' then Some v else g k') | None => UB end.
  Definition gget (g : glob) (k : K) : res R := match g k with Some v => Ok v | None => UB end.
  (** Pairs of a place in the local container and a global index, in the order of the loops. *)
  Definition read_links (g : glob) (L : list (nat * K)) (loc : list R) : res (list R) :=
    foldM (fun loc q => let* v := gget g (snd q) in put loc (fst q) v) L loc.
  Definition write_links (loc : list R) (L : list (nat * K)) (g : glob) : res glob :=
    foldM (fun g q => let* v := look loc (fst q) in gset g (snd q) v) L g.
  Definition add_links (loc : list R) (L : list (nat * K)) (g : glob) : res glob :=
    foldM (fun g q => let* v := look loc (fst q) in let* u := gget g (snd q) in gset g (snd q) (u + v)%R) L g.
End Links.
Arguments gset {K}. Arguments gget {K}. Arguments read_links {K}. Arguments write_links {K}. Arguments add_links {K}.

(** UncachedVectorView: uncachedvectorview.hh.  [container]: the vector attached; [bound]: the container indices of the
    cache bound last (unbind, 63-65, does nothing). *)
Record vview := mkvview { container : option nat; bound : option (list nat) }.
Record vworld := mkvworld { vectors : nat -> glob nat; vv : vview; local : list R }.
(** Which entries: all (72-78, 180-195), those of a child in the full local container (81-89, 200-217), or those of a
    child in a container of its own (92-100, 220-247).  A child lists its local indices. *)
Inductive part := Whole | Child (ch : list nat) | Sub (ch : list nat).
Fixpoint gather_res {X Y : Type} (f : X -> res Y) (l : list X) : res (list Y) :=
  match l with [] => Ok [] | x :: l => let* y := f x in let* r := gather_res f l in Ok (y :: r) end.
Definition vlinks (idx : list nat) (p : part) : res (list (nat * nat)) :=
  match p with
  | Whole => gather_res (fun i => let* k := local_index idx i in Ok (i, k)) (seq 0 (length idx))
  | Child ch => gather_res (fun i => let* l := local_index ch i in let* k := local_index idx l in Ok (l, k)) (seq 0 (length ch))
  | Sub ch => gather_res (fun i => let* l := local_index ch i in let* k := local_index idx l in Ok (i, k)) (seq 0 (length ch))
  end.
Inductive vop :=
| Attach (c : nat) | Detach | Bind (idx : list nat) | Unbind | Commit
| Read (p : part) | Write (p : part) | Add (p : part)
| SetAt (i : nat) (v : R)           (* view[i] = v: 256-259 *)
| LocalSet (l : list R).            (* the caller puts other values into the local container *)
Definition the {X : Type} (o : option X) : res X := match o with Some x => Ok x | None => UB end.
Definition vset (s : vworld) (c : nat) (g : glob nat) : vworld :=
  mkvworld (fun c' => if Nat.eqb c c' then g else vectors s c') (vv s) (local s).
Definition vstep (s : vworld) (o : vop) : res vworld :=
  match o with
  | Attach c => Ok (mkvworld (vectors s) (mkvview (Some c) (bound (vv s))) (local s))
  | Detach => Ok (mkvworld (vectors s) (mkvview None (bound (vv s))) (local s))
  | Bind idx => Ok (mkvworld (vectors s) (mkvview (container (vv s)) (Some idx)) (local s))
  | Unbind | Commit => Ok s
  | Read p => let* c := the (container (vv s)) in let* idx := the (bound (vv s)) in let* L := vlinks idx p in
      let* l := read_links (vectors s c) L (local s) in Ok (mkvworld (vectors s) (vv s) l)
  | Write p => let* c := the (container (vv s)) in let* idx := the (bound (vv s)) in let* L := vlinks idx p in
      let* g := write_links Nat.eqb (local s) L (vectors s c) in Ok (vset s c g)
  | Add p => let* c := the (container (vv s)) in let* idx := the (bound (vv s)) in let* L := vlinks idx p in
      let* g := add_links Nat.eqb (local s) L (vectors s c) in Ok (vset s c g)
  | SetAt i v => let* c := the (container (vv s)) in let* idx := the (bound (vv s)) in let* k := local_index idx i in
      let* g := gset Nat.eqb (vectors s c) k v in Ok (vset s c g)
  | LocalSet l => Ok (mkvworld (vectors s) (vv s) l)
  end.

(** UncachedMatrixView: uncachedmatrixview.hh: read 103-109, write 210-216, add 218-224; entry (i,j) of the local matrix
    belongs to the container indices of row i and column j. *)
Definition eqkk (p q : nat * nat) : bool := Nat.eqb (fst p) (fst q) && Nat.eqb (snd p) (snd q).
Definition mlinks (ri ci : list nat) (m : lmat) : res (list (nat * (nat * nat))) :=
  gather_res (fun q => let* r := local_index ri (fst q) in let* c := local_index ci (snd q) in
                       Ok (place_of m (fst q) (snd q), (r, c)))
    (flat_map (fun i => map (fun j => (i, j)) (seq 0 (length ci))) (seq 0 (length ri))).
Definition mread (g : glob (nat * nat)) (ri ci : list nat) (m : lmat) : res lmat :=
  let* L := mlinks ri ci m in let* s := read_links g L (store m) in Ok (mklmat (rows m) (cols m) s).
Definition mwrite (m : lmat) (ri ci : list nat) (g : glob (nat * nat)) : res (glob (nat * nat)) :=
  let* L := mlinks ri ci m in write_links eqkk (store m) L g.
Definition madd (m : lmat) (ri ci : list nat) (g : glob (nat * nat)) : res (glob (nat * nat)) :=
  let* L := mlinks ri ci m in add_links eqkk (store m) L g.
