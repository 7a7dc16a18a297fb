(** Model of interpolation and of discrete grid functions.

    Modelled code (dune/pdelab):
    - gridfunctionspace/interpolate.hh 30-160 (the visitors), 177-216 (interpolate)
    - gridfunctionspace/gridfunctionspaceutilities.hh 54-166 (DiscreteGridFunction), 366-480 (DiscreteGridFunctionGlobalCurl),
      491-603 (DiscreteGridFunctionGradient), 610-710 (DiscreteGridFunctionPiola), 729-895 (VectorDiscreteGridFunction),
      908-1030 (VectorDiscreteGridFunctionGradient), 1044-1106 (SingleDerivativeComputationHelper),
      1121-1245 (VectorDiscreteGridFunctionDiv), 1286-1440, 1452-1580 (VectorDiscreteGridFunctionCurl)
    - function/discretegridviewfunction.hh 97-232 (DiscreteGridViewFunction::LocalFunction, order 0 and 1)
    - common/jacobiantocurl.hh (JacobianToCurl)
    - backend/common/uncachedvectorview.hh 72-78 (read), 220-228 (write_sub_container)

    The local function space is that of LfsModel.  Simplifications: real numbers; a coefficient vector maps DOF indices
    to values (that a DOF index determines its place in the container, and no other has it, is C01-C07 and C59);
    coordinates, ranges and Jacobians are functions of the component, whose number plays no role where all components are
    treated alike; lifetimes of spaces and vectors are not modelled.  Not modelled because it does not compile when it is
    instantiated: DiscreteGridFunctionCurl::evaluate (calls bind without an element), the second derivatives of
    DiscreteGridViewFunction (stores values of shape functions as Hessians). *)
From Coq Require Import Reals.
From Verif Require Import Common LfsModel.

Definition point := nat -> R.
(** A finite element: local interpolation, evaluateFunction and evaluateJacobian. *)
Record fel := mkfel {
  interpolation : (point -> nat -> R) -> list R;
  values : point -> list (nat -> R);
  jacobians : point -> list (nat -> nat -> R)
}.

(** A tree of functions; a leaf has a range of dimension [dim] and is evaluated in local coordinates of an element. *)
Inductive func := FLeaf (dim : nat) (f : nat -> point -> nat -> R) | FInner (l : list func).

Definition dof_eq_dec (a b : dof) : {a = b} + {a <> b}.
Proof. repeat decide equality. Defined.
Definition vec := dof -> R.
Definition set (x : vec) (d : dof) (v : R) : vec := fun d' => if dof_eq_dec d' d then v else x d'.

(** uncachedvectorview.hh 220-228; [o], [n]: offset and size of the child *)
Definition write_sub (o n : nat) (a : list dof) (xl : list R) (x : vec) : res vec :=
  foldM (fun x i => match nth_error a (o + i), nth_error xl i with Some d, Some v => Ok (set x d v) | _, _ => UB end)
    (seq 0 n) x.

(** uncachedvectorview.hh 72-78 *)
Definition read (n : nat) (a : list dof) (x : vec) (xl : list R) : res (list R) :=
  foldM (fun xl i => match nth_error a i with
                     | Some d => if i <? length xl then Ok (upd i (x d) xl) else UB
                     | None => UB
                     end) (seq 0 n) xl.

(** y.axpy(xl[o + i], yb[i]) for all i, with y = 0 *)
Definition axpy_all (o : nat) (xl : list R) (yb : list (nat -> R)) : res (nat -> R) :=
  foldM (fun y i => match nth_error xl (o + i), nth_error yb i with
                    | Some c, Some v => Ok (fun r => y r + c * v r)%R
                    | _, _ => UB
                    end) (seq 0 (length yb)) (fun _ => 0%R).

Fixpoint leaf_count (t : lfs) : nat :=
  match t with Leaf _ _ _ => 1 | Inner _ _ ch => sum_nat (map leaf_count ch) end.

Section space.
  (** The finite elements: of the leaf at a path, on an element. *)
  Variable fem : list nat -> nat -> fel.

  (** finiteElement() of a leaf outside its entity set dereferences a null pointer: localfunctionspace.hh 588-596 *)
  Definition finite_element (p : list nat) (e : nat) (fm : nat -> element) : res fel :=
    if inside (fm e) then Ok (fem p e) else UB.

  (** interpolate.hh 36-47 and 70-88: no check of the size *)
  Definition leaf_unchecked (e : nat) (g : point -> nat -> R) (a : list dof) (p : list nat) (o n : nat)
    (fm : nat -> element) (x : vec) : res vec :=
    let* fe := finite_element p e fm in write_sub o n a (interpolation fe g) x.
  (** interpolate.hh 107-122 *)
  Definition leaf_leaf (e : nat) (g : point -> nat -> R) (a : list dof) (p : list nat) (o n : nat)
    (fm : nat -> element) (x : vec) : res vec :=
    if n =? 0 then Ok x else let* fe := finite_element p e fm in write_sub o n a (interpolation fe g) x.

  (** InterpolateLeafFromScalarVisitor: interpolate.hh 30-57 *)
  Fixpoint from_scalar (e : nat) (g : point -> nat -> R) (a : list dof) (p : list nat) (t : lfs) (x : vec) {struct t} : res vec :=
    match t with
    | Leaf o n fm => leaf_unchecked e g a p o n fm x
    | Inner _ _ ch =>
        (fix go k ch x := match ch with
           | [] => Ok x
           | c :: r => let* x := from_scalar e g a (p ++ [k]) c x in go (S k) r x
           end) 0 ch x
    end.

  (** InterpolateLeafFromVectorVisitor: interpolate.hh 60-97; the state is the next component and the vector *)
  Fixpoint from_vector (e : nat) (g : point -> nat -> R) (a : list dof) (p : list nat) (t : lfs) (s : nat * vec) {struct t}
    : res (nat * vec) :=
    match t with
    | Leaf o n fm =>
        let '(index, x) := s in
        let* x := leaf_unchecked e (fun y _ => g y index) a p o n fm x in
        Ok (S index, x)
    | Inner _ _ ch =>
        (fix go k ch s := match ch with
           | [] => Ok s
           | c :: r => let* s := from_vector e g a (p ++ [k]) c s in go (S k) r s
           end) 0 ch s
    end.

  (** TypeTree::applyToTreePair with InterpolateVisitor: interpolate.hh 100-160.  Trees that do not fit do not compile:
      Throw.  A range of dimension one converts to its field. *)
  Fixpoint visit_pair (e : nat) (a : list dof) (p : list nat) (f : func) (t : lfs) (x : vec) {struct f} : res vec :=
    match f, t with
    | FLeaf _ g, Leaf o n fm => leaf_leaf e (g e) a p o n fm x
    | FLeaf dim g, Inner _ _ _ =>
        if dim =? 1 then from_scalar e (g e) a p t x
        else if negb (leaf_count t =? dim) then Throw
        else let* (_, x) := from_vector e (g e) a p t (0, x) in Ok x
    | FInner fs, Inner _ _ ch =>
        (fix go k fs ch x := match fs, ch with
           | [], [] => Ok x
           | f :: fs', c :: ch' => let* x := visit_pair e a (p ++ [k]) f c x in go (S k) fs' ch' x
           | _, _ => Throw
           end) 0 fs ch x
    | FInner _, Leaf _ _ _ => Throw
    end.

  (** interpolate.hh 177-216 *)
  Definition interpolate (elements : list nat) (f : func) (s : lfs * list dof) (x : vec) : res ((lfs * list dof) * vec) :=
    foldM (fun '(s, x) e =>
        let* s := bind_to false e s in
        let* x := visit_pair e (snd s) [] f (fst s) x in
        Ok (s, x)) elements (s, x).

  (** ** Discrete grid functions *)

  (** The mutable members lfs with its index cache, and xl. *)
  Definition state := ((lfs * list dof) * list R)%type.

  (** gridfunctionspaceutilities.hh 136-140: bind, update, read *)
  Definition load (e : nat) (x : vec) (st : state) : res state :=
    let '(s, xl) := st in
    let* s := bind_to false e s in
    let* xl := read (size (fst s)) (snd s) x xl in
    Ok (s, xl).

  (** DiscreteGridFunction::evaluate: 129-147 *)
  Definition dgf (x : vec) (e : nat) (p : point) (st : state) : res (state * (nat -> R)) :=
    let* st := load e x st in
    match fst (fst st) with
    | Leaf _ _ fm => let* fe := finite_element [] e fm in
                     let* y := axpy_all 0 (snd st) (values fe p) in Ok (st, y)
    | Inner _ _ _ => Throw
    end.

  (** lfs.child(k), which has to be a leaf *)
  Definition child (t : lfs) (k : nat) : res (nat * nat * (nat -> element)) :=
    match t with
    | Leaf _ _ _ => Throw
    | Inner _ _ ch => match nth_error ch k with Some (Leaf o n fm) => Ok (o, n, fm) | Some _ => Throw | None => UB end
    end.

  (** VectorDiscreteGridFunction::evaluate: 862-880; scalar shape functions *)
  Definition vdgf (dimR : nat) (remap : nat -> nat) (x : vec) (e : nat) (p : point) (st : state) : res (state * list R) :=
    let* st := load e x st in
    let* y := foldM (fun y k =>
        let* (o, n, fm) := child (fst (fst st)) (remap k) in
        let* fe := finite_element [remap k] e fm in
        let* v := axpy_all o (snd st) (values fe p) in
        Ok (y ++ [v 0])) (seq 0 dimR) [] in
    Ok (st, y).

  (** ** Derivatives *)
  Variable dim : nat.
  Variable JgeoIT : nat -> point -> nat -> nat -> R.    (** geometry().jacobianInverseTransposed *)

  (** JgeoIT.umv(t, gradphi) with gradphi = 0 *)
  Definition umv (M : nat -> nat -> R) (t : nat -> R) : nat -> R :=
    fun k => fold_left (fun s j => (s + M k j * t j)%R) (seq 0 dim) 0%R.

  (** the loop over the shape functions: y.axpy(xl[o + i], op(J[i])) for i < n *)
  Definition axpy_n (o n : nat) (xl : list R) (J : list (nat -> nat -> R)) (op : (nat -> nat -> R) -> nat -> R) : res (nat -> R) :=
    foldM (fun y i => match nth_error xl (o + i), nth_error J i with
                      | Some c, Some j => Ok (fun r => y r + c * op j r)%R
                      | _, _ => UB
                      end) (seq 0 n) (fun _ => 0%R).

  (** std::vector::resize *)
  Definition resize (n : nat) (xl : list R) : list R := firstn n xl ++ repeat 0%R (n - length xl).

  (** DiscreteGridFunctionGradient::evaluate: 552-584 *)
  Definition gradient (x : vec) (e : nat) (p : point) (st : state) : res (state * (nat -> R)) :=
    let '(s, xl) := st in
    let* s := bind_to false e s in
    let* xl := read (size (fst s)) (snd s) x (resize (size (fst s)) xl) in
    match fst s with
    | Leaf _ n fm => let* fe := finite_element [] e fm in
                     let* y := axpy_n 0 n xl (jacobians fe p) (fun J => umv (JgeoIT e p) (J 0)) in Ok ((s, xl), y)
    | Inner _ _ _ => Throw
    end.

  Definition degree (t : lfs) : nat := match t with Leaf _ _ _ => 0 | Inner _ _ ch => length ch end.

  (** VectorDiscreteGridFunctionGradient::evaluate: 978-1010; y[k] is a row *)
  Definition vgradient (x : vec) (e : nat) (p : point) (st : state) : res (state * list (nat -> R)) :=
    let* st := load e x st in
    let* y := foldM (fun y k =>
        let* (o, n, fm) := child (fst (fst st)) k in
        let* fe := finite_element [k] e fm in
        let* v := axpy_n o n (snd st) (jacobians fe p) (fun J => umv (JgeoIT e p) (J 0)) in
        Ok (y ++ [v])) (seq 0 (degree (fst (fst st)))) [] in
    Ok (st, y).

  (** SingleDerivativeComputationHelper: 1044-1056, 1069-1079 (FieldMatrix), 1093-1106 (DiagonalMatrix) *)
  Inductive matrix := General | Field | Diagonal.
  Definition compute_derivative (m : matrix) (M : nat -> nat -> R) (t : nat -> R) (k : nat) : R :=
    match m with
    | General => umv M t k
    | Field => fold_left (fun s j => (s + M k j * t j)%R) (seq 0 dim) 0%R
    | Diagonal => (M k k * t k)%R
    end.

  (** the loop over children and shape functions with an update of y *)
  Definition over_children (x : vec) (e : nat) (p : point) (st : state)
    (step : nat -> R -> (nat -> R) -> (nat -> R) -> (nat -> R)) : res (state * (nat -> R)) :=
    let* st := load e x st in
    let* y := foldM (fun y k =>
        let* (o, n, fm) := child (fst (fst st)) k in
        let* fe := finite_element [k] e fm in
        foldM (fun y i => match nth_error (snd st) (o + i), nth_error (jacobians fe p) i with
                          | Some c, Some J => Ok (step k c (J 0) y)
                          | _, _ => UB
                          end) (seq 0 n) y) (seq 0 (degree (fst (fst st)))) (fun _ => 0%R) in
    Ok (st, y).

  (** VectorDiscreteGridFunctionDiv::evaluate: 1181-1221 *)
  Definition divergence (m : matrix) (x : vec) (e : nat) (p : point) (st : state) : res (state * (nat -> R)) :=
    over_children x e p st (fun k c J y => fun r =>
      if r =? 0 then (y 0%nat + c * compute_derivative m (JgeoIT e p) J k)%R else y r).

  Definition update (y : nat -> R) (k : nat) (v : R) : nat -> R := fun r => if r =? k then v else y r.

  (** VectorDiscreteGridFunctionCurl in 3D: 1362-1418 *)
  Definition curl3 (m : matrix) (x : vec) (e : nat) (p : point) (st : state) : res (state * (nat -> R)) :=
    over_children x e p st (fun k c J y =>
      let i1 := (k + 1) mod 3 in
      let i2 := (k + 2) mod 3 in
      let y := update y i1 (y i1 + c * compute_derivative m (JgeoIT e p) J i2)%R in
      update y i2 (y i2 - c * compute_derivative m (JgeoIT e p) J i1)%R).

  (** VectorDiscreteGridFunctionCurl in 2D: 1512-1558; the sign alternates with k *)
  Definition curl2 (m : matrix) (x : vec) (e : nat) (p : point) (st : state) : res (state * (nat -> R)) :=
    over_children x e p st (fun k c J y =>
      let sign := fold_left (fun s _ => (s * -1)%R) (seq 0 k) (-1)%R in
      let i2 := 1 - k in
      update y 0 (y 0%nat + sign * c * compute_derivative m (JgeoIT e p) J i2)%R).

  (** DiscreteGridFunctionPiola::evaluate: 665-690.  [invert] and [determinant] are FieldMatrix::invert and determinant. *)
  Variable invert : (nat -> nat -> R) -> (nat -> nat -> R).
  Variable determinant : (nat -> nat -> R) -> R.
  Definition piola (x : vec) (e : nat) (p : point) (st : state) : res (state * (nat -> R)) :=
    let* (st, yhat) := dgf x e p st in
    let J := invert (JgeoIT e p) in
    Ok (st, fun k => (umv (fun i j => J j i) yhat k / determinant J)%R).

  (** ** DiscreteGridViewFunction::LocalFunction *)
  (** element_, the local function space, xl_ *)
  Definition gvf := (option nat * state)%type.
  Inductive op := Bind (e : nat) | Unbind | Value (p : point) | Derivative (p : point) | SetDofs (x : vec).
  Inductive answer := Values (y : nat -> R) | Rows (y : nat -> nat -> R).

  (** discretegridviewfunction.hh 97-120, 137-160, 174-186 and 188-220; SetDofs: the user changes the vector.  A function
      of order 0 answers Value, one of order 1 Derivative; [rows] is the dimension of the range. *)
  Definition gvf_step (s : gvf * vec * list answer) (o : op) : res (gvf * vec * list answer) :=
    let '(g, x, out) := s in
    match o with
    | Bind e => let* st := load e x (snd g) in Ok ((Some e, st), x, out)
    | Unbind => Ok ((None, snd g), x, out)
    | SetDofs x => Ok (g, x, out)
    | Value p =>
        match fst (fst (snd g)) with
        | Leaf _ _ fm =>
            match fst g with
            | None => UB
            | Some e => let* fe := finite_element [] e fm in
                        let* y := axpy_all 0 (snd (snd g)) (values fe p) in Ok (g, x, out ++ [Values y])
            end
        | Inner _ _ _ => Throw
        end
    | Derivative p =>
        match fst (fst (snd g)) with
        | Leaf _ _ fm =>
            match fst g with
            | None => UB
            | Some e =>
                let* fe := finite_element [] e fm in
                let* y := foldM (fun (y : nat -> nat -> R) i => match nth_error (snd (snd g)) i, nth_error (jacobians fe p) i with
                                           | Some c, Some J => Ok (fun j k => y j k + c * umv (JgeoIT e p) (J j) k)%R
                                           | _, _ => UB
                                           end) (seq 0 (length (jacobians fe p))) (fun _ _ => 0%R) in
                Ok (g, x, out ++ [Rows y])
            end
        | Inner _ _ _ => Throw
        end
    end.
End space.

(** ** Curls *)

(** common/jacobiantocurl.hh: rows, columns of the Jacobian; result of the given number of components *)
Definition jacobian_to_curl (rows cols : nat) (J : nat -> nat -> R) : option (list R) :=
  match rows, cols with
  | 1, 2 => Some [J 0%nat 1%nat; - J 0%nat 0%nat]%R
  | 2, 2 => Some [J 1%nat 0%nat - J 0%nat 1%nat]%R
  | 3, 3 => Some (map (fun alpha => let beta := (alpha + 1) mod 3 in let gamma := (alpha + 2) mod 3 in
                        (J gamma beta - J beta gamma)%R) (seq 0 3))
  | _, _ => None
  end.

(** Access to a FieldMatrix and a FieldVector, as lists *)
Definition at2 (J : list (list R)) (r c : nat) : res R :=
  match nth_error J r with Some row => match nth_error row c with Some v => Ok v | None => UB end | None => UB end.
Definition add_to (y : list R) (k : nat) (v : R) : res (list R) :=
  match nth_error y k with Some w => Ok (upd k (w + v)%R y) | None => UB end.

(** DiscreteGridFunctionCurlTraits: 282-346: dimRange of the curl from that of the basis *)
Definition curl_dim (dim_basis : nat) : nat := match dim_basis with 1 => 2 | 2 => 1 | n => n end.

(** DiscreteGridFunctionGlobalCurl::evaluate: 436-458, after reading the coefficients; [J]: the Jacobian of each shape
    function, of [dim_basis] rows.  The switch is over Traits::dimRange, that of the curl. *)
Definition global_curl (dim_basis : nat) (xl : list R) (J : list (list (list R))) : res (list R) :=
  foldM (fun y i =>
      match nth_error xl i, nth_error J i with
      | Some x, Some Ji =>
          match curl_dim dim_basis with
          | 1 =>
              let* v := at2 Ji 0 1 in let* y := add_to y 0 (x * v)%R in
              let* w := at2 Ji 0 0 in add_to y 1 (x * - w)%R
          | 2 =>
              let* v := at2 Ji 1 0 in let* w := at2 Ji 0 1 in add_to y 0 (x * (v - w))%R
          | 3 =>
              let* v := at2 Ji 2 1 in let* w := at2 Ji 1 2 in let* y := add_to y 0 (x * (v - w))%R in
              let* v := at2 Ji 0 2 in let* w := at2 Ji 2 0 in let* y := add_to y 1 (x * (v - w))%R in
              let* v := at2 Ji 1 0 in let* w := at2 Ji 0 1 in add_to y 2 (x * (v - w))%R
          | _ => UB
          end
      | _, _ => UB
      end) (seq 0 (length J)) (repeat 0%R (curl_dim dim_basis)).
