(** Grid functions made of grid functions: function/{product,minus,division,sqr,sqrt,inverse,scalarscaled,selectcomponent,const,bindtime,
    callableadapter,localfunction,localfunctionhelper,oldinterfaceadapter}.hh, common/functionwrappers.hh, common/function.hh 91-112 (InstationaryFunctionDefaults),
    338-390 (trees and their time), 683-822 (normal flux, Piola), 875-1100 (adapters between functions), common/functionutilities.hh (integrals, probes),
    common/vtkexport.hh 22-99.

    Simplifications: real numbers; division by zero and roots of negative numbers, infinite or NaN on the machine, have whatever value Coq gives them.
    Elements are numbers, local coordinates vectors. Lifetimes of the referenced functions are not modelled. *)
From Verif Require Import Common CdModel.
From Coq Require Import Reals.
Open Scope R_scope.

(** ** Functions and their time *)
(** The time of instationary functions is a variable somewhere: a member of the function, of the parameter object that a callable reads
    (callableadapter.hh 190-263: setTime goes to p, f reads what it captured), or SetTimeWrapper::_t (bindtime.hh 29). None: not initialised. *)
Definition store := nat -> option R.
Definition set_cell (s : store) (c : nat) (t : R) : store := fun c' => if (c' =? c)%nat then Some t else s c'.
Definition field := nat -> vec -> vec.
Inductive leaf :=
| Stationary (f : field)               (* no member setTime *)
| Timeless (f : field)                 (* InstationaryFunctionDefaults: setTime does nothing; ConstGridFunction *)
| Timed (c : nat) (f : R -> field).    (* setTime writes the variable c, evaluate reads it *)
(** bindtime.hh 18-50: the placeholder says which argument of f is the time (functions of one real variable and the time) *)
Definition swap_arguments (placeholder : nat) (f : R -> R -> R) (d t : R) : R := if (placeholder =? 1)%nat then f t d else f d t.
(** SetTimeWrapper::operator() and setTime: 18-26 *)
Definition bind_time (c placeholder : nat) (f : R -> R -> R) : leaf := Timed c (fun t _ x _ => swap_arguments placeholder f (x 0%nat) t).

(** The adapters. Select holds the array remap. *)
Inductive gf :=
| GLeaf (dim : nat) (l : leaf)
| GProduct (a b : gf) | GMinus (a b : gf) | GDivision (a b : gf)
| GSqr (a : gf) | GSqrt (a : gf) | GInverse (a : gf)
| GScaled (factor : R) (a : gf)
| GSelect (remap : list nat) (a : gf)
| GPointSum (a : gf) (l : list gf)     (* PointwiseGridFunctionAdapter with PointwiseSumAdapterEngine *)
| GPointScale (scale : R) (a : gf).    (* with PointwiseScaleAdapterEngine, which asserts one function *)

(** dimRange, and None where a static_assert fails or no specialisation exists: product.hh 25-29, 71-75, 114-119; minus.hh 23-26; division.hh 21-22;
    sqrt.hh 20-21; inverse.hh 20-21; functionwrappers.hh 60 (all functions write into the RangeType of the first) *)
Fixpoint dim (g : gf) : option nat :=
  match g with
  | GLeaf d _ => Some d
  | GProduct a b => match dim a, dim b with
      | Some 1%nat, Some m => Some m | Some n, Some 1%nat => Some n | Some n, Some m => if (n =? m)%nat then Some 1%nat else None | _, _ => None end
  | GMinus a b => match dim a, dim b with Some n, Some m => if (n =? m)%nat then Some n else None | _, _ => None end
  | GDivision a b => match dim a, dim b with Some n, Some 1%nat => Some n | _, _ => None end
  | GSqr a => match dim a with Some _ => Some 1%nat | None => None end
  | GSqrt a | GInverse a => match dim a with Some 1%nat => Some 1%nat | _ => None end
  | GScaled _ a | GPointScale _ a => dim a
  | GSelect remap a => match dim a with Some _ => Some (length remap) | None => None end
  | GPointSum a l => match dim a with
      | Some n => if forallb (fun b => match dim b with Some m => (m =? n)%nat | None => false end) l then Some n else None | None => None end
  end.

(** selectcomponent.hh 50-56, 59-65, 68-78: checkRemap and the two constructors *)
Definition check_remap (dimRange : nat) (remap : list nat) : res (list nat) := if forallb (fun c => (c <? dimRange)%nat) remap then Ok remap else Throw.
Definition select_first (dimR dimRange first : nat) : res (list nat) := check_remap dimRange (map (fun c => (first + c)%nat) (seq 0 dimR)).
Definition select_map (dimR dimRange : nat) (remap : list nat) : res (list nat) := if (length remap =? dimR)%nat then check_remap dimRange remap else Throw.

(** evaluate. Reading a time that was never set is undefined. product.hh 48-56, 92-100 (the operands of a vector and a scalar are swapped: 114-125),
    minus.hh 41-48, division.hh 37-44, sqr.hh 46-53, sqrt.hh 37-43, inverse.hh 37-42, scalarscaled.hh 35-40, selectcomponent.hh 80-88,
    functionwrappers.hh 87-99 with 180-186 and 205-211; const.hh 45-50 *)
Fixpoint evaluate (s : store) (g : gf) (e : nat) (x : vec) : res vec :=
  match g with
  | GLeaf _ (Stationary f) | GLeaf _ (Timeless f) => Ok (f e x)
  | GLeaf _ (Timed c f) => match s c with Some t => Ok (f t e x) | None => UB end
  | GProduct a b => match dim a, dim b with
      | Some 1%nat, Some 1%nat => let* y1 := evaluate s a e x in let* y2 := evaluate s b e x in Ok (fun _ => dot 1 y1 y2)
      | Some 1%nat, _ => let* y1 := evaluate s a e x in let* y := evaluate s b e x in Ok (fun k => y k * y1 0%nat)
      | _, Some 1%nat => let* y1 := evaluate s b e x in let* y := evaluate s a e x in Ok (fun k => y k * y1 0%nat)
      | Some n, _ => let* y1 := evaluate s a e x in let* y2 := evaluate s b e x in Ok (fun _ => dot n y1 y2)
      | None, _ => UB end
  | GMinus a b => let* y := evaluate s a e x in let* y2 := evaluate s b e x in Ok (fun k => y k - y2 k)
  | GDivision a b => let* y := evaluate s a e x in let* y2 := evaluate s b e x in Ok (fun k => y k / y2 0%nat)
  | GSqr a => let* y := evaluate s a e x in Ok (fun _ => dot (match dim a with Some n => n | None => O end) y y)
  | GSqrt a => let* y := evaluate s a e x in Ok (fun _ => sqrt (y 0%nat))
  | GInverse a => let* y := evaluate s a e x in Ok (fun _ => 1 / y 0%nat)
  | GScaled factor a => let* y := evaluate s a e x in Ok (fun k => y k * factor)
  | GSelect remap a => let* y := evaluate s a e x in Ok (fun c => y (nth c remap O))
  | GPointSum a l =>
      let* y0 := evaluate s a e x in
      let* ys := (fix all (l : list gf) : res (list vec) :=
        match l with [] => Ok [] | b :: l => let* y := evaluate s b e x in let* ys := all l in Ok (y :: ys) end) l in
      Ok (fun k => fold_left (fun out (y : vec) => out + y k) (y0 :: ys) 0)
  | GPointScale scale a => let* y := evaluate s a e x in Ok (fun k => y k * scale)
  end.

(** setTime; None: the adapter or one of its operands has no such member. The lines after those of evaluate; the pointwise adapters have const references
    and no setTime. *)
Fixpoint set_time (g : gf) (t : R) (s : store) : option store :=
  match g with
  | GLeaf _ (Stationary _) => None
  | GLeaf _ (Timeless _) => Some s
  | GLeaf _ (Timed c _) => Some (set_cell s c t)
  | GProduct a b | GMinus a b | GDivision a b => match set_time a t s with Some s => set_time b t s | None => None end
  | GSqr a | GSqrt a | GInverse a | GScaled _ a | GSelect _ a => set_time a t s
  | GPointSum _ _ | GPointScale _ _ => None
  end.

(** Trees of functions: PowerGridFunction and CompositeGridFunction::setTime: function.hh 344-355, 383-387, 565-569, localfunction.hh 26-30, 79-83 *)
Inductive ftree := FLeaf (g : gf) | FNode (l : list ftree).
Fixpoint set_time_tree (f : ftree) (t : R) (s : store) : option store :=
  match f with
  | FLeaf g => set_time g t s
  | FNode l => (fix all (l : list ftree) (s : store) := match l with [] => Some s | f :: l => match set_time_tree f t s with Some s => all l s | None => None end end) l s
  end.

(** ** Local functions: LocalGridViewFunctionAdapter (oldinterfaceadapter.hh 43-59: bind, unbind, operator()) for the leaves of a tree, with the visitors of
    localfunctionhelper.hh 13-36. The element is default constructed before the first bind. *)
Definition lbind (els : list (option nat)) (e : nat) : list (option nat) := map (fun _ => Some e) els.
Definition lunbind (els : list (option nat)) : list (option nat) := els.
Definition lcall (s : store) (gs : list gf) (els : list (option nat)) (i : nat) (x : vec) : res vec :=
  match nth_error gs i, nth_error els i with Some g, Some (Some e) => evaluate s g e x | _, _ => UB end.

(** ** Between functions of global and of local coordinates *)
(** What the grid does: map local to global coordinates and back, and find the element of a point (HierarchicSearch::findEntity throws if there is none) *)
Record grid := mkgrid { global : nat -> vec -> vec; local : nat -> vec -> vec; find : vec -> option nat }.
(** AnalyticGridFunctionBase::evaluate 668-673, FunctionToGridFunctionAdapter::evaluate 915-920, GlobalFunctionToLocalFunctionAdapter 1014-1018,
    GlobalCallableToGridFunctionAdapter::evaluate (callableadapter.hh 42-48), GlobalCallableToInstationaryGridFunctionAdapter::evaluate 213-220 *)
Definition from_global (G : grid) (f : vec -> vec) : field := fun e x => f (global G e x).
(** GridFunctionToFunctionAdapter::evaluate: function.hh 974-980 *)
Definition to_global (G : grid) (f : field) (x : vec) : res vec := match find G x with Some e => Ok (f e (local G e x)) | None => Throw end.
(** VTKGridFunctionAdapter::evaluate: vtkexport.hh 77-86, rangeVector as default; SelectComponentAdapter::evaluate: function.hh 1080-1086 *)
Definition vtk_evaluate (remap : list nat) (f : field) (comp e : nat) (x : vec) : res R :=
  match nth_error remap comp with Some c => Ok (f e x c) | None => UB end.
Definition range_vector (n : nat) : list nat := seq 0 n.

(** ** Integrals and probes *)
(** A cell of the grid on a process: its number, its partition, quadrature points with weight and integration element *)
Record gcell := mkgcell { g_cell : nat; g_interior : bool; g_rule : list (vec * R * R) }.
(** integrateGridFunction: functionutilities.hh 81-108 *)
Definition integrate (f : field) (cells : list gcell) : vec :=
  fold_left (fun sum c => if g_interior c then fold_left (fun (sum : vec) '(x, w, ie) => fun k => sum k + f (g_cell c) x k * (w * ie)) (g_rule c) sum else sum) cells (fun _ => 0).
(** The sum over the processes recommended in the documentation: 65-70 *)
Definition comm_sum (l : list vec) : vec := fold_left (fun (s v : vec) k => s k + v k) l (fun _ => 0).

(** GridFunctionProbe: hierarchic_search on all processes: 240-269. Process p finds the element [found p] with its partition, or GridError. *)
Definition my_rank (found : nat -> option (nat * bool)) (size p : nat) : nat := match found p with Some (_, true) => p | _ => size end.
Definition eval_rank (found : nat -> option (nat * bool)) (size : nat) : nat := fold_left Nat.min (map (my_rank found size) (seq 0 size)) size.
Record probe := mkprobe { p_fun : option gf; p_elem : option nat; p_xl : vec; p_rank : nat }.
Definition make_probe (loc : nat -> vec -> vec) (found : nat -> option (nat * bool)) (size p : nat) (f : option gf) (xg : vec) : probe :=
  let r := eval_rank found size in
  if (p =? r)%nat then match found p with Some (e, _) => mkprobe f (Some e) (loc e xg) r | None => mkprobe f None (fun _ => 0) r end
  else mkprobe f None (fun _ => 0) r.
Definition set_grid_function (f : gf) (p : probe) : probe := mkprobe (Some f) (p_elem p) (p_xl p) (p_rank p).
(** eval_all: 203-212 on all processes: what process p gets; Some v: a value, None: NaN. The broadcast copies the value of the process evalRank. *)
Definition eval_all (s : nat -> store) (size : nat) (probes : nat -> probe) (p : nat) : res (option vec) :=
  match p_fun (probes p) with
  | None => UB
  | Some _ =>
    let r := p_rank (probes p) in
    if (r =? size)%nat then Ok None
    else match p_fun (probes r), p_elem (probes r) with
         | Some f, Some e => let* v := evaluate (s r) f e (p_xl (probes r)) in Ok (Some v)
         | _, _ => UB end
  end.

(** ** Fluxes *)
(** NormalFluxGridFunctionAdapter::evaluate: function.hh 705-770; the corners of the element, whether it is a triangle, the local point and the value v there *)
Definition tolerance : R := / 10 ^ 10.
Definition edge_flux (corner : nat -> vec) (n0 n1 : nat) (v : vec) : R :=
  let nu : vec := fun k => corner n1 k - corner n0 k in
  let rot : vec := fun k => match k with 0%nat => nu 1%nat | _ => - nu 0%nat end in
  let norm := sqrt (dot 2 rot rot) in
  v 0%nat * (rot 0%nat / norm) + v 1%nat * (rot 1%nat / norm).
Definition below (a : R) : bool := if Rlt_dec (Rabs a) tolerance then true else false.
Definition normal_flux (triangle : bool) (corner : nat -> vec) (x v : vec) : res R :=
  if negb triangle then Throw
  else if below (x 0%nat) then Ok (edge_flux corner 2 0 v)
  else if below (x 1%nat) then Ok (edge_flux corner 0 1 v)
  else if below (x 0%nat + x 1%nat - 1) then Ok (edge_flux corner 1 2 v)
  else Throw.
(** PiolaBackwardAdapter::evaluate: function.hh 802-814: jacobianInverseTransposed, integrationElement and the value v in the point *)
Definition piola_backward (d : nat) (jit : mat) (ie : R) (v : vec) : vec := fun k => dot d (fun l => jit l k) v * ie.
(** DiscreteGridFunctionPiola::evaluate: gridfunctionspaceutilities.hh 651-659, [J] the inverse of jacobianInverseTransposed and its determinant *)
Definition piola_forward (d : nat) (J : mat) (det : R) (yhat : vec) : vec := fun k => dot d (fun l => J l k) yhat / det.
