(** Specification vocabulary for interpolation and discrete grid functions (C75-C77). *)
From Coq Require Import Reals.
From Verif Require Import Common LfsModel LfsSpec FunModel.

(** Which function is interpolated into which leaf, leaf by leaf in depth-first order: a leaf of the function tree goes to
    the leaf at the same place; a scalar function at the place of an inner node goes to all leaves below it, a
    vector-valued one distributes its components over them.  In the latter two cases all these leaves have to live on the
    element. *)
Inductive assigns (e : nat) : func -> lfs -> list (point -> nat -> R) -> Prop :=
| Assign_leaf : forall d g o n fm, assigns e (FLeaf d g) (Leaf o n fm) [g e]
| Assign_scalar : forall g o n ch, (forall l, In l (leaves (Inner o n ch)) -> inside (fe l e) = true) ->
    assigns e (FLeaf 1 g) (Inner o n ch) (repeat (g e) (length (leaves (Inner o n ch))))
| Assign_vector : forall d g o n ch, d <> 1 -> length (leaves (Inner o n ch)) = d ->
    (forall l, In l (leaves (Inner o n ch)) -> inside (fe l e) = true) ->
    assigns e (FLeaf d g) (Inner o n ch) (map (fun i => fun y _ => g e y i) (seq 0 d))
| Assign_inner : forall fs o n ch gs, assigns_all e fs ch gs -> assigns e (FInner fs) (Inner o n ch) gs
with assigns_all (e : nat) : list func -> list lfs -> list (point -> nat -> R) -> Prop :=
| Assign_nil : assigns_all e [] [] []
| Assign_cons : forall f fs c ch g gs, assigns e f c g -> assigns_all e fs ch gs -> assigns_all e (f :: fs) (c :: ch) (g ++ gs).

(** The local function space can be bound to the element with room for its DOF indices, no two coefficients of a finite
    element have the same local key, and the finite elements have the sizes they announce. *)
Definition ready (fem : list nat -> nat -> fel) (t : lfs) (room : nat) (e : nat) : Prop :=
  consistent e t /\
  sum_nat (map (fun x => if inside (fe x e) then basis (fe x e) else 0) (leaves t)) <= room /\
  forall l, In l (leaves t) -> inside (fe l e) = true ->
    NoDup (locals (fe l e)) /\
    (forall g, length (interpolation (fem (path l) e) g) = basis (fe l e)) /\
    (forall p, length (values (fem (path l) e) p) = basis (fe l e)) /\
    (forall p, length (jacobians (fem (path l) e) p) = basis (fe l e)).

(** Local interpolation on element [e] wants the coefficient [v] for the DOF [d]. *)
Definition local_value (fem : list nat -> nat -> fel) (f : func) (t : lfs) (e : nat) (d : dof) (v : R) : Prop :=
  exists gs k l g i c, assigns e f t gs /\ nth_error (leaves t) k = Some l /\ nth_error gs k = Some g /\
    inside (fe l e) = true /\ nth_error (locals (fe l e)) i = Some c /\ named (path l) c = d /\
    nth_error (interpolation (fem (path l) e) g) i = Some v.

(** All elements want the same coefficient for a DOF they share. *)
Definition conforming (fem : list nat -> nat -> fel) (f : func) (t : lfs) (elements : list nat) : Prop :=
  forall e e' d v v', In e elements -> In e' elements -> local_value fem f t e d v -> local_value fem f t e' d v' -> v = v'.

(** The coefficients of a leaf on an element, and the linear combination of shape functions. *)
Definition coeffs (x : vec) (l : leaf) (e : nat) : list R := map (fun c => x (named (path l) c)) (locals (fe l e)).
Definition combination (cs : list R) (vs : list (nat -> R)) (r : nat) : R :=
  fold_right Rplus 0%R (map (fun cv => (fst cv * snd cv r)%R) (combine cs vs)).

(** Local interpolation finds the coefficients of a linear combination of the shape functions. *)
Definition unisolvent (F : fel) (n : nat) : Prop :=
  forall g cs, length cs = n -> (forall p r, g p r = combination cs (values F p) r) -> interpolation F g = cs.

Definition rsum (n : nat) (f : nat -> R) : R := fold_right Rplus 0%R (map f (seq 0 n)).
Definition delta (i j : nat) : R := if i =? j then 1%R else 0%R.

(** [IT] is the inverse transposed of the Jacobian [J]. *)
Definition inverse_transposed (dim : nat) (J IT : nat -> nat -> R) : Prop :=
  forall i j, i < dim -> j < dim -> rsum dim (fun k => J k i * IT k j)%R = delta i j.

Definition along (p v : point) (s : R) : point := fun j => (p j + s * v j)%R.
(** The shape functions (component 0) have the derivatives that evaluateJacobian returns. *)
Definition differentiable (dim : nat) (F : fel) (p : point) : Prop :=
  forall i J v, nth_error (jacobians F p) i = Some J ->
    derivable_pt_lim (fun s => nth i (values F (along p v s)) (fun _ => 0%R) 0%nat) 0%R (rsum dim (fun j => J 0%nat j * v j)%R).

(** The child spaces of a vector-valued space. *)
Definition children (t : lfs) (n : nat) : Prop :=
  exists o s ch, t = Inner o s ch /\ length ch = n /\ forall c, In c ch -> exists o' n' fm, c = Leaf o' n' fm.

(** The local function space of a discrete grid function: constructed for the space [t] with room for [room] DOF indices,
    then bound to any elements. *)
Inductive reached (t : lfs) (room : nat) : lfs * list dof -> Prop :=
| Fresh : forall a, room <= length a -> reached t room (t, a)
| Rebound : forall e s s', reached t room s -> bind_to false e s = Ok s' -> reached t room s'.
(** Its state, whatever was evaluated before. *)
Definition usable (t : lfs) (room : nat) (st : state) : Prop := reached t room (fst st) /\ room <= length (snd st).

Definition det2 (M : nat -> nat -> R) : R := (M 0%nat 0%nat * M 1%nat 1%nat - M 0%nat 1%nat * M 1%nat 0%nat)%R.
Definition det3 (M : nat -> nat -> R) : R :=
  (M 0%nat 0%nat * (M 1%nat 1%nat * M 2%nat 2%nat - M 1%nat 2%nat * M 2%nat 1%nat) - M 0%nat 1%nat * (M 1%nat 0%nat * M 2%nat 2%nat - M 1%nat 2%nat * M 2%nat 0%nat)
   + M 0%nat 2%nat * (M 1%nat 0%nat * M 2%nat 1%nat - M 1%nat 1%nat * M 2%nat 0%nat))%R.
Definition mapped (dim : nat) (J : nat -> nat -> R) (v : nat -> R) : nat -> R := fun k => rsum dim (fun j => J k j * v j)%R.
Definition cross2 (u v : nat -> R) : R := (u 0%nat * v 1%nat - u 1%nat * v 0%nat)%R.
Definition cross3 (u v : nat -> R) : nat -> R :=
  fun k => let i := (k + 1) mod 3 in let j := (k + 2) mod 3 in (u i * v j - u j * v i)%R.
