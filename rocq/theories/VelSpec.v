(** Darcy velocities on paper. *)
From Verif Require Import VelModel CcfvSpec.
From Verif Require TpModel.
Local Open Scope R_scope.

Definition dotn (d : nat) (a b : vec) : R := nsum d (fun k => a k * b k).

(** The velocity through a face that the scheme prescribes: two-point flux with the harmonic mean of the permeabilities inside,
    the boundary data on the boundary. *)
Definition darcy_flux (Q : fvgeo) (P : fvparam) (t : R) (u : vec) (c : nat) (f : face) : R :=
  let n := normal Q c f in
  if boundary f then
    match pbc P t c f with
    | BDirichlet => K Q P t c n * (u c - pg P t c f) / gap Q (center Q c) (fcenter Q c f)
    | BNeumann => pj P t c f
    | _ => 0
    end
  else if neighbor f then harmonic_mean (K Q P t c n + tiny) (K Q P t (outside f) n + tiny) * (u c - u (outside f)) / gap Q (center Q c) (center Q (outside f))
  else 0.
(** Periodic intersections have a neighbour and lie on the boundary. *)
Definition periodic (f : face) : Prop := neighbor f = true /\ boundary f = true.

(** An affine image of the unit cube. The outer normals of the cube are mapped to multiples of those of the cell. *)
Definition affine_cube (G : velgeo) (c : nat) (n : nat -> vec) : Prop :=
  let d := gdim (vg_fv G) in
  exists (J : mat) (len : nat -> R),
    (forall x k l, jt G c x k l = J k l) /\ (forall x, jt_det G c x * jit_det G c = 1) /\
    (forall v k, (k < d)%nat -> nsum d (fun l => J k l * nsum d (fun m => jit G c l m * v m)) = v k) /\
    (forall v k, (k < d)%nat -> nsum d (fun l => jit G c k l * nsum d (fun m => J l m * v m)) = v k) /\
    (forall i, (i < 2 * d)%nat -> 0 < len i) /\
    (forall i k, (i < 2 * d)%nat -> (k < d)%nat -> nsum d (fun l => jit G c k l * TpModel.normalhat i l) = len i * n i k) /\
    (forall i, (i < 2 * d)%nat -> dotn d (n i) (n i) = 1).
(** Every face of the cell is one intersection, whose normal is that of the face. *)
Definition conforming (G : velgeo) (c : cell) (n : nat -> vec) : Prop :=
  NoDup (map (face_number G (cid c)) (faces c)) /\
  forall f, In f (faces c) -> (face_number G (cid c) f < 2 * gdim (vg_fv G))%nat /\
    forall k, normal (vg_fv G) (cid c) f k = n (face_number G (cid c) f) k.
(** The point x of the reference cube lies on the face i. *)
Definition on_face (x : vec) (i : nat) : Prop := x (i / 2)%nat = if Nat.even i then 0 else 1.
(** Evaluations one after another, from a fresh object *)
Definition evaluations (G : velgeo) (co : nat -> vec) (l : list (nat * vec)) : cache :=
  fold_left (fun m a => snd (evaluate G (co (fst a)) (fst a) (snd a) m)) l None.

(** The interface InteriorBorder_All: the messages for a cell start at the process that has the cell as interior cell, and every other
    process that has the cell gets one. *)
Definition interface (owner : nat -> nat) (has : nat -> nat -> bool) (messages : list (nat * nat * nat)) : Prop :=
  (forall p q c, In (p, q, c) messages -> p = owner c) /\
  (forall q c, has q c = true -> q <> owner c -> In (owner c, q, c) messages).
