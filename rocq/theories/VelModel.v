(** The Darcy velocity of a cell-centred finite volume solution: localoperator/darcyccfv.hh 79-288 (DarcyVelocityFromHeadCCFV)
    and its data handle 22-81 (VectorExchange).

    Geometry and parameter class are those of CcfvModel.v; the pressure [u] has one value per cell. Real arithmetic is exact.
    The Raviart-Thomas basis is that of TpModel.v. *)
From Verif Require Export CcfvModel.
From Verif Require TpModel.
Local Open Scope R_scope.

(** What the velocity asks the geometry in addition: the face number of an intersection (indexInInside), jacobianInverseTransposed
    in the center of a cell with its determinant (156-157), and jacobianTransposed in a point with its determinant (270-271). *)
Record velgeo := mkvelgeo { vg_fv : fvgeo; face_number : nat -> face -> nat;
  jit : nat -> mat; jit_det : nat -> R; jt : nat -> vec -> mat; jt_det : nat -> vec -> R }.

Section Velocity.
  Variables (G : velgeo) (P : fvparam) (t : R) (u : vec).
  Notation Q := (vg_fv G).

  (** vn[indexInInside()]: 162-229. A processor boundary has neither neighbour nor boundary. *)
  Definition normal_velocity (c : nat) (f : face) : R :=
    let v := 0 in
    let v := if neighbor f then k_avg Q P t c f * (u c - u (outside f)) / cell_distance Q c f else v in
    if boundary f then
      match pbc P t c f with
      | BDirichlet => permeability Q P t c (normal Q c f) * (u c - pg P t c f) / face_distance Q c f
      | BNeumann => pj P t c f
      | _ => v
      end
    else v.

  Definition set (v : vec) (i : nat) (a : R) : vec := fun k => if (k =? i)%nat then a else v k.
  (** The loop over the intersections of a cell: 160-244. The coefficients of a face without intersection stay at the zero
      that FieldVector's constructor leaves. vstarhat * normalhat is the same code as in twophaseccfv.hh (TpModel.v). *)
  Definition cell_coefficients (c : cell) : vec :=
    fold_left (fun co f =>
      let i := face_number G (cid c) f in
      set co i (TpModel.rt0_coeff (gdim Q) (jit G (cid c)) (jit_det G (cid c)) (fun _ => normal Q (cid c) f) (fun _ => normal_velocity (cid c) f) i))
      (faces c) (fun _ => 0).

  (** The members B, determinant and cachedindex of the evaluation: 117-119; None for cachedindex = -1. *)
  Definition cache := option (nat * (mat * R)).
  (** evaluate: 255-279 on a cell whose stored coefficients are [co]. *)
  Definition evaluate (co : vec) (c : nat) (x : vec) (m : cache) : vec * cache :=
    let yhat : vec := CdModel.loop (2 * gdim Q) (fun i (y : vec) k => y k + co i * TpModel.rt0 i x k) (fun _ => 0) in
    let fresh := (c, (jt G c x, jt_det G c x)) in
    let '(i, (B, det)) := match m with Some (c', b) => if (c =? c')%nat then (c', b) else fresh | None => fresh end in
    ((fun k => CdModel.dot (gdim Q) (fun l => B l k) yhat * det), Some (i, (B, det))).
End Velocity.

(** VectorExchange: 22-81, with gridView().communicate(dh, InteriorBorder_All_Interface, ForwardCommunication): 249-251. The store has the
    coefficients of a cell on a process. One message (p, q, c): process p gathers its coefficients of c, process q scatters them.
    The messages are delivered in any order; gather reads what the sender had before the exchange or after messages that
    came in already. Cells are named globally. *)
Definition store := nat -> nat -> vec.
Definition deliver (s : store) (m : nat * nat * nat) : store :=
  let '(p, q, c) := m in fun q' c' => if ((q' =? q) && (c' =? c))%nat then s p c else s q' c'.
(** The constructor on all processes: [interior p] the interior cells of process p, [messages] what the interface sends. *)
Definition construct (G : velgeo) (P : fvparam) (t : R) (u : vec) (cellof : nat -> cell) (interior : nat -> nat -> bool) (messages : list (nat * nat * nat)) : store :=
  fold_left deliver messages (fun p c => if interior p c then cell_coefficients G P t u (cellof c) else fun _ => 0).
