(** The finite volume scheme on paper. *)
From Verif Require Import CcfvModel DiagSpec.
Local Open Scope R_scope.

Definition harmonic_mean (a b : R) : R := 2 * a * b / (a + b).

Section Fluxes.
  Variables (Q : fvgeo) (P : fvparam) (t : R) (u : vec).
  (** Permeability in direction n and normal velocity, seen from cell c through face f. *)
  Definition K (c : nat) (n : vec) : R := nsum (gdim Q) (fun i => n i * nsum (gdim Q) (fun j => pA P t c i j * n j)).
  Definition v_n (c : nat) (f : face) : R := nsum (gdim Q) (fun i => pb P t c f i * normal Q c f i).
  Definition gap (x y : vec) : R := sqrt (nsum (gdim Q) (fun i => (x i - y i) * (x i - y i))).

  (** Flux out of cell c through an interior face: upwind convection and two-point diffusion with the harmonic mean of
      the (slightly regularised) permeabilities. *)
  Definition interior_flux (c : nat) (f : face) : R :=
    let n := normal Q c f in
    area Q c f * (Rmax (v_n c f) 0 * u c + Rmin (v_n c f) 0 * u (outside f)
      + harmonic_mean (K c n + tiny) (K (outside f) n + tiny) * (u c - u (outside f)) / gap (center Q c) (center Q (outside f))).
  (** Flux through a boundary face. *)
  Definition boundary_flux (c : nat) (f : face) : R :=
    area Q c f * match pbc P t c f with
    | BDirichlet => v_n c f * pg P t c f + K c (normal Q c f) * (u c - pg P t c f) / gap (center Q c) (fcenter Q c f)
    | BNeumann => pj P t c f
    | BOutflow => v_n c f * u c + po P t c f
    | BNone => 0
    end.
  Definition outflow (e : env) (c : nat) (f : face) : R :=
    match classify e f with
    | Skeleton | Periodic => interior_flux c f | Boundary => boundary_flux c f | Processor => 0 end.
  (** Reaction minus source in a cell. *)
  Definition production (c : nat) : R := (pc P t c * u c - pf P t c) * volume Q c.
End Fluxes.

(** Permeabilities are nonnegative in the directions that occur. *)
Definition elliptic (Q : fvgeo) (P : fvparam) (t : R) (e : env) (cells : list cell) : Prop :=
  forall c f, In c cells -> In f (faces c) ->
    0 <= K Q P t (cid c) (normal Q (cid c) f) /\ 0 <= K Q P t (outside f) (normal Q (cid c) f).
(** Both sides of an interior face agree on its geometry and on the velocity there. *)
Definition consistent (Q : fvgeo) (P : fvparam) (t : R) (e : env) (cells : list cell) (m : slot -> slot) : Prop :=
  forall s, In s (interior_slots e cells) ->
    let c := cid (fst s) in let f := snd (snd s) in let c' := cid (fst (m s)) in let f' := snd (snd (m s)) in
    area Q c' f' = area Q c f /\ (forall i, normal Q c' f' i = - normal Q c f i) /\ (forall i, pb P t c' f' i = pb P t c f i).

(** The cells are numbered 0, ..., N-1 and so are their neighbours. *)
Definition numbered_cells (N : nat) (e : env) (cells : list cell) : Prop :=
  Permutation (map cid cells) (seq 0 N) /\
  forall c f, In c cells -> In f (faces c) -> classify e f = Skeleton \/ classify e f = Periodic -> (outside f < N)%nat.

(** Data for which the scheme is monotone: positive volumes, distances and capacity, nonnegative areas and reaction,
    and outflow conditions only where the velocity points outwards. *)
Definition monotone_data (Q : fvgeo) (P : fvparam) (t : R) (e : env) (cells : list cell) : Prop :=
  (forall c, In c cells -> 0 < volume Q (cid c) /\ 0 < pd P t (cid c) /\ 0 <= pc P t (cid c)) /\
  forall c f, In c cells -> In f (faces c) ->
    0 <= area Q (cid c) f /\
    (classify e f = Skeleton \/ classify e f = Periodic -> 0 < gap Q (center Q (cid c)) (center Q (outside f))) /\
    (classify e f = Boundary -> pbc P t (cid c) f = BDirichlet -> 0 < gap Q (center Q (cid c)) (fcenter Q (cid c) f)) /\
    (classify e f = Boundary -> pbc P t (cid c) f = BOutflow -> 0 <= v_n Q P t (cid c) f).
(** Data that push the solution up: sources, inflow values and inward fluxes are nonnegative, Dirichlet conditions are
    set where the velocity points inwards. *)
Definition nonnegative_data (Q : fvgeo) (P : fvparam) (t : R) (e : env) (cells : list cell) : Prop :=
  (forall c, In c cells -> 0 <= pf P t (cid c)) /\
  forall c f, In c cells -> In f (faces c) -> classify e f = Boundary ->
    match pbc P t (cid c) f with
    | BDirichlet => 0 <= pg P t (cid c) f /\ v_n Q P t (cid c) f <= 0
    | BNeumann => pj P t (cid c) f <= 0
    | BOutflow => po P t (cid c) f <= 0
    | BNone => True
    end.
