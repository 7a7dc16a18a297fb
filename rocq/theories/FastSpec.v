(** What the fast DG operator should compute. *)
From Verif Require Export FastModel EngineSpec DiagSpec.
Local Open Scope R_scope.

(** The DOF numbers that the standard assembler uses for a cell are the entries the fast one aliases. *)
Definition aliased (F : fspace) (G : space) : Prop :=
  forall c, lfsu G c = seq (u_data F c) (u_size F) /\ lfsv G c = seq (v_data F c) (v_size F).

(** All cells of the process, and their neighbours, are interior cells (a sequential run). *)
Definition all_interior (p : part) : Prop := forall c, own_cell p c = true.

(** The faces between two cells that the process assembles on. *)
Definition inner_slots (own : nat -> bool) (e : env) (cells : list cell) : list slot :=
  filter (fun s => own (cid (fst s)) && own (outside (snd (snd s)))) (interior_slots e cells).
(** [m] maps the view of such a face from one side to the view from the other side. *)
Definition mirrored_in (l : list slot) (m : slot -> slot) : Prop :=
  NoDup l /\
  forall s, In s l -> In (m s) l /\ m (m s) = s /\
    cid (fst (m s)) = outside (snd (snd s)) /\ outside (snd (snd (m s))) = cid (fst s) /\ cid (fst s) <> outside (snd (snd s)).

Section Value.
  Context {X : Type} (x0 : X).
  Variables (G : space) (e : env) (L : terms X) (t : R) (x : nat -> X).
  Let co (n : nat) := gather x0 x (lfsu G n).

  (** What a face adds to the residual of the cell it is seen from, and to that of the other cell. *)
  Definition near_value (c : cell) (p : nat * face) (g : nat) : R :=
    let (i, f) := p in
    scatter (lfsv G (cid c)) (fst (opt2 (do_alpha_skeleton L) (alpha_skeleton L c f i t (co (cid c)) (co (outside f))))) g +
    scatter (lfsv G (cid c)) (fst (opt2 (do_lambda_skeleton L) (lambda_skeleton L c f i t))) g.
  Definition far_value (c : cell) (p : nat * face) (g : nat) : R :=
    let (i, f) := p in
    scatter (lfsv G (outside f)) (snd (opt2 (do_alpha_skeleton L) (alpha_skeleton L c f i t (co (cid c)) (co (outside f))))) g +
    scatter (lfsv G (outside f)) (snd (opt2 (do_lambda_skeleton L) (lambda_skeleton L c f i t))) g.
  Definition boundary_value (c : cell) (p : nat * face) (g : nat) : R :=
    let (i, f) := p in
    scatter (lfsv G (cid c)) (opt (do_alpha_boundary L) (alpha_boundary L c f i t (co (cid c)))) g +
    scatter (lfsv G (cid c)) (opt (do_lambda_boundary L) (lambda_boundary L c f i t)) g.

  (** The complete residual of a cell: its volume terms, and the inside part of the terms of all its faces. *)
  Definition complete_face (c : cell) (p : nat * face) (g : nat) : R :=
    match classify e (snd p) with
    | Skeleton | Periodic => near_value c p g
    | Boundary => boundary_value c p g
    | Processor => 0
    end.
  Definition complete_value (c : cell) (g : nat) : R :=
    cell_value x0 G L t x c g + lsum (fun p => complete_face c p g) (numbered e c).

  (** The terms of a face do not depend on the side it is seen from (one-sided operators), or contribute only to the side
      it is seen from (two-sided operators). *)
  Definition swap {A B} (p : A * B) : B * A := (snd p, fst p).
  Definition sides_fit (l : list slot) (m : slot -> slot) : Prop :=
    if do_two_sided L
    then forall s g, In s l -> far_value (fst s) (snd s) g = 0
    else forall s, In s l ->
      let '(c, (i, f)) := s in let '(c', (i', f')) := m s in
      (do_alpha_skeleton L = true -> forall y z, alpha_skeleton L c' f' i' t z y = swap (alpha_skeleton L c f i t y z)) /\
      (do_lambda_skeleton L = true -> lambda_skeleton L c' f' i' t = swap (lambda_skeleton L c f i t)).
End Value.

(** The same for the matrix: rows of a cell. *)
Section JValue.
  Variables (G : space) (e : env) (L : terms R) (J : jterms) (t : R) (x : vec).
  Let co (n : nat) := gather 0 x (lfsu G n).
  Definition near_jac (c : cell) (p : nat * face) (g h : nat) : R :=
    let (i, f) := p in
    if do_alpha_skeleton L then
      let b := j_skeleton J c f i t (co (cid c)) (co (outside f)) in
      mscatter (lfsv G (cid c)) (lfsu G (cid c)) (fst (fst b)) g h + mscatter (lfsv G (cid c)) (lfsu G (outside f)) (snd (fst b)) g h
    else 0.
  Definition far_jac (c : cell) (p : nat * face) (g h : nat) : R :=
    let (i, f) := p in
    if do_alpha_skeleton L then
      let b := j_skeleton J c f i t (co (cid c)) (co (outside f)) in
      mscatter (lfsv G (outside f)) (lfsu G (cid c)) (fst (snd b)) g h + mscatter (lfsv G (outside f)) (lfsu G (outside f)) (snd (snd b)) g h
    else 0.
  Definition boundary_jac (c : cell) (p : nat * face) (g h : nat) : R :=
    let (i, f) := p in
    mscatter (lfsv G (cid c)) (lfsu G (cid c)) (mopt (do_alpha_boundary L) (j_boundary J c f i t (co (cid c)))) g h.
  Definition complete_face_jac (c : cell) (p : nat * face) (g h : nat) : R :=
    match classify e (snd p) with
    | Skeleton | Periodic => near_jac c p g h
    | Boundary => boundary_jac c p g h
    | Processor => 0
    end.
  Definition complete_jac (c : cell) (g h : nat) : R :=
    cell_jac G L J t x c g h + lsum (fun p => complete_face_jac c p g h) (numbered e c).
  Definition sides_fit_jac (l : list slot) (m : slot -> slot) : Prop :=
    if do_two_sided L
    then forall s g h, In s l -> far_jac (fst s) (snd s) g h = 0
    else forall s y z, In s l ->
      let '(c, (i, f)) := s in let '(c', (i', f')) := m s in
      j_skeleton J c' f' i' t z y = flip (j_skeleton J c f i t y z).
End JValue.
