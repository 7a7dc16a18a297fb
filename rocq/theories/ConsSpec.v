(** What constraints mean. *)
From Verif Require Import ConsModel EngineSpec.
Local Open Scope R_scope.

(** Contributions since the last clear, in global indices, oldest first. *)
Definition globally (ci : nat -> nat) (l : container) : container :=
  map (fun c => (ci (fst c), map (fun e => (ci (fst e), snd e)) (snd c))) l.
Definition contributions (os : list op) : container :=
  fold_left (fun acc o => match o with Clear => [] | Import ci l => acc ++ globally ci l end) os [].
(** The rows contributed to DOF [g]. *)
Definition rows_for (g : nat) (cs : container) : list row := map snd (filter (fun c => (fst c =? g)%nat) cs).
(** [r] is the merge of these rows: the weight of a contributor is the one contributed last. *)
Definition merge_of (rs : list row) (r : row) : Prop := forall c, find c r = find c (rev (concat rs)).
(** Contributions that agree wherever they overlap. *)
Definition agree (cs : container) : Prop := forall g c w w',
  In (c, w) (concat (rows_for g cs)) -> In (c, w') (concat (rows_for g cs)) -> w = w'.

(** A map of maps: no key twice. *)
Definition proper (cg : container) : Prop := NoDup (keys cg) /\ forall g r, In (g, r) cg -> NoDup (keys r).
Definition constrained (cg : container) (g : nat) : Prop := In g (keys cg).
Definition dirichlet (cg : container) (g : nat) : Prop := In (g, []) cg.
(** No chains: a contributor may be free or a Dirichlet DOF, but does not have contributors itself. *)
Definition flat (cg : container) : Prop := forall g r c w r', In (g, r) cg -> In (c, w) r -> In (c, r') cg -> r' = [].
(** A vector that vanishes in the Dirichlet DOFs that contribute to other DOFs (all of them, if contributors are free). *)
Definition no_boundary_part (cg : container) (u : vec) : Prop :=
  forall g r c w, In (g, r) cg -> In (c, w) r -> constrained cg c -> u c = 0.
(** All indices are below [N]. *)
Definition below (N : nat) (cg : container) : Prop :=
  forall g r, In (g, r) cg -> (g < N)%nat /\ forall c w, In (c, w) r -> (c < N)%nat.

Definition dot (N : nat) (x y : vec) : R := nsum N (fun i => x i * y i).
Definition delta (i j : nat) : R := if (i =? j)%nat then 1 else 0.
(** Weight of contributor [c] in a row. *)
Definition weight (r : row) (c : nat) : R := lsum (fun e => if (fst e =? c)%nat then snd e else 0) r.
(** Coefficients of the full vector belonging to free coefficients [u]: zero for Dirichlet DOFs. *)
Definition extend (cg : container) (u : vec) : vec :=
  fun g => match find g cg with None => u g | Some r => lsum (fun e => snd e * u (fst e)) r end.
(** The constrained DOFs to which [g] contributes, with residual [x]. *)
Definition received (cg : container) (x : vec) (g : nat) : R :=
  lsum (fun col => weight (snd col) g * x (fst col)) cg.

(** How a test (trial) function of DOF [k] is written in free ones: in test functions Dirichlet DOFs drop out, trial
    functions of Dirichlet DOFs are kept unless the scatter is symmetric. *)
Definition test_basis (cg : container) (k g : nat) : R :=
  match find k cg with None => delta k g | Some r => weight r g end.
Definition trial_basis (symmetric : bool) (cg : container) (k h : nat) : R :=
  match find k cg with
  | None => delta k h
  | Some [] => if symmetric then 0 else delta k h
  | Some r => weight r h
  end.
(** Element matrix in the constrained bases. *)
Definition galerkin (symmetric : bool) (cv cu : container) (vs us : list nat) (m : mat) (g h : nat) : R :=
  nsum (length vs) (fun i => nsum (length us) (fun j =>
    test_basis cv (nth i vs O) g * m i j * trial_basis symmetric cu (nth j us O) h)).
(** The only constraints are Dirichlet constraints. *)
Definition only_dirichlet (cg : container) : Prop := forall g r, In (g, r) cg -> r = [].

(** An element: indices of its test and trial functions, element matrix. *)
Record element := mkel { vs : list nat; us : list nat; em : mat }.
(** The caches of the index mapping for an element, built with what was left from other elements in [c0]. *)
Definition cache_for (cg : container) (en : bool) (gs : list nat) (c : cache) : Prop :=
  exists before, c = update cg gs (fold_left (fun c gs => update cg gs c) before (new_cache en)).

(** Local matrices are supported in the local pattern. *)
Definition supported (p : list (nat * nat)) (V U : cache) (m : mat) : Prop :=
  forall i j, (i < size V)%nat -> (j < size U)%nat -> m i j <> 0 -> In (i, j) p.

(** Coefficients as seen by the elements: constrained by contributors; values of Dirichlet DOFs are kept. *)
Definition full (cg : container) (z : vec) : vec :=
  fun h => match find h cg with None | Some [] => z h | Some r => lsum (fun e => snd e * z (fst e)) r end.
(** Unconstrained product: all element matrices applied to the element coefficients of [x] and summed up. *)
Definition apply_elements (els : list element) (x : vec) : vec :=
  fun g => lsum (fun e => scatter (vs e) (mv (length (us e)) (em e) (gather 0 x (us e))) g) els.
(** elements with their caches *)
Definition caches_of (cu cv : container) (en : bool) (els : list element) (cs : list (cache * cache * mat)) : Prop :=
  Forall2 (fun e c => cache_for cv en (vs e) (fst (fst c)) /\ cache_for cu en (us e) (snd (fst c)) /\ snd c = em e) els cs.
