(** Model of constraints: ConstraintsTransformation (dune/pdelab/constraints/common/constraintstransformation.hh), the
    helpers on constrained DOFs (constraints/common/constraints.hh), the constraint flags of LFSIndexCacheBase
    (gridfunctionspace/lfsindexcache.hh) and the constrained scatter of LocalAssemblerBase
    (gridoperator/common/assemblerutilities.hh).

    Container indices and DOF indices are natural numbers; an unordered_map is an association list without repeated
    keys in an arbitrary order, so that theorems about all such lists are theorems about all hash orders.  Weights and
    coefficients are real numbers (rounding is not modelled). *)
From Verif Require Export EngineModel.
Local Open Scope R_scope.

(** unordered_map::find, operator[] *)
Fixpoint find {A} (k : nat) (l : list (nat * A)) : option A :=
  match l with
  | [] => None
  | (k', v) :: t => if (k' =? k)%nat then Some v else find k t
  end.
Fixpoint put {A} (k : nat) (v : A) (l : list (nat * A)) : list (nat * A) :=
  match l with
  | [] => [(k, v)]
  | (k', v') :: t => if (k' =? k)%nat then (k, v) :: t else (k', v') :: put k v t
  end.
Notation row := (list (nat * R)).
Notation container := (list (nat * row)).
Definition keys {A} (l : list (nat * A)) : list nat := map fst l.

(** ConstraintsTransformation: constraintstransformation.hh 20-107; [nd]: _contains_non_dirichlet_constraints. *)
Record transformation := mktr { entries : container; nd : bool }.
(** clear: 57-61 *)
Definition cleared : transformation := mktr [] false.
(** the body of the loop in import_local_transformation: 71-97; [ci] is index_cache.containerIndex *)
Definition import_entry (ci : nat -> nat) (t : transformation) (l : nat * row) : transformation :=
  let g := ci (fst l) in
  let existing := find g (entries t) in
  let inserted := match existing with None => put g [] (entries t) | Some _ => entries t end in
  let now := match existing with Some r => r | None => [] end in
  match existing, snd l with
  | Some [], _ => mktr inserted (nd t)
  | _, [] => mktr (put g [] inserted) (nd t)
  | _, _ => mktr (put g (fold_left (fun acc e => put (ci (fst e)) (snd e) acc) (snd l) now) inserted) true
  end.
(** import_local_transformation: 63-98 *)
Definition import (ci : nat -> nat) (local : container) (t : transformation) : transformation :=
  fold_left (import_entry ci) local t.
Inductive op := Clear | Import (ci : nat -> nat) (local : container).
Definition exec (t : transformation) (o : op) : transformation :=
  match o with Clear => cleared | Import ci l => import ci l t end.
(** A transformation after a history of calls. *)
Definition after_history (os : list op) : transformation := fold_left exec os cleared.
(** containsNonDirichletConstraints of the local transformation: 39-46 *)
Definition local_non_dirichlet (l : container) : bool := existsb (fun c => match snd c with [] => false | _ => true end) l.

(** Helpers on vectors: constraints.hh. *)
Definition setv {X} (k : nat) (x : X) (v : nat -> X) : nat -> X := fun h => if (k =? h)%nat then x else v h.
Section Helpers.
  Context {X : Type}.
  (** set_constrained_dofs: 796-802 *)
  Definition set_constrained (cg : container) (x : X) (xg : nat -> X) : nat -> X :=
    fold_left (fun v col => setv (fst col) x v) cg xg.
  (** check_constrained_dofs: 839-846; [ne] is cmp.ne *)
  Fixpoint check_constrained (ne : X -> X -> bool) (cg : container) (x : X) (xg : nat -> X) : bool :=
    match cg with
    | [] => true
    | col :: t => if ne (xg (fst col)) x then false else check_constrained ne t x xg
    end.
  (** copy_constrained_dofs: 936-940 *)
  Definition copy_constrained (cg : container) (xin xout : nat -> X) : nat -> X :=
    fold_left (fun v col => setv (fst col) (xin (fst col)) v) cg xout.
  (** set_nonconstrained_dofs: 960-965 *)
  Definition set_nonconstrained (cg : container) (x : X) (xg : nat -> X) : nat -> X :=
    copy_constrained cg xg (fun _ => x).
  (** copy_nonconstrained_dofs: 987-992; the result is the new xgout *)
  Definition copy_nonconstrained (cg : container) (xin xout : nat -> X) : nat -> X := copy_constrained cg xout xin.
  (** set_shifted_dofs: 1014-1029 *)
  Definition set_shifted (cg : container) (x : X) (xg : nat -> X) : nat -> X :=
    fold_left (fun tmp col => if (length (snd col) =? 0)%nat then setv (fst col) (xg (fst col)) tmp else tmp) cg (fun _ => x).
  (** set_shifted_dofs for EmptyTransformation: 1036-1038 *)
  Definition set_shifted_empty (x : X) (xg : nat -> X) : nat -> X := xg.
End Helpers.

(** x[to] += w * x[from] *)
Definition spread (to from : nat) (w : R) (v : vec) : vec := setv to (v to + w * v from) v.
(** constrain_residual: constraints.hh 904-914 *)
Definition constrain_residual (cg : container) (xg : vec) : vec :=
  set_constrained cg 0
    (fold_left (fun v col => fold_left (fun v e => spread (fst e) (fst col) (snd e) v) (snd col) v) cg xg).
(** forwardtransform: assemblerutilities.hh 257-282 *)
Definition forward (postrestrict : bool) (cg : container) (x : vec) : vec :=
  let y := fold_left (fun v col => fold_left (fun v e => spread (fst e) (fst col) (snd e) v) (snd col) v) cg x in
  if postrestrict then set_constrained cg 0 y else y.
(** backtransform: assemblerutilities.hh 308-332 *)
Definition backward (prerestrict : bool) (cg : container) (x : vec) : vec :=
  fold_left (fun v col =>
      fold_left (fun v e => spread (fst col) (fst e) (snd e) v) (snd col) (if prerestrict then setv (fst col) 0 v else v)) cg x.

(** Constraint part of LFSIndexCacheBase: lfsindexcache.hh 254-300; _dof_flags as pairs (constrained, Dirichlet),
    _constraints_iterators as pairs of positions in _constraints. *)
Record cache := mkcache {
  cis : list nat; enabled : bool; flags : nat -> bool * bool; ranges : nat -> nat * nat; constraints : row }.
(** constructor *)
Definition new_cache (en : bool) : cache := mkcache [] en (fun _ => (false, false)) (fun _ => (O, O)) [].
(** first loop of update: 338-361; [i] current position, result: flags, iterators, dofs left for the second loop *)
Fixpoint classify (cg : container) (i : nat) (gs : list nat) (fl : nat -> bool * bool) (rg : nat -> nat * nat)
  : (nat -> bool * bool) * (nat -> nat * nat) * list (nat * row) :=
  match gs with
  | [] => (fl, rg, [])
  | g :: gs' =>
      match find g cg with
      | None => classify cg (S i) gs' (setv i (false, false) fl) rg
      | Some [] => classify cg (S i) gs' (setv i (true, true) fl) (setv i (O, O) rg)
      | Some r => let '(fl', rg', todo) := classify cg (S i) gs' (setv i (true, false) fl) rg in (fl', rg', (i, r) :: todo)
      end
  end.
(** second loop: 363-381; [pos] = eit - begin *)
Fixpoint fill (todo : list (nat * row)) (pos : nat) (rg : nat -> nat * nat) : (nat -> nat * nat) * row :=
  match todo with
  | [] => (rg, [])
  | (i, r) :: todo' =>
      let '(rg', rest) := fill todo' (pos + length r) (setv i (pos, (pos + length r)%nat) rg) in (rg', r ++ rest)
  end.
(** update: 304-385 (not fast); [gs]: the container indices of the bound element *)
Definition update (cg : container) (gs : list nat) (c : cache) : cache :=
  if enabled c then
    let '(fl, rg, todo) := classify cg 0 gs (flags c) (ranges c) in
    let '(rg', cs) := fill todo 0 rg in
    mkcache gs (enabled c) fl rg' cs
  else mkcache gs (enabled c) (flags c) (ranges c) (constraints c).
Definition is_constrained (c : cache) (i : nat) : bool := fst (flags c i).
Definition is_dirichlet (c : cache) (i : nat) : bool := snd (flags c i).
Definition constraints_of (c : cache) (i : nat) : row :=
  slice (fst (ranges c i)) (snd (ranges c i) - fst (ranges c i)) (constraints c).
Definition ci (c : cache) (i : nat) : nat := nth i (cis c) O.
Definition size (c : cache) : nat := length (cis c).

(** Values passed to globalcontainer_view.add. *)
Notation adds := (list (nat * nat * R)).
Definition nonzero (g h : nat) (v : R) : adds := if Req_EM_T v 0 then [] else [(g, h, v)].
(** the body of etadd: assemblerutilities.hh 522-584 *)
Definition etadd_one (V U : cache) (m : mat) (i j : nat) : adds :=
  if Req_EM_T (m i j) 0 then []
  else if is_constrained V i then
    if is_dirichlet V i then []
    else flat_map (fun v =>
        if is_constrained U j then
          if is_dirichlet U j then nonzero (fst v) (ci U j) (m i j * snd v)
          else flat_map (fun u => nonzero (fst v) (fst u) (m i j * snd v * snd u)) (constraints_of U j)
        else nonzero (fst v) (ci U j) (m i j * snd v)) (constraints_of V i)
  else if is_constrained U j then
    if is_dirichlet U j then nonzero (ci V i) (ci U j) (m i j)
    else flat_map (fun u => nonzero (ci V i) (fst u) (m i j * snd u)) (constraints_of U j)
  else [(ci V i, ci U j, m i j)].
Definition all_pairs (n k : nat) : list (nat * nat) := flat_map (fun i => map (pair i) (seq 0 k)) (seq 0 n).
(** etadd: 501-586 *)
Definition etadd (V U : cache) (m : mat) : adds :=
  flat_map (fun p => etadd_one V U m (fst p) (snd p)) (all_pairs (size V) (size U)).
(** clearing of columns: 487-490 *)
Definition clear_columns (nv nu : nat) (sel : nat -> bool) (m : mat) : mat :=
  fun i j => if (i <? nv)%nat && (j <? nu)%nat && sel j then 0 else m i j.
(** etadd_symmetric: 466-497 *)
Definition etadd_symmetric (V U : cache) (m : mat) : adds :=
  etadd V U (clear_columns (size V) (size U) (fun j => is_constrained U j && is_dirichlet U j) m).
(** scatter without constraints: 432-439 *)
Definition plain (V U : cache) (m : mat) : adds :=
  flat_map (fun p => nonzero (ci V (fst p)) (ci U (snd p)) (m (fst p) (snd p))) (all_pairs (size V) (size U)).
(** scatter_jacobian: 378-441 (the assert is not modelled); [cu]: *pconstraintsu *)
Definition scatter_jacobian (cu : container) (V U : cache) (symmetric : bool) (m : mat) : adds :=
  if enabled V && enabled U then (if symmetric then etadd_symmetric V U m else etadd V U m)
  else
    plain V U (if symmetric then
                 clear_columns (size V) (size U) (fun j => match find (ci U j) cu with Some _ => true | None => false end) m
               else m).
(** adding to the matrix *)
Definition add_all (l : adds) (A : mat) : mat :=
  fold_left (fun A e => fun g h => A g h + (if (fst (fst e) =? g)%nat && (snd (fst e) =? h)%nat then snd e else 0)) l A.
(** set_trivial_rows: 666-672; clear_row(ri,1): all entries of the row become zero, the diagonal one. *)
Definition clear_row (k : nat) (x : R) (A : mat) : mat :=
  fun g h => if (k =? g)%nat then (if (g =? h)%nat then x else 0) else A g h.
Definition set_trivial_rows (cg : container) (A : mat) : mat := fold_left (fun A col => clear_row (fst col) 1 A) cg A.

(** Links passed to pattern.add_link.  add_entry: 611-660; [same]: the index types of rows and columns agree. *)
Definition add_entry (same : bool) (V U : cache) (i j : nat) : list (nat * nat) :=
  (if same && (ci V i =? ci U j)%nat then [(ci V i, ci U j)] else []) ++
  (if negb (is_constrained V i) then
     if negb (is_constrained U j) || is_dirichlet U j then [(ci V i, ci U j)]
     else map (fun u => (ci V i, fst u)) (constraints_of U j)
   else if is_dirichlet V i then [(ci V i, ci U j)]
   else flat_map (fun v =>
            if negb (is_constrained U j) || is_dirichlet U j then [(fst v, ci U j)]
            else map (fun u => (fst v, fst u)) (constraints_of U j)) (constraints_of V i)).
(** add_pattern: default/patternengine.hh 146-152 (without the border pattern) *)
Definition add_pattern (same : bool) (V U : cache) (p : list (nat * nat)) : list (nat * nat) :=
  flat_map (fun e => add_entry same V U (fst e) (snd e)) p.
(** needsConstraintsCaching: default/patternengine.hh 28-31 = jacobianengine.hh 30-33 *)
Definition needs_caching (cu cv : transformation) : bool := nd cu || nd cv.
(** Assembly of the Jacobian: scatter_jacobian for every element (default/jacobianengine.hh 159-166) and
    handle_dirichlet_constraints at the end (203-210, assemblerutilities.hh 664-672); [els]: the caches of test and
    trial space and the local matrix of each element. *)
Definition assemble_constrained (cu cv : container) (symmetric : bool) (els : list (cache * cache * mat)) (A : mat) : mat :=
  set_trivial_rows cv (fold_left (fun A e => add_all (scatter_jacobian cu (fst (fst e)) (snd (fst e)) symmetric (snd e)) A) els A).
