(** Model of the wrappers that extract the block diagonal, the off-diagonal blocks and the point diagonal of an operator:
    dune/pdelab/localoperator/blockdiagonalwrapper.hh, blockoffdiagonalwrapper.hh and pointdiagonalwrapper.hh, on top of
    the engines of EngineModel.v. *)
From Verif Require Export EngineModel.
Local Open Scope R_scope.

Definition no_terms_v {X} : cell -> R -> (nat -> X) -> vec := fun _ _ _ => vzero.

(** ** BlockDiagonalLocalOperatorWrapper: blockdiagonalwrapper.hh 79-221.
    Flags 86-103; the post-skeleton and lambda switches keep their default false. *)
Definition diag_flags {X} (l : terms X)
    (av : cell -> R -> (nat -> X) -> vec) (asx : cell -> face -> nat -> R -> (nat -> X) -> (nat -> X) -> vec * vec)
    (ab : cell -> face -> nat -> R -> (nat -> X) -> vec) : terms X :=
  mkterms X (do_alpha_volume l) false (do_alpha_skeleton l) false (do_alpha_boundary l) false false false true
    av (fun _ _ => vzero) asx (fun _ _ _ _ => (vzero, vzero)) ab (fun _ _ _ _ => vzero) no_terms_v (fun _ _ => vzero).
(** The wrapper has no residual; the record only carries the switches. *)
Definition diag_terms (l : terms R) : terms R :=
  diag_flags l no_terms_v (fun _ _ _ _ _ _ => (vzero, vzero)) (fun _ _ _ _ _ => vzero).
(** jacobian_volume 124-133, jacobian_skeleton 135-149 (accumulation only through view_ss, 13-75), jacobian_boundary 151-158. *)
Definition diag_jterms (j : jterms) : jterms :=
  mkjterms (j_volume j)
    (fun c f i t x y => ((fst (fst (j_skeleton j c f i t x y)), mzero), (mzero, mzero)))
    (j_boundary j) (fun _ _ _ => mzero).
(** jacobian_apply_volume 159-169, jacobian_apply_skeleton 171-198 (the outside update replaced by zero, accumulation
    only through view_s), jacobian_apply_boundary 200-215. *)
Definition no_update (q : nat -> R * R) : nat -> R * R := fun k => (fst (q k), 0).
Definition diag_apply (l : terms (R * R)) : terms (R * R) :=
  diag_flags l (alpha_volume l) (fun c f i t p q => (fst (alpha_skeleton l c f i t p (no_update q)), vzero)) (alpha_boundary l).

(** ** BlockOffDiagonalLocalOperatorWrapper: blockoffdiagonalwrapper.hh 109-225; flags 114-131. *)
Definition off_flags {X} (l : terms X) (asx : cell -> face -> nat -> R -> (nat -> X) -> (nat -> X) -> vec * vec) : terms X :=
  mkterms X false false (do_alpha_skeleton l) false false false false false true
    no_terms_v (fun _ _ => vzero) asx (fun _ _ _ _ => (vzero, vzero)) (fun _ _ _ _ _ => vzero) (fun _ _ _ _ => vzero)
    no_terms_v (fun _ _ => vzero).
Definition off_terms (l : terms R) : terms R := off_flags l (fun _ _ _ _ _ _ => (vzero, vzero)).
(** jacobian_skeleton, 153-167: accumulation only through view_ns. *)
Definition off_jterms (j : jterms) : jterms :=
  mkjterms (fun _ _ _ => mzero)
    (fun c f i t x y => ((mzero, mzero), (fst (snd (j_skeleton j c f i t x y)), mzero)))
    (fun _ _ _ _ _ => mzero) (fun _ _ _ => mzero).
(** jacobian_apply_skeleton, 169-222: the inside update replaced by zero (ZeroViewWrapper 14-98), accumulation only into y_s. *)
Definition off_apply (l : terms (R * R)) : terms (R * R) :=
  off_flags l (fun c f i t p q => (fst (alpha_skeleton l c f i t (no_update p) q), vzero)).

(** ** PointDiagonalLocalOperatorWrapper: pointdiagonalwrapper.hh 51-130, for a space with a single leaf: the
    accumulation view (13-46) keeps the entries with i == j and adds them to a vector. *)
Definition point_terms (l : terms R) (j : jterms) : terms R :=
  diag_flags l (fun c t x i => j_volume j c t x i i)
    (fun c f i t x y => (fun k => fst (fst (j_skeleton j c f i t x y)) k k, vzero))
    (fun c f i t x k => j_boundary j c f i t x k k).

(** The accumulation view for a space with several leaves: every accumulate call names the leaf and the position in it
    for the test and the trial function; accumulate compares the positions only. *)
Definition leaf_entry : Type := ((nat * nat) * (nat * nat)) * R.
Definition point_accumulate (diagonal : bool) (offset : nat -> nat) (r : vec) (en : leaf_entry) : vec :=
  let '(((lv, i), (_, j)), v) := en in
  if diagonal && (i =? j)%nat then vadd r (fun k => if (k =? offset lv + i)%nat then v else 0) else r.
Definition point_view (offset : nat -> nat) (l : list leaf_entry) : vec := fold_left (point_accumulate true offset) l vzero.

(** ** assembleLocalDiagonalBlock: blockdiagonalwrapper.hh 224-258, called with the wrapper; the same local space and
    coefficients are used on both sides of a face.  The index of an intersection counts all intersections. *)
Definition local_block (e : env) (j : jterms) (c : cell) (t : R) (x : vec) : mat :=
  fold_left (fun (m : mat) (p : nat * face) => let (i, f) := p in
    match classify e f with
    | Skeleton => madd m (fst (fst (j_skeleton (diag_jterms j) c f i t x x)))
    | Boundary => madd m (j_boundary (diag_jterms j) c f i t x)
    | _ => m
    end) (combine (seq 0 (length (faces c))) (faces c) : list (nat * face)) (j_volume (diag_jterms j) c t x).
