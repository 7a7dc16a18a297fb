(** Model of combined local operators: dune/pdelab/localoperator/combinedoperator.hh, sum.hh, weightedsum.hh, scaled.hh
    with the dispatch of callswitch.hh, on top of the engines of EngineModel.v.

    Not modelled: skip_entity/skip_intersection (const methods calling the non-const getSummand, they cannot be
    instantiated) and the methods for instationary problems (they pass the name of a function template, likewise). *)
From Verif Require Export EngineModel.
Local Open Scope R_scope.

(** A method of a summand acts on the contents [C] of the accumulation views it is given; the views carry one weight
    each (WeightedVectorAccumulationView, localvector.hh 27-170, WeightedMatrixAccumulationView, localmatrix.hh 22-190). *)
Section Apply.
  Context {A C : Type}.
  Variable f : A -> list R -> C -> C.
  (** InstationarySumLocalOperator::applyLops: sum.hh 28-33. *)
  Definition apply_sum (ls : list (R * A)) (s : list R * C) : list R * C :=
    fold_left (fun (s : list R * C) (p : R * A) => (fst s, f (snd p) (fst s) (snd s))) ls s.
  (** WeightedSumLocalOperator::applyLops: weightedsum.hh 76-94; getWeights and setWeights: 49-73. *)
  Definition apply_weighted (ls : list (R * A)) (s : list R * C) : list R * C :=
    let aw := fst s in
    let s' := fold_left (fun (s : list R * C) (p : R * A) =>
      let (w, l) := p in
      if Req_EM_T w 0 then s
      else let cur := map (fun a => a * w) aw in (cur, f l cur (snd s))) ls s in
    (aw, snd s').
End Apply.

(** Dispatch of one method of a summand, called only if the summand has the switch set: callswitch.hh 410-573.
    Accumulating [v] through a view of weight w adds w*v. *)
Definition wnth (ws : list R) (k : nat) : R := nth k ws 0.
Definition call1 (on : bool) (v : vec) (ws : list R) (r : vec) : vec := if on then vacc (wnth ws 0) r v else r.
Definition call2 (on : bool) (v : vec * vec) (ws : list R) (r : vec * vec) : vec * vec :=
  if on then (vacc (wnth ws 0) (fst r) (fst v), vacc (wnth ws 1) (snd r) (snd v)) else r.
Definition mcall1 (on : bool) (v : mat) (ws : list R) (m : mat) : mat := if on then macc (wnth ws 0) m v else m.
Definition mats4 : Type := (mat * mat) * (mat * mat).
Definition mcall4 (on : bool) (v : mats4) (ws : list R) (m : mats4) : mats4 :=
  if on then ((macc (wnth ws 0) (fst (fst m)) (fst (fst v)), macc (wnth ws 1) (snd (fst m)) (snd (fst v))),
              (macc (wnth ws 2) (fst (snd m)) (fst (snd v)), macc (wnth ws 3) (snd (snd m)) (snd (snd v))))
  else m.

(** How the summands are called: apply_sum or apply_weighted. *)
Definition applier : Type := forall A C : Type, (A -> list R -> C -> C) -> list (R * A) -> list R * C -> list R * C.
Definition plain_sum : applier := fun A C f => apply_sum f.
Definition weighted_sum : applier := fun A C f => apply_weighted f.

Definition any {A} (h : A -> bool) (ls : list (R * A)) : bool := existsb (fun p => h (snd p)) ls.

(** TwoSidedSkeleton, OneSidedSkeleton and the static_assert: combinedoperator.hh 80-88, 154-161. *)
Definition has_skeleton {X} (l : terms X) : bool := do_alpha_skeleton l || do_lambda_skeleton l.
Definition two_sided_skeleton {X} (l : terms X) : bool := has_skeleton l && do_two_sided l.
Definition one_sided_skeleton {X} (l : terms X) : bool := has_skeleton l && negb (do_two_sided l).
Definition accepted {X} (ls : list (R * terms X)) : bool :=
  negb (forallb (fun p => one_sided_skeleton (snd p)) ls && forallb (fun p => two_sided_skeleton (snd p)) ls).

Section Combined.
  Context {X : Type}.
  Variable ap : applier.
  Notation T := (terms X).
  (** the contribution of a method to one or two residual views, obtained by running it on zero views of weight one *)
  Definition run1 (on : T -> bool) (v : T -> vec) (ls : list (R * T)) : vec :=
    snd (ap T vec (fun l => call1 (on l) (v l)) ls ([1], vzero)).
  Definition run2 (on : T -> bool) (v : T -> vec * vec) (ls : list (R * T)) : vec * vec :=
    snd (ap T (vec * vec)%type (fun l => call2 (on l) (v l)) ls ([1; 1], (vzero, vzero))).

  (** CombinedOperator: flags 90-164, alpha 297-353, lambda 365-412; [bnd] is what alpha_boundary does. *)
  Definition combine_with (bnd : list (R * T) -> cell -> face -> nat -> R -> (nat -> X) -> vec) (ls : list (R * T)) : T :=
    mkterms X (any do_alpha_volume ls) (any do_lambda_volume ls) (any do_alpha_skeleton ls) (any do_lambda_skeleton ls)
      (any do_alpha_boundary ls) (any do_lambda_boundary ls) (any do_alpha_post ls) (any do_lambda_post ls)
      (any two_sided_skeleton ls)
      (fun c t x => run1 do_alpha_volume (fun l => alpha_volume l c t x) ls)
      (fun c t => run1 do_lambda_volume (fun l => lambda_volume l c t) ls)
      (fun c f i t x y => run2 do_alpha_skeleton (fun l => alpha_skeleton l c f i t x y) ls)
      (fun c f i t => run2 do_lambda_skeleton (fun l => lambda_skeleton l c f i t) ls)
      (fun c f i t x => bnd ls c f i t x)
      (fun c f i t => run1 do_lambda_boundary (fun l => lambda_boundary l c f i t) ls)
      (fun c t x => run1 do_alpha_post (fun l => alpha_post l c t x) ls)
      (fun c t => run1 do_lambda_post (fun l => lambda_post l c t) ls).

  (** The residual methods: alpha_boundary calls the post-skeleton method of the summands and hands it the
      intersection (combinedoperator.hh 352); [post_on_face] is what a summand does with that. *)
  Definition combine (post_on_face : T -> cell -> face -> nat -> R -> (nat -> X) -> vec) : list (R * T) -> T :=
    combine_with (fun ls c f i t x => run1 do_alpha_post (fun l => post_on_face l c f i t x) ls).
  (** The jacobian_apply methods: 424-484; jacobian_apply_boundary calls the boundary method. *)
  Definition combine_apply : list (R * T) -> T :=
    combine_with (fun ls c f i t x => run1 do_alpha_boundary (fun l => alpha_boundary l c f i t x) ls).
End Combined.

(** The Jacobian methods: combinedoperator.hh 496-556; a summand has residual and derivative terms. *)
Notation summand := (terms R * jterms)%type.
Section CombinedJacobian.
  Variable ap : applier.
  Definition mrun1 (on : terms R -> bool) (v : summand -> mat) (ls : list (R * summand)) : mat :=
    snd (ap summand mat (fun l => mcall1 (on (fst l)) (v l)) ls ([1], mzero)).
  Definition mrun4 (on : terms R -> bool) (v : summand -> mats4) (ls : list (R * summand)) : mats4 :=
    snd (ap summand mats4 (fun l => mcall4 (on (fst l)) (v l)) ls ([1; 1; 1; 1], ((mzero, mzero), (mzero, mzero)))).
  Definition combine_jacobian (ls : list (R * summand)) : jterms :=
    mkjterms
      (fun c t x => mrun1 do_alpha_volume (fun l => j_volume (snd l) c t x) ls)
      (fun c f i t x y => mrun4 do_alpha_skeleton (fun l => j_skeleton (snd l) c f i t x y) ls)
      (fun c f i t x => mrun1 do_alpha_boundary (fun l => j_boundary (snd l) c f i t x) ls)
      (fun c t x => mrun1 do_alpha_post (fun l => j_post (snd l) c t x) ls).
  Definition residual_parts (ls : list (R * summand)) : list (R * terms R) := map (fun p => (fst p, fst (snd p))) ls.
End CombinedJacobian.

(** Patterns: combinedoperator.hh 232-283; a pattern method adds links to the local pattern. *)
Definition pattern_call {A} (on : A -> bool) (links : A -> list (nat * nat)) (l : A) (_ : list R) (p : list (nat * nat)) :=
  if on l then p ++ links l else p.
Definition combine_pattern (ap : applier) {A} (on : A -> bool) (links : A -> list (nat * nat)) (ls : list (R * A)) :
  list (nat * nat) := snd (ap A (list (nat * nat)) (pattern_call on links) ls ([], [])).
(** setWeight: weightedsum.hh 134-135. *)
Definition set_weight {A} (w : R) (i : nat) (ls : list (R * A)) : list (R * A) :=
  match nth_error ls i with Some p => upd i (w, snd p) ls | None => ls end.

(** ScaledLocalOperator: scaled.hh 30-52 (constructors), flags 60-110, methods 120-900. *)
Definition scaled_view (k : R) {C} (call : list R -> C -> C) (ws : list R) (c : C) : C :=
  if Req_EM_T k 0 then c else call (map (fun w => k * w) ws) c.
Definition scaled {X} (k : R) (l : terms X) : terms X :=
  let one := fun v => scaled_view k (call1 true v) [1] vzero in
  let two := fun v => scaled_view k (call2 true v) [1; 1] (vzero, vzero) in
  mkterms X (do_alpha_volume l) (do_lambda_volume l) (do_alpha_skeleton l) (do_lambda_skeleton l) (do_alpha_boundary l)
    (do_lambda_boundary l) (do_alpha_post l) (do_lambda_post l) (do_two_sided l)
    (fun c t x => one (alpha_volume l c t x)) (fun c t => one (lambda_volume l c t))
    (fun c f i t x y => two (alpha_skeleton l c f i t x y)) (fun c f i t => two (lambda_skeleton l c f i t))
    (fun c f i t x => one (alpha_boundary l c f i t x)) (fun c f i t => one (lambda_boundary l c f i t))
    (fun c t x => one (alpha_post l c t x)) (fun c t => one (lambda_post l c t)).
Definition scaled_jacobian (k : R) (j : jterms) : jterms :=
  let one := fun v => scaled_view k (mcall1 true v) [1] mzero in
  mkjterms (fun c t x => one (j_volume j c t x))
    (fun c f i t x y => scaled_view k (mcall4 true (j_skeleton j c f i t x y)) [1; 1; 1; 1] ((mzero, mzero), (mzero, mzero)))
    (fun c f i t x => one (j_boundary j c f i t x)) (fun c t x => one (j_post j c t x)).
