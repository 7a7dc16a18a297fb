(** The stage Jacobian of OneStepGridOperator with constraints that have contributors (hanging nodes): the engines of both
    operators hand the local matrices to scatter_jacobian (ConsModel.v), and the engine of the second operator makes the
    rows of constrained DOFs trivial at the end.  Residual and jacobian_apply are post-processed by constrain_residual.
    Simplified: the index caches of an element are built anew (c26 and c46 show that what other elements left in them does
    not matter); both operators have the same constraints, as in OneStepLocalAssembler. *)
From Verif Require Export OneStepModel ConsModel ConsSpec.
Local Open Scope R_scope.

(** What onUnbindLFSUV and onUnbindLFSUVOutside pass to scatter_jacobian: default/jacobianengine.hh 152-179 *)
Definition jac_blocks (y : call) (s : jest) : list element :=
  match y with
  | OnUnbindUV _ => [mkel (fst (ss_dofs s)) (snd (ss_dofs s)) (al s)]
  | OnUnbindUVOutside _ _ _ =>
      [mkel (fst (sn_d s)) (snd (sn_d s)) (al_sn s); mkel (fst (ns_d s)) (snd (ns_d s)) (al_ns s);
       mkel (fst (nn_d s)) (snd (nn_d s)) (al_nn s)]
  | _ => []
  end.
(** onestep/jacobianengine.hh: both engines, operator 0 first (the calls of OneStepModel.twoj_step) *)
Section Blocks.
  Variables (G : space) (L0 L1 : terms R) (J0 J1 : jterms) (a0 a1 : la) (imp : bool).
  Fixpoint twoj_blocks (l : list call) (p : jest * jest) : list element :=
    match l with
    | [] => []
    | y :: l' =>
        (if negb (is_asm y) || imp then jac_blocks y (fst p) else []) ++
        (if is_post y then [] else jac_blocks y (snd p)) ++
        twoj_blocks l' (fst (twoj_step G L0 L1 J0 J1 a0 a1 imp y p))
    end.
End Blocks.
Definition stage_blocks (G : space) (L0 L1 : terms R) (J0 J1 : jterms) (e : env) (cells : list cell) (o : os)
    (p : jest * jest) (x : vec) : list element :=
  let fl := either (jac_flags L0) (jac_flags L1) in
  twoj_blocks G L0 L1 J0 J1 (la_spatial o) (la_temporal o) (implicit_stage o) (sweep e fl cells)
         (jset_solution x (fst p), jset_solution x (snd p)).
(** index caches bound to an element: default/jacobianengine.hh 30-33, 60-65 *)
Definition with_caches (tu tv : transformation) (e : element) : cache * cache * mat :=
  let en := needs_caching tu tv in
  (update (entries tv) (vs e) (new_cache en), update (entries tu) (us e) (new_cache en), em e).
(** OneStepGridOperator::jacobian including postAssembly (onestep/jacobianengine.hh 120-132) *)
Definition hanging_jacobian (tu tv : transformation) (symmetric : bool) (G : space) (L0 L1 : terms R) (J0 J1 : jterms)
    (e : env) (cells : list cell) (o : os) (p : jest * jest) (x : vec) (m : mat) : mat :=
  assemble_constrained (entries tu) (entries tv) symmetric
    (map (with_caches tu tv) (stage_blocks G L0 L1 J0 J1 e cells o p x)) m.
(** OneStepGridOperator::residual and jacobian_apply (onestep/residualengine.hh 163-178, jacobianapplyengine.hh 249-254) *)
Definition hanging_residual (tv : transformation) (G : space) (L0 L1 : terms R) (e : env) (cells : list cell) (o : os)
    (const : vec) (p : rest R * rest R) (x r : vec) : vec :=
  stage_residual G L0 L1 (constrain_residual (entries tv)) e cells o const p x r.
Definition hanging_apply (tv : transformation) (G : space) (LA0 LA1 : terms (R * R)) (e : env) (cells : list cell) (o : os)
    (p : rest (R * R) * rest (R * R)) (x z r : vec) : vec :=
  constrain_residual (entries tv) (stage_apply G LA0 LA1 e cells o p x z r).
