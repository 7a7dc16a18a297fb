(** C47: what a residual, Jacobian or jacobian_apply call assembles. *)
From Coq Require Import FunctionalExtensionality.
From Verif Require Import DriverProofs EngineModel EngineSpec EngineProofs EngineProofs2 EngineProofs3.
Local Open Scope R_scope.

(** The residual is increased by the weighted sum of all local contributions, whatever the engine did before. *)
Theorem c47_residual : forall X (x0 : X) G L e cells a s x r g,
  assemble_residual x0 G L e cells a s x r g = r g + weight a * operator_value x0 G e L (time a) x cells g.
Proof. exact @assembled_value. Qed.
Print Assumptions c47_residual.

Theorem c47_jacobian : forall G L J e cells a s x m g h,
  assemble_jacobian G L J e cells a s x m g h = m g h + weight a * jacobian_value G e L J (time a) x cells g h.
Proof. exact assembled_jacobian. Qed.
Print Assumptions c47_jacobian.

(** The assembled matrix is the derivative of the assembled residual if this holds locally. *)
Theorem c47_jacobian_is_derivative : forall N G L J e cells a s s' x z g,
  dofs_below N G -> local_derivatives G L J ->
  derivable_pt_lim (fun h => assemble_residual 0 G L e cells a s (along x z h) vzero g) 0
                   (mv N (assemble_jacobian G L J e cells a s' x mzero) z g).
Proof. exact assembled_derivative. Qed.
Print Assumptions c47_jacobian_is_derivative.

(** jacobian_apply is the product of the assembled matrix with the update. *)
Theorem c47_apply_is_product : forall N G L J LA e cells a s s' x z g,
  dofs_below N G -> local_apply G L J LA ->
  assemble_residual (0, 0) G LA e cells a s (fun h => (x h, z h)) vzero g =
  mv N (assemble_jacobian G L J e cells a s' x mzero) z g.
Proof. exact assembled_apply. Qed.
Print Assumptions c47_apply_is_product.

(** The hypotheses hold for a nonlinear operator with volume and face terms, which assembles a non-trivial residual. *)
Example c47_meets : dofs_below 3 one_dof /\ local_derivatives one_dof reaction_jump reaction_jump_j /\
  local_apply one_dof reaction_jump reaction_jump_j reaction_jump_apply /\
  assemble_residual 0 one_dof reaction_jump (fst (no_skip false)) strip (mkla 2 0) blank (fun g => INR g) vzero 1%nat = 2.
Proof. exact engine_meets. Qed.
