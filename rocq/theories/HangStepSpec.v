(** Specification of what an engine may still hold from earlier calls. *)
From Verif Require Import HangStepModel.

(** Function spaces an engine is still bound to from earlier calls belong to the same grid. *)
Definition left_over (N : nat) (s : jest) : Prop :=
  forall h, In h (snd (ss_dofs s)) \/ In h (snd (sn_d s)) \/ In h (snd (ns_d s)) \/ In h (snd (nn_d s)) -> (h < N)%nat.
