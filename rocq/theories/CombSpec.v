(** What a weighted sum of local operators should be. *)
From Verif Require Import CombModel EngineSpec.
Local Open Scope R_scope.

(** No summand with skeleton terms wants another sidedness than the others. *)
Definition same_sides {X} (ls : list (R * terms X)) : Prop :=
  forall p q, In p ls -> In q ls -> has_skeleton (snd p) = true -> has_skeleton (snd q) = true ->
    do_two_sided (snd p) = do_two_sided (snd q).
Definition no_boundary {X} (ls : list (R * terms X)) : Prop := forall p, In p ls -> do_alpha_boundary (snd p) = false.

(** [weighted_sum] uses the weights of the list, [plain_sum] treats every weight as one. *)
Definition unit_weights {A} (ls : list A) : list (R * A) := map (fun l => (1, l)) ls.
