(** Quadrature points that count for the error. *)
From Verif Require Import ErrModel.
Local Open Scope R_scope.

(** The cells that are interior to some process. *)
Definition interior_cells (procs : list (list gcell)) : list gcell := concat (map (filter g_interior) procs).
Definition rule_nonneg (procs : list (list gcell)) : Prop :=
  forall c x w ie, In c (interior_cells procs) -> In (x, w, ie) (g_rule c) -> 0 <= w * ie.
(** Two functions agree in the first n components in all points with positive weight. *)
Definition agree (n : nat) (f g : field) (procs : list (list gcell)) : Prop :=
  forall c x w ie k, In c (interior_cells procs) -> In (x, w, ie) (g_rule c) -> 0 < w * ie -> (k < n)%nat -> f (g_cell c) x k = g (g_cell c) x k.
