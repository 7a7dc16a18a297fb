(** Which DOFs a process must have after load balancing. *)
From Verif Require Import Common LbModel.

(** Ids identify entities on every process, codimensions are at most the dimension. *)
Definition grid_ok (G : lbgrid) : Prop := (forall p e e', lid G p e = lid G p e' -> e = e') /\ forall e, codim G e <= gdim G.
(** The numbers of DOFs that occur can be sent as values. *)
Definition wire_ok {A} (W : wire A) (s : slot A) : Prop := dec W (enc W 0) = 0 /\ forall p e, In e (before s p) -> dec W (enc W (length (val s p e))) = length (val s p e).
(** The entity has DOFs. *)
Definition carries {A} (G : lbgrid) (s : slot A) (e : nat) : Prop := has_dofs s (codim G e) = true.

(** The process whose DOFs of the entity e process q has afterwards: itself if it had e, else the first that sent it, as a copy that is in its entity set. *)
Definition first_move {A} (s : slot A) (moves : list (nat * nat * entity)) (p q e : nat) (sent : bool) : Prop :=
  exists l1 e' l2, moves = l1 ++ (p, q, e') :: l2 /\ e_id e' = e /\ contains s p e' = sent /\ forall p' e'', In (p', q, e'') l1 -> e_id e'' <> e.
Definition origin {A} (s : slot A) (moves : list (nat * nat * entity)) (p q e : nat) : Prop :=
  In e (before s q) /\ p = q \/ ~ In e (before s q) /\ first_move s moves p q e true.

(** What is sent is interior or border on the sender; whatever is interior or border afterwards was there or was sent; local views have as many DOFs before as
    afterwards. *)
Definition moves_ok {A} (G : lbgrid) (s : slot A) (moves : list (nat * nat * entity)) : Prop :=
  (forall p q e, In (p, q, e) moves -> contains s p e = true -> carries G s (e_id e) -> In (e_id e) (before s p)) /\
  (forall q e, In e (after s q) -> carries G s e -> exists p, origin s moves p q e) /\
  forall p e, In e (before s p) -> length (val s p e) = view_size s e.
