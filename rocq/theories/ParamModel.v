(** constraints/common/constraintsparameters.hh: parameters that tell where constraints act, and the adapters between them.
    Adapters hold references, so parameter objects live in a store and several adapters may refer to the same one. *)
From Coq Require Export List Bool PeanoNat.
From Verif Require Export Common.
Export ListNotations.

(** Classes written by a user: answers by time and place ([T] times, [P] places on the boundary). *)
Record user (T P : Type) := mkuser { dirichlet_at : T -> P -> bool; neumann_at : T -> P -> bool }.
Arguments dirichlet_at {T P}. Arguments neumann_at {T P}.
Inductive object (T P : Type) :=
| User (u : user T P) (now : T)
| Everywhere                      (* DirichletConstraintsParameters, 24-71 *)
| Nowhere                         (* NoDirichletConstraintsParameters, 79-110 *)
| AllFlux                         (* FluxConstraintsParameters, 120-148; no isDirichlet *)
| NoFlux                          (* NoFluxConstraintsParameters, 156-178; no isDirichlet *)
| FluxFromDirichlet (to : nat)    (* FluxFromDirichletConstraintsAdapter, 190-232 *)
| DirichletFromFlux (to : nat).   (* DirichletFromFluxConstraintsAdapter, 244-286 *)
Arguments User {T P}. Arguments Everywhere {T P}. Arguments Nowhere {T P}. Arguments AllFlux {T P}. Arguments NoFlux {T P}.
Arguments FluxFromDirichlet {T P}. Arguments DirichletFromFlux {T P}.

Section Param.
  Context {T P : Type}.
  Notation store := (list (object T P)).
  (** An adapter refers to an object that exists when it is constructed: references point to smaller numbers.  [UB] where the
      code would not compile (isDirichlet of flux parameters) or a reference dangles. *)
  Fixpoint is_dirichlet (fuel : nat) (s : store) (i : nat) (p : P) : res bool :=
    match fuel with
    | O => UB
    | S n =>
        match nth_error s i with
        | None => UB
        | Some (User u t) => Ok (dirichlet_at u t p)
        | Some Everywhere => Ok true
        | Some Nowhere => Ok false
        | Some AllFlux | Some NoFlux => UB
        | Some (FluxFromDirichlet j) => is_dirichlet n s j p                                   (* 197-201 *)
        | Some (DirichletFromFlux j) => let* b := is_neumann n s j p in Ok (negb b)           (* 251-255 *)
        end
    end
  with is_neumann (fuel : nat) (s : store) (i : nat) (p : P) : res bool :=
    match fuel with
    | O => UB
    | S n =>
        match nth_error s i with
        | None => UB
        | Some (User u t) => Ok (neumann_at u t p)
        | Some Everywhere => Ok false
        | Some Nowhere => Ok true
        | Some AllFlux => Ok true
        | Some NoFlux => Ok false
        | Some (FluxFromDirichlet j) => let* b := is_dirichlet n s j p in Ok (negb b)         (* 206-210 *)
        | Some (DirichletFromFlux j) => is_neumann n s j p                                     (* 260-264 *)
        end
    end.
  Definition isDirichlet (s : store) (i : nat) (p : P) : res bool := is_dirichlet (S i) s i p.
  Definition isNeumann (s : store) (i : nat) (p : P) : res bool := is_neumann (S i) s i p.

  (** setTime: 68-70, 107-109 (nothing), 215-219 and 269-273 (forwarded) *)
  Fixpoint set_time (fuel : nat) (t : T) (i : nat) (s : store) : res store :=
    match fuel with
    | O => UB
    | S n =>
        match nth_error s i with
        | None => UB
        | Some (User u _) => Ok (upd i (User u t) s)
        | Some (FluxFromDirichlet j) | Some (DirichletFromFlux j) => set_time n t j s
        | Some _ => Ok s
        end
    end.
  Definition setTime (t : T) (i : nat) (s : store) : res store := set_time (S i) t i s.

  (** Constructing objects and calling setTime. *)
  Inductive op := New (o : object T P) | SetTime (i : nat) (t : T).
  Definition step (s : store) (o : op) : res store :=
    match o with
    | New (FluxFromDirichlet j) | New (DirichletFromFlux j) =>
        if (j <? length s)%nat then Ok (s ++ [match o with New x => x | _ => Everywhere end]) else UB
    | New x => Ok (s ++ [x])
    | SetTime i t => setTime t i s
    end.
  Definition run (l : list op) : res store := foldM step l [].
End Param.
