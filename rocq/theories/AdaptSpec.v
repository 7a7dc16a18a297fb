(** Fractions and error sums. *)
From Verif Require Import AdaptModel.
Local Open Scope R_scope.

(** What the elements with error at least (less than) a threshold contribute. *)
Fixpoint above (w : R -> R) (eta : R) (x : list R) : R := match x with [] => 0 | e :: r => (if Rle_dec eta e then w e else 0) + above w eta r end.
Fixpoint below (w : R -> R) (eta : R) (x : list R) : R := match x with [] => 0 | e :: r => (if Rlt_dec e eta then w e else 0) + below w eta r end.
Fixpoint total_of (w : R -> R) (x : list R) : R := match x with [] => 0 | e :: r => w e + total_of w r end.
Definition is_max (m : R) (x : list R) : Prop := (forall e, In e x -> e <= m) /\ (x = [] -> m = 0) /\ (x <> [] -> In m x).

(** Thresholds whose fractions differ from the requested ones by at most one percent. *)
Definition meets (w : R -> R) (x : list R) (alpha beta ea eb : R) : Prop :=
  let T := total_of w x in
  T <> 0 /\ Rabs (alpha - above w ea x / T) <= 1/100 /\ Rabs (beta - below w eb x / T) <= 1/100.
(** Thresholds that are off by at most [h]: a threshold smaller by [h] or more selects more than the fraction alpha for
    refinement, one larger by [h] or more at most alpha; likewise for the coarsening fraction beta. *)
Definition brackets (w : R -> R) (x : list R) (m alpha beta h ea eb : R) : Prop :=
  let T := total_of w x in
  (forall eta, 0 < eta <= ea - h -> above w eta x > alpha * T) /\
  (forall eta, ea + h <= eta -> eta <> m -> above w eta x <= alpha * T) /\
  (forall eta, eta <= eb - h -> below w eta x <= beta * T) /\
  (forall eta, eb + h <= eta < m -> below w eta x > beta * T).

(** Error of an evaluation and the error it may have. *)
Definition norm1 (x : list R) : R := total_of Rabs x.
Definition estimate (p : params) (space : list cell) (time : list R) : R := norm1 (map err space) + scaling p * norm1 time.
Definition allowance (p : params) (dt energy : R) : R := tol p ^ 2 * (energy + minenergy_rate p * dt).

Definition event_estimate (p : params) (e : event) : R := match e with Start => 0 | Evaluate _ sp ti _ => estimate p sp ti end.
Definition event_allowance (p : params) (e : event) : R := match e with Start => 0 | Evaluate dt _ _ en => allowance p dt en end.
(** The evaluations of a run after which acceptTimeStep() holds. *)
Fixpoint accepted (p : params) (s : state) (es : list event) : list event :=
  match es with
  | [] => []
  | e :: r => let s' := play p s e in
              match e with
              | Start => accepted p s' r
              | Evaluate _ _ _ _ => if accept s' then e :: accepted p s' r else accepted p s' r
              end
  end.
