(** Model of error fractions, grid marking and the time step strategy (dune/pdelab/adaptivity/adaptivity.hh).
    Numbers are exact reals; a quotient with denominator 0 is NaN ([None]).  Printing is not modelled. *)
From Verif Require Export Common.
From Coq Require Export Reals.
Local Open Scope R_scope.

Definition leb (a b : R) : bool := if Rle_dec a b then true else false.
Definition ltb (a b : R) : bool := if Rlt_dec a b then true else false.

(** one_norm() and infinity_norm() of the error vector *)
Definition one_norm (x : list R) : R := fold_right (fun e s => Rabs e + s) 0 x.
Definition infinity_norm (x : list R) : R := fold_right (fun e s => Rmax (Rabs e) s) 0 x.

(** sum_alpha, sum_beta accumulated by the loop over the errors: 886-890, 938-942; [w]: what an error adds *)
Definition sum_alpha (w : R -> R) (x : list R) (eta : R) : R := fold_left (fun s e => if leb eta e then s + w e else s) x 0.
Definition sum_beta (w : R -> R) (x : list R) (eta : R) : R := fold_left (fun s e => if ltb e eta then s + w e else s) x 0.
(** abs(frac - s/total) <= 0.01, false for NaN: 898, 950 *)
Definition within (frac s total : R) : bool := if Req_EM_T total 0 then false else leb (Rabs (frac - s / total)) (1/100).

(** The bisection loop, [n] steps left: 875-907, 928-958.  Returns (eta_alpha, eta_beta). *)
Fixpoint bisect (n : nat) (w : R -> R) (x : list R) (total alpha beta : R) (al ar bl br : R) (ea eb : R) : R * R :=
  match n with
  | O => (ea, eb)
  | S n' =>
      let ea := 1/2 * (al + ar) in
      let eb := 1/2 * (bl + br) in
      let sa := sum_alpha w x ea in
      let sb := sum_beta w x eb in
      if within alpha sa total && within beta sb total then (ea, eb)
      else bisect n' w x total alpha beta
             (if ltb (alpha * total) sa then ea else al) (if ltb (alpha * total) sa then ar else ea)
             (if ltb (beta * total) sb then bl else eb) (if ltb (beta * total) sb then eb else br) ea eb
  end.
(** error_fraction: 862-912; [ea], [eb]: previous values of the output parameters *)
Definition error_fraction (x : list R) (alpha beta ea eb : R) : R * R :=
  bisect 20 (fun e => e) x (one_norm x) alpha beta 0 (infinity_norm x) 0 (infinity_norm x) ea eb.
(** element_fraction: 915-963 *)
Definition element_fraction (x : list R) (alpha beta ea eb : R) : R * R :=
  bisect 20 (fun _ => 1) x (INR (length x)) alpha beta 0 (infinity_norm x) 0 (infinity_norm x) ea eb.

(** A leaf cell: level and error (x_view[0]). *)
Record cell := mkcell { level : Z; err : R }.
(** The calls grid.mark(mark, cell) in order, the cell given by its position in the iteration. *)
Definition call := (Z * nat)%type.
(** mark_grid: 1029-1069; [None] as maximal level: numeric_limits<int>::max() *)
Definition mark_cell (refine coarsen : R) (minl : Z) (maxl : option Z) (i : nat) (c : cell) : list call :=
  (if leb refine (err c) && (match maxl with Some m => (level c <? m)%Z | None => true end) then [(1%Z, i)] else []) ++
  (if leb (err c) coarsen && (minl <? level c)%Z then [((-1)%Z, i)] else []).
Fixpoint mark_from (f : nat -> cell -> list call) (i : nat) (cs : list cell) : list call :=
  match cs with [] => [] | c :: r => f i c ++ mark_from f (S i) r end.
Definition mark_grid (cs : list cell) (refine coarsen : R) (minl : Z) (maxl : option Z) : list call :=
  mark_from (mark_cell refine coarsen minl maxl) 0 cs.
(** mark_grid_for_coarsening: 1073-1111 *)
Definition mark_grid_for_coarsening (cs : list cell) (refine coarsen : R) : list call :=
  mark_from (fun i c => (if leb refine (err c) then [((-1)%Z, i)] else []) ++ (if leb (err c) coarsen then [((-1)%Z, i)] else [])) 0 cs.

(** TimeAdaptationStrategy: 1114-1143 *)
Record params := mkparams {
  scaling : R; coarsen_limit : R; balance_limit : R; tol : R; verbose : Z; no_adapt : bool;
  refine_fraction_refinement : R; coarsen_fraction_refinement : R; coarsen_fraction_coarsening : R;
  decrease : R; increase : R; minenergy_rate : R }.
Record state := mkstate { accept : bool; adapt_dt : bool; adapt_grid : bool; newdt : R; have_decreased : bool; accumulated : R }.
(** startTimeStep: 1255-1259 (have_refined_grid is never read) *)
Definition start_time_step (s : state) : state :=
  mkstate (accept s) (adapt_dt s) (adapt_grid s) (newdt s) false (accumulated s).

(** comparisons with a quotient that may be NaN *)
Definition quotient (a b : R) : option R := if Req_EM_T b 0 then None else Some (a / b).
Definition qlt (q : option R) (b : R) : bool := match q with Some v => ltb v b | None => false end.
Definition qgt (q : option R) (b : R) : bool := match q with Some v => ltb b v | None => false end.

(** evaluate_estimators: 1261-1396; returns the new state and the calls of grid.mark.  In both calls the fraction output
    parameters are uninitialised before (any value, here 0).  The fifth argument of mark_grid is the verbosity: 1391 *)
Definition evaluate (p : params) (s : state) (dt : R) (space : list cell) (time : list R) (energy : R) : state * list call :=
  let eta := map err space in
  let spatial := one_norm eta in
  let temporal := scaling p * one_norm time in
  let sum := spatial + temporal in
  let allowed := tol p * tol p * (energy + minenergy_rate p * dt) in
  let q_s := quotient spatial sum in
  let q_t := quotient temporal sum in
  if no_adapt p then (mkstate true false false dt (have_decreased s) (accumulated s + sum), [])
  else if leb sum allowed then
    let acc := accumulated s + sum in
    if ltb sum (coarsen_limit p * allowed) then
      if qlt q_t (balance_limit p) then (mkstate true true false (increase p * dt) (have_decreased s) acc, [])
      else
        let grow := qgt q_s (balance_limit p) in
        let (er, ec) := error_fraction eta (coarsen_fraction_coarsening p) (coarsen_fraction_coarsening p) 0 0 in
        (mkstate true grow true (if grow then increase p * dt else dt) (have_decreased s) acc, mark_grid_for_coarsening space er ec)
    else if qlt q_t (balance_limit p) then (mkstate true true false (increase p * dt) (have_decreased s) acc, [])
    else (mkstate true false false dt (have_decreased s) acc, [])
  else
    if qgt q_t (1 - balance_limit p) then (mkstate false true false (decrease p * dt) true (accumulated s), [])
    else
      let (er, ec) := error_fraction eta (refine_fraction_refinement p) (coarsen_fraction_refinement p) 0 0 in
      let marks := mark_grid space er ec (verbose p) None in
      if qlt q_t (balance_limit p) then
        if have_decreased s then (mkstate false false true dt true (accumulated s), marks)
        else (mkstate false true true (increase p * dt) false (accumulated s), marks)
      else (mkstate false true true (decrease p * dt) true (accumulated s), marks).

(** A run of the driver: startTimeStep and evaluations in any order. *)
Inductive event := Start | Evaluate (dt : R) (space : list cell) (time : list R) (energy : R).
Definition play (p : params) (s : state) (e : event) : state :=
  match e with Start => start_time_step s | Evaluate dt sp ti en => fst (evaluate p s dt sp ti en) end.
