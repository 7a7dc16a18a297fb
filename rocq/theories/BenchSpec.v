(** Benchmark statistics and scopes (no reference to the code's helpers). *)
From Coq Require Import Reals.
From Verif Require Import Common BenchModel.

Section Bench.
Local Open Scope R_scope.
Fixpoint total (l : list R) : R := match l with [] => 0 | x :: r => x + total r end.
(** Minimum, maximum, mean and standard deviation of a list of durations. *)
Definition describes (s : stats) (l : list R) : Prop :=
  (exists m, s_min s = Some m /\ In m l /\ forall x, In x l -> m <= x) /\
  (forall x, In x l -> x <= s_max s) /\ In (s_max s) (0 :: l) /\
  INR (length l) * s_avg s = total l /\
  0 <= s_dev s /\ INR (length l) * (s_dev s * s_dev s) = total (map (fun x => (x - s_avg s) * (x - s_avg s)) l).

(** The time of the last call, in the r-th run, among the calls [get] selects; 0 if there is none. *)
Definition is_end_run (o : op) : bool := match o with EndRun _ => true | _ => false end.
Definition look (get : op -> option R) (r : nat) (st : nat * R) (o : op) : nat * R :=
  (if is_end_run o then S (fst st) else fst st, if (fst st =? r)%nat then match get o with Some t => t | None => snd st end else snd st).
Definition recorded (get : op -> option R) (r : nat) (hist : list op) : R := snd (fold_left (look get r) hist (O, 0)).
Definition run_start (o : op) : option R := match o with StartRun t => Some t | _ => None end.
Definition run_end (o : op) : option R := match o with EndRun t => Some t | _ => None end.
Definition task_start (k : nat) (o : op) : option R := match o with Start j t => if (j =? k)%nat then Some t else None | _ => None end.
Definition task_end (k : nat) (o : op) : option R := match o with End j t => if (j =? k)%nat then Some t else None | _ => None end.
(** The durations of the runs, and of a task in each run. *)
Definition run_durations (m : nat) (hist : list op) : list R := map (fun r => recorded run_end r hist - recorded run_start r hist) (seq 0 m).
Definition task_durations (k m : nat) (hist : list op) : list R := map (fun r => recorded (task_end k) r hist - recorded (task_start k) r hist) (seq 0 m).
Definition started (k : nat) (hist : list op) : Prop := exists t, In (Start k t) hist.

(** Number of completed runs; every end of a task comes after a start of it. *)
Definition count_runs (hist : list op) : nat := length (filter is_end_run hist).
Definition ends_after_start (hist : list op) : Prop := forall pre k t post, hist = pre ++ End k t :: post -> started k pre.

(** A program that prints only between runs: printing, or a run around starts and ends of tasks. *)
Inductive item : list op -> Prop :=
| item_print : item [Print]
| item_run t0 t1 body : Forall (fun o => match o with Start _ _ | End _ _ => True | _ => False end) body -> item (StartRun t0 :: body ++ [EndRun t1]).
End Bench.

(** Scopes of temporary formatters are nested. *)
Fixpoint nested (depth : nat) (l : list act) : bool :=
  match l with
  | [] => depth =? 0
  | Enter _ :: r => nested (S depth) r
  | Leave :: r => match depth with O => false | S d => nested d r end
  | SetFormatter _ :: r => nested depth r
  end.
