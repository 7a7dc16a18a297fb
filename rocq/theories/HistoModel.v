(** Model of error_distribution: dune/pdelab/adaptivity/adaptivity.hh 964-1026.  Numbers are exact reals; the loops over the
    bins act on each bin by itself, the vectors are functions of the bin.  The text printed around the numbers is left out. *)
From Verif Require Export AdaptModel.
Local Open Scope R_scope.

(** 978-979 *)
Definition target (bins k : nat) : R := INR (k + 1) / INR bins.
(** the loops over the errors: 987-997, 1012-1018: sum and count of the errors that are at most [e] *)
Definition tally (x : list R) (e : R) : R * nat := fold_left (fun '(s, n) v => if leb v e then (s + v, S n) else (s, n)) x (0, 0%nat).
Record bounds := mkb { left : nat -> R; right : nat -> R; eta : nat -> R }.
(** 974-976: eta is not initialised (any value, here 0) *)
Definition start (x : list R) : bounds :=
  mkb (fun _ => 0) (fun _ => infinity_norm x * (1 + / 10 ^ 8)) (fun _ => 0).
(** one step: 980-1009 *)
Definition bisect_step (x : list R) (bins : nat) (b : bounds) : bounds :=
  let e := fun k => 1/2 * (left b k + right b k) in
  let small := fun k => leb (fst (tally x (e k))) (target bins k * one_norm x) in
  mkb (fun k => if small k then e k else left b k) (fun k => if small k then right b k else e k) e.
Fixpoint bisect_steps (n : nat) (x : list R) (bins : nat) (b : bounds) : bounds :=
  match n with O => b | S n' => bisect_steps n' x bins (bisect_step x bins b) end.
(** A line for a bin: count, eta, sum/total (None: not a number): 1024-1025 *)
Record line := mkline { l_count : nat; l_eta : R; l_share : option R }.
(** number of elements, max error, total error, lines: 1019-1025 *)
Definition error_distribution (x : list R) (bins : nat) : nat * R * R * list line :=
  let b := bisect_steps 30 x bins (start x) in
  (length x, infinity_norm x, one_norm x,
   map (fun k => let t := tally x (eta b k) in mkline (snd t) (eta b k) (quotient (fst t) (one_norm x))) (seq 0 bins)).
