(** Model of the benchmark helper and of the log tags: common/benchmarkhelper.hh (bench.hh), common/logtag.hh and
    common/logtag.cc. *)
From Coq Require Import Reals String Ascii.
From Verif Require Export Common.

(** ** bench.hh *)
Section Bench.
Local Open Scope R_scope.

(** bench.hh 51-61. *)
Record timing := mkt { t_start : R; t_end : R }.
Definition elapsed (t : timing) : R := t_end t - t_start t.
(** bench.hh 63-70: the minimum starts at the largest double, None here; sizes of doubles and their rounding are
    not modelled, so elapsed times are below it. *)
Record stats := mks { s_min : option R; s_max : R; s_avg : R; s_dev : R }.
Record entry := mke { e_timings : list timing; e_stats : stats }.
(** bench.hh 235-243: the tasks by name (numbers here). The name, the clock (a reading is part of each operation)
    and the width of the names column are left out. *)
Record helper := mkh { h_run : nat; h_max : nat; h_tasks : nat -> option entry; h_stale : bool; h_total : entry }.

(** Unspecified numbers in statistics that have not been computed. *)
Definition junk : stats := mks None 0 0 0.
(** bench.hh 76-84; resize value-initialises the timings. *)
Definition zeros (n : nat) : list timing := repeat (mkt 0 0) n.
Definition fresh (max : nat) : helper := mkh 0 max (fun _ => None) true (mke (zeros max) junk).

(** timings[run].start = now and .end = now; beyond the end of the vector the behaviour is undefined. *)
Definition set_start (l : list timing) (r : nat) (now : R) : res (list timing) :=
  match nth_error l r with Some t => Ok (firstn r l ++ mkt now (t_end t) :: skipn (S r) l) | None => UB end.
Definition set_end (l : list timing) (r : nat) (now : R) : res (list timing) :=
  match nth_error l r with Some t => Ok (firstn r l ++ mkt (t_start t) now :: skipn (S r) l) | None => UB end.

Inductive op := StartRun (now : R) | EndRun (now : R) | Start (task : nat) (now : R) | End (task : nat) (now : R) | Print.

Definition put (f : nat -> option entry) (k : nat) (e : entry) : nat -> option entry := fun j => if j =? k then Some e else f j.

(** bench.hh 147-168: update_entry. *)
Definition step_stats (s : stats) (t : timing) : stats :=
  let x := elapsed t in
  mks (Some (match s_min s with None => x | Some m => Rmin m x end)) (Rmax (s_max s) x) (s_avg s + x) (s_dev s + x * x).
Definition update_entry (e : entry) : entry :=
  let s := fold_left step_stats (e_timings e) (mks None 0 0 0) in
  let n := INR (length (e_timings e)) in
  let avg := s_avg s / n in
  mke (e_timings e) (mks (s_min s) (s_max s) avg (sqrt (s_dev s / n - avg * avg))).
(** bench.hh 170-184: update_statistics. *)
Definition update_statistics (h : helper) : helper :=
  mkh (h_run h) (h_max h) (fun k => option_map update_entry (h_tasks h k)) false (update_entry (h_total h)).

(** bench.hh 87-95 start_run, 105-109 end_run, 118-128 start, 135-139 end, 206-232 print. What is printed is the
    state after the update: the timings and statistics of all tasks and of the total. *)
Definition step (h : helper) (o : op) : res helper :=
  match o with
  | StartRun now =>
      if h_max h <=? h_run h then Throw else
      let* l := set_start (e_timings (h_total h)) (h_run h) now in
      Ok (mkh (h_run h) (h_max h) (h_tasks h) true (mke l (e_stats (h_total h))))
  | EndRun now =>
      let* l := set_end (e_timings (h_total h)) (h_run h) now in
      Ok (mkh (S (h_run h)) (h_max h) (h_tasks h) (h_stale h) (mke l (e_stats (h_total h))))
  | Start k now =>
      let e := match h_tasks h k with Some e => e | None => mke (zeros (h_max h)) junk end in
      let* l := set_start (e_timings e) (h_run h) now in
      Ok (mkh (h_run h) (h_max h) (put (h_tasks h) k (mke l (e_stats e))) true (h_total h))
  | End k now =>
      let e := match h_tasks h k with Some e => e | None => mke [] junk end in
      let* l := set_end (e_timings e) (h_run h) now in
      Ok (mkh (h_run h) (h_max h) (put (h_tasks h) k (mke l (e_stats e))) true (h_total h))
  | Print => Ok (if h_stale h then update_statistics h else h)
  end.
Definition run (max : nat) (ops : list op) : res helper := foldM step ops (fresh max).
End Bench.

(** ** logtag.hh and logtag.cc *)
(** The formatting state of a stream. The saver of dune-common restores flags, precision and width. *)
Record stream := mkst { st_flags : nat; st_prec : nat; st_width : nat; st_fill : ascii; st_text : string }.
(** logtag.hh 64-76: a formatter writes to the stream and may change its state. *)
Definition formatter := stream -> stream.
(** logtag.cc 40-57: the formatter in use, and the object of each WithLogtag in scope with the formatter it saved
    (logtag.hh 133-143). *)
Record world := mkw { w_current : formatter; w_objects : list formatter }.
Inductive act := SetFormatter (f : option formatter) | Enter (f : formatter) | Leave.
(** logtag.cc 49-57: setLogtagFormatter; a null pointer restores the default. *)
Definition set_formatter (dflt : formatter) (f : option formatter) : formatter := match f with Some g => g | None => dflt end.
(** Objects are destroyed in the reverse order of their construction (scopes); the destructor is logtag.cc 65. *)
Definition perform (dflt : formatter) (w : world) (a : act) : res world :=
  match a with
  | SetFormatter f => Ok (mkw (set_formatter dflt f) (w_objects w))
  | Enter f => Ok (mkw f (w_current w :: w_objects w))
  | Leave => match w_objects w with [] => UB | f :: l => Ok (mkw (set_formatter dflt (Some f)) l) end
  end.
(** An object held by pointer may be destroyed at any time: the i-th newest one. *)
Definition destroy (dflt : formatter) (w : world) (i : nat) : res world :=
  match nth_error (w_objects w) i with
  | None => UB
  | Some f => Ok (mkw (set_formatter dflt (Some f)) (firstn i (w_objects w) ++ skipn (S i) (w_objects w)))
  end.
(** logtag.cc 59-63: logtag. *)
Definition logtag (w : world) (s : stream) : stream :=
  let s1 := w_current w s in mkst (st_flags s) (st_prec s) (st_width s) (st_fill s1) (st_text s1).
(** logtag.hh 172-196: LocalTag, written to a stream whose width is zero (no padding). *)
Definition tag_add (tag piece : string) : string := (tag ++ piece)%string.
Definition write_tag (w : world) (tag : string) (s : stream) : stream :=
  let s1 := logtag w s in mkst (st_flags s1) (st_prec s1) (st_width s1) (st_fill s1) (st_text s1 ++ tag)%string.

(** Decimal digits of a number, and output with setw and the fill ' '. *)
Fixpoint digits_fuel (fuel n : nat) : nat := match fuel with O => 1 | S k => if n <? 10 then 1 else S (digits_fuel k (n / 10)) end.
Definition digits (n : nat) : nat := digits_fuel n n.
(** Number of characters of a text of that length written with setw. *)
Definition padded (width len : nat) : nat := Nat.max width len.
(** logtag.cc 88-118: logtagSetupMPI on one rank, with the maxima of MPI_Allreduce over the host names and pids of
    all ranks. *)
Record widths := mkwd { wd_rank : nat; wd_host : nat; wd_pid : nat }.
Definition start_widths : widths := mkwd 1 1 1.
Definition setup (sync : bool) (size : nat) (hosts pids : list nat) (w : widths) : widths :=
  if sync then mkwd (digits (size - 1)) (list_max hosts) (list_max (map digits pids)) else w.
(** logtag.cc 120-200: lengths of the two tags; writeSeconds uses the widths 17 and 12. *)
Definition rank_tag (w : widths) (host rank wall user : nat) : nat :=
  3 + padded (wd_host w) host + 3 + padded (wd_rank w) (digits rank) + 3 + padded 17 wall + 3 + padded 12 user + 2.
Definition pid_tag (w : widths) (host pid wall user : nat) : nat :=
  5 + padded (wd_host w) host + 1 + padded (wd_pid w) (digits pid) + 3 + padded 17 wall + 3 + padded 12 user + 2.
