(** Model of MultiIndex (dune/pdelab/common/multiindex.hh) on top of Dune::ReservedVector<T,n>.

    ReservedVector itself belongs to dune-common and is not in /repo; it is modelled as what it is: [n] slots of
    storage and a fill level.  Slots beyond the fill level keep whatever was last written there, so that
    operations that forget to respect the fill level show up.  T is std::size_t: entries are numbers below 2^64
    and accumulation wraps around. *)
From Verif Require Import Common.

Record mi := mkmi { slots : list N; len : nat }.

Definition cap (m : mi) : nat := length (slots m).

(** ReservedVector(): multiindex.hh 152-153.  [junk] is the unspecified initial content of the storage. *)
Definition mi_new (junk : list N) : mi := mkmi junk 0.

(** ReservedVector::clear, resize, push_back, pop_back, operator[], front, back (dune-common; used at multiindex.hh
    160, 177, 188-189, 207, 218-221, 237, 248, 262, 268, 275).  Their size checks are assertions: UB when violated. *)
Definition clear (m : mi) : mi := mkmi (slots m) 0.
Definition resize (m : mi) (s : nat) : res mi :=
  if s <=? cap m then Ok (mkmi (slots m) s) else UB.
Definition push_back (m : mi) (x : N) : res mi :=
  if len m <? cap m then Ok (mkmi (upd (len m) x (slots m)) (S (len m))) else UB.
Definition pop_back (m : mi) : res mi :=
  match len m with O => UB | S k => Ok (mkmi (slots m) k) end.
Definition at_ (m : mi) (i : nat) : res N :=
  if i <? len m then match nth_error (slots m) i with Some x => Ok x | None => UB end else UB.
Definition front (m : mi) : res N := at_ m 0.
Definition back (m : mi) : res N :=
  match len m with O => UB | S k => at_ m k end.

(** std::copy_backward over the storage, [k] elements starting at slot 0, destination shifted by one. *)
Fixpoint shift_right (k : nat) (sl : list N) : list N :=
  match k with
  | O => sl
  | S k' => shift_right k' (upd (S k') (nth k' sl 0%N) sl)
  end.

(** std::copy over the storage: slot [from+i] is copied to slot [to+i], ascending, for i < k. *)
Fixpoint copy_fwd (k from to : nat) (sl : list N) : list N :=
  match k with
  | O => sl
  | S k' => copy_fwd k' (S from) (S to) (upd to (nth from sl 0%N) sl)
  end.

(** std::copy of a foreign range into the storage starting at slot [to]. *)
Fixpoint write_range (xs : list N) (to : nat) (sl : list N) : list N :=
  match xs with
  | [] => sl
  | x :: xs' => write_range xs' (S to) (upd to x sl)
  end.

(** MultiIndex::set: multiindex.hh 195-199. *)
Definition set_ (m : mi) (x : N) : res mi := push_back (clear m) x.

(** MultiIndex::push_front: multiindex.hh 228-234. *)
Definition push_front (m : mi) (x : N) : res mi :=
  let sz := len m + 1 in
  let* m1 := resize m sz in
  Ok (mkmi (upd 0 x (shift_right (sz - 1) (slots m1))) sz).

(** MultiIndex::pop_front: multiindex.hh 251-258. *)
Definition pop_front (m : mi) : res mi :=
  let sz := len m in
  if sz =? 0 then UB else
  let sl := if 1 <? sz then copy_fwd (sz - 1) 1 0 (slots m) else slots m in
  resize (mkmi sl sz) (sz - 1).

(** accumulate_back, accumulate_front: multiindex.hh 268-277. *)
Definition accumulate_back (m : mi) (t : N) : res mi :=
  let* b := back m in
  Ok (mkmi (upd (len m - 1) ((b + t) mod 2 ^ 64)%N (slots m)) (len m)).
Definition accumulate_front (m : mi) (t : N) : res mi :=
  let* b := front m in
  Ok (mkmi (upd 0 ((b + t) mod 2 ^ 64)%N (slots m)) (len m)).

(** begin()..end() of a multi-index: the first [len] slots. *)
Definition range (m : mi) : list N := firstn (len m) (slots m).

(** join: multiindex.hh 280-286 (the assertion is UB when it fails). *)
Definition join (head tail : mi) : res mi :=
  if len head + len tail <=? cap head then
    let head_size := len head in
    let* h := resize head (len head + len tail) in
    Ok (mkmi (write_range (range tail) head_size (slots h)) (len h))
  else UB.

(** std::reverse over the first [sz] slots: swap slot i with slot sz-1-i for i < sz/2. *)
Definition swap (i j : nat) (sl : list N) : list N :=
  let a := nth i sl 0%N in let b := nth j sl 0%N in upd j a (upd i b sl).
Definition reverse_slots (sz : nat) (sl : list N) : list N :=
  fold_left (fun s i => swap i (sz - 1 - i) s) (seq 0 (sz / 2)) sl.

(** reverse: multiindex.hh 289-293. *)
Definition reverse (m : mi) : mi :=
  if 1 <? cap m then mkmi (reverse_slots (len m) (slots m)) (len m) else m.

(** operator==: multiindex.hh 324-329 (std::equal compares [size] elements of both ranges). *)
Fixpoint equal_range (k i : nat) (a b : list N) : bool :=
  match k with
  | O => true
  | S k' => N.eqb (nth i a 0%N) (nth i b 0%N) && equal_range k' (S i) a b
  end.
Definition eqb (a b : mi) : bool :=
  (len a =? len b) && equal_range (len a) 0 (slots a) (slots b).

(** hash_value: multiindex.hh 350-353.  [h] is Dune::hash_range, a function of the iterated values. *)
Definition hash_value (h : list N -> N) (m : mi) : N := h (range m).

(** MultiIndex(const MultiIndex<T,_n>&) for another capacity: multiindex.hh 168-175.  The loop runs over
    min(n,_n) slots, regardless of the size; element access is unchecked storage access. *)
Definition convert (junk : list N) (rv : mi) : res mi :=
  if len rv <=? length junk then
    let* m := resize (mi_new junk) (len rv) in
    Ok (mkmi (fold_left (fun sl i => upd i (nth i (slots rv) 0%N) sl) (seq 0 (Nat.min (length junk) (cap rv))) (slots m))
             (len m))
  else UB.

(** MultiIndex::View: multiindex.hh 41-150; view(), view(size): 309-317. *)
Record view := mkview { vmi : mi; vsize : nat }.
Definition view_all (m : mi) : view := mkview m (len m).
Definition view_k (m : mi) (k : nat) : view := mkview m k.
Definition view_at (v : view) (i : nat) : res N :=
  if i <? vsize v then at_ (vmi v) i else UB.
Definition view_front (v : view) : res N := front (vmi v).
Definition view_back (v : view) : res N :=
  match vsize v with O => UB | S k => at_ (vmi v) k end.
Definition view_resize (v : view) (s : nat) : res view :=
  if s <=? len (vmi v) then Ok (mkview (vmi v) s) else UB.
Definition back_popped (v : view) : res view :=
  match vsize v with O => UB | S k => Ok (mkview (vmi v) k) end.
(** MultiIndex(const View&): multiindex.hh 155-159. *)
Definition of_view (v : view) : res mi := resize (vmi v) (vsize v).

(** A client program: modifying calls on one multi-index.  The argument of join is an arbitrary multi-index. *)
Inductive op :=
| OPushBack (x : N) | OPushFront (x : N) | OPopBack | OPopFront | OSet (x : N) | OClear
| OAccBack (t : N) | OAccFront (t : N) | OJoin (tail : mi) | OReverse.

Definition step (m : mi) (o : op) : res mi :=
  match o with
  | OPushBack x => push_back m x
  | OPushFront x => push_front m x
  | OPopBack => pop_back m
  | OPopFront => pop_front m
  | OSet x => set_ m x
  | OClear => Ok (clear m)
  | OAccBack t => accumulate_back m t
  | OAccFront t => accumulate_front m t
  | OJoin tl => join m tl
  | OReverse => Ok (reverse m)
  end.

Definition run (junk : list N) (ops : list op) : res mi := foldM step ops (mi_new junk).
