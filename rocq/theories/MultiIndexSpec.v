(** What a client expects: a sequence of at most [n] numbers.  [None] means the call leaves the contract
    (capacity exceeded, or an element of the empty sequence asked for). *)
From Verif Require Import Common MultiIndexModel.

(** The sequence a multi-index passed as an argument stands for. *)
Definition valid (m : mi) : Prop := len m <= length (slots m).
Definition seq_of (m : mi) : list N := firstn (len m) (slots m).

Definition acc (t x : N) : N := ((x + t) mod 18446744073709551616)%N.

Definition lstep (n : nat) (l : list N) (o : op) : option (list N) :=
  let fits l' := if length l' <=? n then Some l' else None in
  match o with
  | OPushBack x => fits (l ++ [x])
  | OPushFront x => fits (x :: l)
  | OPopBack => match l with [] => None | _ => Some (removelast l) end
  | OPopFront => match l with [] => None | _ :: t => Some t end
  | OSet x => fits [x]
  | OClear => Some []
  | OAccBack t => match l with [] => None | _ => Some (removelast l ++ [acc t (last l 0%N)]) end
  | OAccFront t => match l with [] => None | x :: r => Some (acc t x :: r) end
  | OJoin tl => fits (l ++ seq_of tl)
  | OReverse => Some (rev l)
  end.

Fixpoint lrun (n : nat) (l : list N) (ops : list op) : option (list N) :=
  match ops with
  | [] => Some l
  | o :: r => match lstep n l o with Some l' => lrun n l' r | None => None end
  end.

Definition args_valid (ops : list op) : Prop := forall tl, In (OJoin tl) ops -> valid tl.

(** Everything a client can read from [m] agrees with the list [l]. *)
Definition observes (m : mi) (l : list N) : Prop :=
  len m = length l /\
  (forall i, at_ m i = match nth_error l i with Some x => Ok x | None => UB end) /\
  front m = match l with [] => UB | x :: _ => Ok x end /\
  back m = match l with [] => UB | _ => Ok (last l 0%N) end /\
  (forall k i, k <= length l ->
     view_at (view_k m k) i = match nth_error (firstn k l) i with Some x => Ok x | None => UB end) /\
  (forall k, k <= length l -> view_back (view_k m k) = match k with O => UB | _ => Ok (last (firstn k l) 0%N) end) /\
  (forall h, hash_value h m = h l).
