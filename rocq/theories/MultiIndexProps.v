(** Property C01: multi-indices are bounded sequences. *)
From Verif Require Import Common CommonFacts MultiIndexModel MultiIndexSpec MultiIndexProofs.

(** C01: any sequence of modifying calls on a MultiIndex of any capacity, whatever its uninitialised storage holds,
    leaves something that reads like the list the same calls produce; the contract is left exactly when the list
    would outgrow the capacity or an element of the empty list is asked for. *)
Theorem c01_observes_like_list : forall junk ops, args_valid ops ->
  match lrun (length junk) [] ops with
  | Some l => exists m, run junk ops = Ok m /\ observes m l
  | None => run junk ops = UB
  end.
Proof. exact run_spec. Qed.
Print Assumptions c01_observes_like_list.

Example c01_ops : list op :=
  [OPushBack 3; OPushFront 2; OPushFront 1; OJoin (mkmi [7; 8; 9]%N 2); OReverse; OPopBack; OAccFront 5; OPopFront]%N.
Example c01_hyps : args_valid c01_ops.
Proof. intros tl H. unfold c01_ops in H. in_cases H; inversion H; subst. unfold valid; cbn; lia. Qed.
Example c01_list : lrun 5 [] c01_ops = Some [7; 3; 2]%N.
Proof. reflexivity. Qed.
Example c01_run : match run [11; 12; 13; 14; 15]%N c01_ops with
                  | Ok m => (len m, at_ m 0, at_ m 1, at_ m 2, view_at (view_k m 2) 2) = (3, Ok 7%N, Ok 3%N, Ok 2%N, UB)
                  | _ => False end.
Proof. reflexivity. Qed.

(** C01: operator== holds exactly for multi-indices standing for the same list, whatever their histories. *)
Theorem c01_equality_is_list_equality : forall junk junk' ops ops' m m' l l',
  args_valid ops -> args_valid ops' ->
  run junk ops = Ok m -> run junk' ops' = Ok m' ->
  lrun (length junk) [] ops = Some l -> lrun (length junk') [] ops' = Some l' ->
  (eqb m m' = true <-> l = l').
Proof.
  exact (fun junk junk' ops ops' m m' l l' A A' R R' L L' =>
    eqb_spec m m' l l' (run_refines junk ops m l A R L) (run_refines junk' ops' m' l' A' R' L')).
Qed.
Print Assumptions c01_equality_is_list_equality.

Example c01_eq_run :
  match run [0; 0; 0]%N [OPushBack 4; OPushBack 5; OPushBack 6; OPopFront]%N, run [9; 9; 9]%N [OPushFront 6; OPushFront 5]%N with
  | Ok a, Ok b => eqb a b = true /\ slots a <> slots b
  | _, _ => False end.
Proof. split; [reflexivity|discriminate]. Qed.

(** C01: converting to a multi-index of another capacity keeps the sequence when it fits and is a contract violation
    otherwise. *)
Theorem c01_conversion_keeps_sequence : forall junk junk' ops m l,
  args_valid ops -> run junk ops = Ok m -> lrun (length junk) [] ops = Some l ->
  if length l <=? length junk' then exists m', convert junk' m = Ok m' /\ observes m' l
  else convert junk' m = UB.
Proof. exact convert_observes. Qed.
Print Assumptions c01_conversion_keeps_sequence.

(** C01: a multi-index made from a view holds exactly the entries the view exposes, and back_popped drops exactly
    the last of them. *)
Theorem c01_views_are_prefixes : forall junk ops m l k,
  args_valid ops -> run junk ops = Ok m -> lrun (length junk) [] ops = Some l -> k <= length l ->
  (exists m', of_view (view_k m k) = Ok m' /\ observes m' (firstn k l)) /\
  match k with
  | O => back_popped (view_k m k) = UB
  | S k' => exists v m', back_popped (view_k m k) = Ok v /\ of_view v = Ok m' /\ observes m' (removelast (firstn k l))
  end.
Proof. exact views_observe. Qed.
Print Assumptions c01_views_are_prefixes.

(** A view of all entries, the first entry of a view, and a view made shorter or longer. *)
Theorem c01_view_sizes : forall junk ops m l k,
  args_valid ops -> run junk ops = Ok m -> lrun (length junk) [] ops = Some l -> k <= length l ->
  view_all m = view_k m (length l) /\
  (1 <= k -> view_front (view_k m k) = Ok (hd 0%N (firstn k l))) /\
  (forall s, s <= length l -> view_resize (view_k m k) s = Ok (view_k m s)) /\
  (forall s, length l < s -> view_resize (view_k m k) s = UB).
Proof.
  intros junk ops m l k A R L K.
  assert (O : len m = length l /\ front m = match l with [] => UB | x :: _ => Ok x end).
  { pose proof (c01_observes_like_list junk ops A) as O. rewrite L in O. destruct O as (m' & E & O). rewrite R in E.
    injection E as <-. destruct O as (O1 & _ & O2 & _). auto. }
  destruct O as [O1 O2]. unfold view_all, view_k, view_front, view_resize. cbn [vmi vsize]. rewrite O1, O2.
  split; [reflexivity|]. split; [|split].
  - intro H. destruct l; [cbn in K; lia|]. destruct k; [lia|]. reflexivity.
  - intros s Hs. destruct (Nat.leb_spec s (length l)); [reflexivity|lia].
  - intros s Hs. destruct (Nat.leb_spec s (length l)); [lia|reflexivity].
Qed.
Print Assumptions c01_view_sizes.

Example c01_view_run :
  match run [0; 0; 0]%N [OPushBack 4; OPushBack 5; OPushBack 6]%N with
  | Ok m => match back_popped (view_k m 3) with
            | Ok v => match of_view v with Ok m' => (len m', at_ m' 1, at_ m' 2) = (2, Ok 5%N, UB) | _ => False end
            | _ => False end
  | _ => False end.
Proof. reflexivity. Qed.
