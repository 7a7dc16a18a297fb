(** Lemmas about the shared vocabulary. *)
From Verif Require Import Common.

Lemma upd_length {A} n (x : A) l : length (upd n x l) = length l.
Proof. revert n; induction l as [|h t IH]; intros [|n]; cbn; auto. Qed.

Lemma upd_nth_same {A} n (x d : A) l : n < length l -> nth n (upd n x l) d = x.
Proof.
  revert n; induction l as [|h t IH]; intros [|n] H; cbn in *; try lia; auto.
  apply IH; lia.
Qed.

Lemma upd_nth_other {A} n m (x d : A) l : n <> m -> nth m (upd n x l) d = nth m l d.
Proof.
  revert n m; induction l as [|h t IH]; intros [|n] [|m] H; cbn; auto; try lia.
Qed.

Lemma upd_nth_error_same {A} n (x : A) l : n < length l -> nth_error (upd n x l) n = Some x.
Proof.
  revert n; induction l as [|h t IH]; intros [|n] H; cbn in *; try lia; auto.
  apply IH; lia.
Qed.

Lemma upd_nth_error_other {A} n m (x : A) l : n <> m -> nth_error (upd n x l) m = nth_error l m.
Proof.
  revert n m; induction l as [|h t IH]; intros [|n] [|m] H; cbn; auto; try lia.
Qed.

Lemma upd_app_l {A} n (x : A) l1 l2 : n < length l1 -> upd n x (l1 ++ l2) = upd n x l1 ++ l2.
Proof.
  revert n; induction l1 as [|h t IH]; intros [|n] H; cbn in *; try lia; auto.
  now rewrite IH by lia.
Qed.

Lemma upd_app_r {A} n (x : A) l1 l2 : length l1 <= n -> upd n x (l1 ++ l2) = l1 ++ upd (n - length l1) x l2.
Proof.
  revert n; induction l1 as [|h t IH]; intros n H; cbn in *.
  - now rewrite Nat.sub_0_r.
  - destruct n as [|n]; [lia|]. cbn. now rewrite IH by lia.
Qed.

Lemma sum_nat_app l1 l2 : sum_nat (l1 ++ l2) = sum_nat l1 + sum_nat l2.
Proof. unfold sum_nat; induction l1 as [|x t IH]; cbn; [auto|]. rewrite IH; lia. Qed.

Lemma psums_length acc l : length (psums acc l) = S (length l).
Proof. revert acc; induction l as [|x t IH]; intros acc; cbn; auto. Qed.

Lemma psums_nth acc l k : k <= length l -> nth k (psums acc l) 0 = acc + sum_nat (firstn k l).
Proof.
  revert acc k; induction l as [|x t IH]; intros acc [|k] H; cbn in *; try lia.
  rewrite IH by lia. unfold sum_nat. lia.
Qed.

Lemma bind_ok {A B} (x : res A) (f : A -> res B) b :
  bind x f = Ok b -> exists a, x = Ok a /\ f a = Ok b.
Proof. destruct x; cbn; intros H; try discriminate; eauto. Qed.

Lemma foldM_app {A S} (f : S -> A -> res S) l1 l2 s :
  foldM f (l1 ++ l2) s = let* s' := foldM f l1 s in foldM f l2 s'.
Proof. revert s; induction l1 as [|a t IH]; intros s; cbn; auto. destruct (f s a); cbn; auto. Qed.

(** Invariant rule for folds that may fail. *)
Lemma foldM_inv {A S} (f : S -> A -> res S) (P : list A -> S -> Prop) l s0 :
  P [] s0 ->
  (forall pre a s, P pre s -> In a l -> exists s', f s a = Ok s' /\ P (pre ++ [a]) s') ->
  exists s, foldM f l s0 = Ok s /\ P l s.
Proof.
  intros H0 Hstep.
  assert (G : forall suf pre s, P pre s -> l = pre ++ suf -> exists s', foldM f suf s = Ok s' /\ P l s').
  { induction suf as [|a suf IH]; intros pre s HP El; cbn.
    - exists s. rewrite app_nil_r in El. subst. auto.
    - destruct (Hstep pre a s HP) as (s' & Ef & HP').
      { rewrite El. apply in_or_app; right; left; reflexivity. }
      rewrite Ef; cbn. apply IH with (pre := pre ++ [a]); auto.
      now rewrite <- app_assoc. }
  apply (G l [] s0); auto.
Qed.

(** Case analysis on membership in a literal list. *)
Ltac in_cases H :=
  cbn [In] in H; repeat (match type of H with False => destruct H | _ \/ _ => destruct H as [H|H] end).
