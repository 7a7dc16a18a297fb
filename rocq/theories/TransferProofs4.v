(** Order of operations and examples. *)
From Verif Require Import TransferModel TransferSpec CommonFacts TransferProofs TransferProofs2 TransferProofs3.
From Coq Require Import Lra.
Local Open Scope R_scope.

Definition replays (p : nat) (l : list nat) : list event := flat_map (fun j => [Fresh p j; Replay p j]) l.
Lemma iterate_tuple_eq next p n : forall i, iterate_tuple next p i n = map (Backup p) (seq i n) ++ next ++ Update p :: replays p (rev (seq i n)).
Proof.
  induction n as [|n IH]; intros i; cbn [iterate_tuple seq map rev app].
  - unfold replays. reflexivity.
  - rewrite IH. unfold replays. rewrite flat_map_app. cbn [flat_map app]. rewrite <- !app_assoc. reflexivity.
Qed.
Lemma before_app_l t s x y : before t x y -> before (t ++ s) x y.
Proof. intros (a & b & c & ->). exists a, b, (c ++ s). rewrite <- !app_assoc. cbn. rewrite <- !app_assoc. reflexivity. Qed.
Lemma before_app_r t s x y : before t x y -> before (s ++ t) x y.
Proof. intros (a & b & c & ->). exists (s ++ a), b, c. rewrite <- !app_assoc. reflexivity. Qed.
Lemma before_split l1 l2 x y : In x l1 -> In y l2 -> before (l1 ++ l2) x y.
Proof.
  intros X Y. apply in_split in X, Y. destruct X as (a & b & ->), Y as (c & d & ->). exists a, (b ++ c), d. rewrite <- !app_assoc. cbn. rewrite <- ?app_assoc. reflexivity.
Qed.
Lemma replays_in p l x : In x (replays p l) <-> exists j, In j l /\ (x = Fresh p j \/ x = Replay p j).
Proof.
  unfold replays. rewrite in_flat_map. split; intros (j & J & H); exists j; (split; [exact J|]); [destruct H as [<-|[<-|[]]]; auto|destruct H as [->| ->]; cbn; auto].
Qed.
Lemma replays_before p l j : In j l -> before (replays p l) (Fresh p j) (Replay p j).
Proof.
  intros J. apply in_split in J. destruct J as (a & b & ->). unfold replays. rewrite flat_map_app. cbn [flat_map]. apply before_app_r, before_app_l. exists [], [], []. reflexivity.
Qed.
Lemma replays_nodup p l : NoDup l -> NoDup (replays p l).
Proof.
  induction 1 as [|j l N H IH]; [constructor|]. change (replays p (j :: l)) with (Fresh p j :: Replay p j :: replays p l). constructor; [|constructor; [|exact IH]].
  - intros [E|I]; [discriminate|]. apply replays_in in I. destruct I as (k & K & [E|E]); congruence.
  - intros I. apply replays_in in I. destruct I as (k & K & [E|E]); congruence.
Qed.
Lemma nodup_parts {A} (l1 l2 : list A) : NoDup l1 -> NoDup l2 -> (forall x, In x l1 -> ~ In x l2) -> NoDup (l1 ++ l2).
Proof.
  induction 1 as [|x l1 N H IH]; intros H2 D; [exact H2|]. cbn. constructor; [|apply IH; [exact H2|intros y Y; apply D; right; exact Y]].
  intros I. apply in_app_or in I. destruct I as [I|I]; [contradiction|]. exact (D x (or_introl eq_refl) I).
Qed.

(** Events of the packs from [p] on *)
Definition part_of (p : nat) (packs : list nat) (x : event) : Prop :=
  match x with
  | Backup q i | Fresh q i | Replay q i => exists n, (p <= q)%nat /\ nth_error packs (q - p) = Some n /\ (i < n)%nat
  | Update q => (p <= q)%nat /\ (q - p < length packs)%nat
  | Adapt => True
  | PreAdapt | PostAdapt => False
  end.
Lemma packs_spec packs : forall p, exists B A, iterate_packs p packs = B ++ Adapt :: A /\ NoDup (B ++ Adapt :: A) /\
  (forall x, In x B -> exists q i, x = Backup q i) /\ (forall x, In x A -> (exists q, x = Update q) \/ (exists q i, x = Fresh q i \/ x = Replay q i)) /\
  (forall x, In x (B ++ Adapt :: A) <-> part_of p packs x) /\
  forall q n i, nth_error packs q = Some n -> (i < n)%nat -> before A (Update (p + q)) (Fresh (p + q) i) /\ before A (Fresh (p + q) i) (Replay (p + q) i).
Proof.
  induction packs as [|n packs IH]; intros p.
  - exists [], []. cbn. split; [reflexivity|]. split; [repeat constructor; intros []|]. split; [intros x []|]. split; [intros x []|]. split.
    + intros x. split; [intros [<-|[]]; exact I|]. destruct x; cbn; try tauto; intros H; try (destruct H as (n & _ & H & _); destruct (_ - _)%nat; discriminate). lia.
    + intros q n i H. destruct q; discriminate.
  - destruct (IH (S p)) as (B & A & E & ND & HB & HA & HI & HO). cbn [iterate_packs]. rewrite iterate_tuple_eq, E.
    assert (GE : forall x, In x (B ++ Adapt :: A) -> match x with Backup q _ | Fresh q _ | Replay q _ | Update q => (p < q)%nat | _ => True end).
    { intros x I. apply HI in I. destruct x; cbn in *; try tauto; try lia; destruct I as (k & I & _); lia. }
    exists (map (Backup p) (seq 0 n) ++ B), (A ++ Update p :: replays p (rev (seq 0 n))).
    split; [rewrite <- !app_assoc; reflexivity|]. split; [|split; [|split; [|split]]].
    + replace ((map (Backup p) (seq 0 n) ++ B) ++ Adapt :: A ++ Update p :: replays p (rev (seq 0 n))) with (map (Backup p) (seq 0 n) ++ (B ++ Adapt :: A) ++ Update p :: replays p (rev (seq 0 n))) by (rewrite <- !app_assoc; reflexivity).
      apply nodup_parts; [|apply nodup_parts; [exact ND| |]|].
      * apply FinFun.Injective_map_NoDup; [intros a b H; congruence|apply seq_NoDup].
      * constructor; [|apply replays_nodup, NoDup_rev, seq_NoDup]. intros I. apply replays_in in I. destruct I as (j & _ & [H|H]); discriminate.
      * intros x I [<-|J]; [apply GE in I; cbn in I; lia|]. apply replays_in in J. apply GE in I. destruct J as (j & _ & [->| ->]); lia.
      * intros x I J. apply in_map_iff in I. destruct I as (j & <- & _). apply in_app_or in J. destruct J as [J|[J|J]]; [apply GE in J; lia|discriminate|].
        apply replays_in in J. destruct J as (k & _ & [J|J]); discriminate.
    + intros x I. apply in_app_or in I. destruct I as [I|I]; [apply in_map_iff in I; destruct I as (j & <- & _); eauto|apply HB, I].
    + intros x I. apply in_app_or in I. destruct I as [I|[<-|I]]; [apply HA, I|eauto|]. apply replays_in in I. destruct I as (j & _ & [->| ->]); eauto.
    + intros x. replace ((map (Backup p) (seq 0 n) ++ B) ++ Adapt :: A ++ Update p :: replays p (rev (seq 0 n))) with (map (Backup p) (seq 0 n) ++ (B ++ Adapt :: A) ++ Update p :: replays p (rev (seq 0 n))) by (rewrite <- !app_assoc; reflexivity).
      rewrite !in_app_iff, in_map_iff. cbn [In]. rewrite replays_in. rewrite <- (in_app_iff B (Adapt :: A)). rewrite (HI x). split.
      * intros [(j & <- & J)|[H|[<-|(j & J & H)]]].
        -- apply in_seq in J. exists n. rewrite Nat.sub_diag. cbn. repeat split; lia.
        -- destruct x as [|q i| |q|q i|q i|]; cbn in *; try tauto; try lia.
           all: destruct H as (k & H1 & H2 & H3); exists k; replace (q - p)%nat with (S (q - S p)) by lia; cbn; repeat split; auto; lia.
        -- cbn. lia.
        -- apply in_rev, in_seq in J. destruct H as [->| ->]; exists n; rewrite Nat.sub_diag; cbn; repeat split; lia.
      * intros H. destruct x as [|q i| |q|q i|q i|]; cbn in H; try tauto.
        -- destruct H as (k & H1 & H2 & H3). destruct (Nat.eq_dec q p) as [->|N].
           ++ rewrite Nat.sub_diag in H2. cbn in H2. injection H2 as ->. left. exists i. split; [reflexivity|]. apply in_seq. lia.
           ++ right. left. exists k. replace (q - p)%nat with (S (q - S p)) in H2 by lia. cbn in H2. repeat split; auto; lia.
        -- destruct (Nat.eq_dec q p) as [->|N]; [auto|]. right. left. cbn. lia.
        -- destruct H as (k & H1 & H2 & H3). destruct (Nat.eq_dec q p) as [->|N].
           ++ rewrite Nat.sub_diag in H2. cbn in H2. injection H2 as ->. right. right. right. exists i. split; [|auto]. apply in_rev. rewrite rev_involutive. apply in_seq. lia.
           ++ right. left. exists k. replace (q - p)%nat with (S (q - S p)) in H2 by lia. cbn in H2. repeat split; auto; lia.
        -- destruct H as (k & H1 & H2 & H3). destruct (Nat.eq_dec q p) as [->|N].
           ++ rewrite Nat.sub_diag in H2. cbn in H2. injection H2 as ->. right. right. right. exists i. split; [|auto]. apply in_rev. rewrite rev_involutive. apply in_seq. lia.
           ++ right. left. exists k. replace (q - p)%nat with (S (q - S p)) in H2 by lia. cbn in H2. repeat split; auto; lia.
    + intros q k i H L. destruct q as [|q].
      * cbn in H. injection H as <-. rewrite Nat.add_0_r. assert (J : In i (rev (seq 0 n))) by (apply in_rev; rewrite rev_involutive; apply in_seq; lia). split; apply before_app_r.
        -- change (Update p :: replays p (rev (seq 0 n))) with ([Update p] ++ replays p (rev (seq 0 n))). apply before_split; [left; reflexivity|]. apply replays_in. eauto.
        -- change (Update p :: replays p (rev (seq 0 n))) with ([Update p] ++ replays p (rev (seq 0 n))). apply before_app_r, replays_before, J.
      * cbn in H. destruct (HO q k i H L) as (H1 & H2). replace (p + S q)%nat with (S p + q)%nat by lia. split; apply before_app_l; assumption.
Qed.

(** ** A piecewise constant function on a hierarchy of bisected cells *)
Definition p0 : fem := mkfem 1 (fun _ => 0%nat) (fun _ => [1%nat])
  (fun c a _ => [((1/2) ^ (length c - length a), [1], [1])]) (fun _ _ => [[1]]) (fun _ _ _ l => [nth 0 l 0]).
Definition old0 : list cell := [[0; 0]; [1; 0]; [1]]%nat.
Definition new0 : list cell := [[0]; [0; 1]; [1; 1]]%nat.
Definition vanish0 (c : cell) : bool := cell_eq c [0; 0]%nat || cell_eq c [1; 0]%nat.
Definition odofs0 (c : cell) : list nat := if cell_eq c [0; 0]%nat then [0%nat] else if cell_eq c [1; 0]%nat then [1%nat] else [2%nat].
Definition ndofs0 (c : cell) : list nat := if cell_eq c [0]%nat then [0%nat] else if cell_eq c [0; 1]%nat then [1%nat] else [2%nat].
Definition u0 (d : nat) : R := if (d <? 2)%nat then 5 else 7.
Definition coef0 (c : cell) : list R := [if (last c 0 =? 0)%nat then 5 else 7].
Definition g0 (d : nat) : R := if (d =? 0)%nat then 5 else 7.
Lemma uniform0 : uniform p0. Proof. split; reflexivity. Qed.
Lemma leaf_set0 : leaf_set old0.
Proof.
  intros a c A C H. apply below_ancestor in H; [|repeat (destruct A as [<-|A]; [discriminate|]); destruct A].
  repeat (destruct A as [<-|A]; [repeat (destruct C as [<-|C]; [vm_compute in H; discriminate|]); destruct C|]). destruct A.
Qed.
Lemma saved0 a : saved old0 vanish0 a -> In a old0 \/ a = [0%nat].
Proof.
  intros (c & C & H). induction H as [|a f H IH V E]; [left; exact C|]. destruct IH as [IH| ->]; [|discriminate].
  repeat (destruct IH as [<-|IH]; [vm_compute in V, E; first [discriminate|injection E as <-; right; reflexivity]|]). destruct IH.
Qed.
Lemma adapted0 : adapted old0 new0 vanish0.
Proof.
  intros e [<-|[<-|[<-|[]]]].
  - right. right. exists [0; 0]%nat. split; [cbn; auto|]. apply (climbs_up _ _ [0; 0]%nat); [constructor|reflexivity|reflexivity].
  - right. left. exists [1%nat]. split; [cbn; auto|]. apply anc_father. reflexivity.
  - right. left. exists [1%nat]. split; [cbn; auto|]. apply anc_father. reflexivity.
Qed.
Lemma last_ancestor a c : ancestor a c -> last a 0%nat = last c 0%nat.
Proof.
  induction 1 as [c f E|c f a E H IH]; apply father_inv in E; destruct E as (x & -> & N); (destruct f as [|y f]; [congruence|]); [reflexivity|exact IH].
Qed.
Lemma represents0 : represents p0 old0 new0 odofs0 vanish0 u0 coef0.
Proof.
  split.
  - reflexivity.
  - intros c [<-|[<-|[<-|[]]]]; reflexivity.
  - intros a c k q SA NA C A K Q. cbn [leaves p0] in K. cbn [quad p0] in Q. destruct Q as [<-|[]]. cbn [fst snd]. split; [destruct k as [|k]; [reflexivity|lia]|].
    split; [destruct k as [|k]; [reflexivity|lia]|]. assert (k = 0%nat) as -> by lia. unfold coefficient, size, first, coef0. cbn. change (match c with [] => 0%nat | _ => last c 0%nat end) with (last c 0%nat).
    rewrite (last_ancestor _ _ A). reflexivity.
  - intros a k SA NA K. destruct (saved0 a SA) as [H| ->]; [contradiction|]. cbn [leaves p0] in K. assert (k = 0%nat) as -> by lia. split; [reflexivity|].
    intros i m I M. unfold size in I, M. cbn in I, M. assert (i = 0%nat) as -> by lia. assert (m = 0%nat) as -> by lia. unfold size. cbn. unfold fine_mass. cbn. lra.
  - intros a e k SA IN A K. cbn [leaves p0] in K. assert (k = 0%nat) as -> by lia. cbn. unfold slice, size, first, coef0. cbn. rewrite (last_ancestor _ _ A). reflexivity.
Qed.
(** Sizes that vary among cells of one geometry type *)
Definition p_varying : fem := mkfem 1 (fun _ => 0%nat) (fun c => if cell_eq c [0%nat] then [2%nat] else [1%nat])
  (fun c a _ => [(1, [1], [1; 0])]) (fun _ _ => [[1; 0]; [0; 1]]) (fun _ _ _ l => [nth 0 l 0]).
