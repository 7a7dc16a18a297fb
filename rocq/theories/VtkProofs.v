(** Traversal, names and values of the VTK output. *)
From Coq Require Import Ascii Reals Lra Lia DecimalString Decimal DecimalNat DecimalFacts Sorting.Sorted.
From Verif Require Import CommonFacts VtkModel VtkSpec.

(** *** the traversal *)
Fixpoint comps (t : space) : list (path * space) :=
  match t with
  | SLeaf _ | SVector _ _ _ => [([], t)]
  | SNode _ ts => (fix go ts i := match ts with [] => [] | t :: ts' => map (fun q => (i :: fst q, snd q)) (comps t) ++ go ts' (S i) end) ts 0
  end.
Fixpoint comps_from (ts : list space) (i : nat) : list (path * space) :=
  match ts with [] => [] | t :: ts' => map (fun q => (i :: fst q, snd q)) (comps t) ++ comps_from ts' (S i) end.
Lemma comps_node n ts : comps (SNode n ts) = comps_from ts 0.
Proof. cbn. generalize 0. induction ts as [|t ts IH]; intros i; cbn; [reflexivity|]. now rewrite IH. Qed.
Fixpoint run (g : scheme) (pred : path -> bool) (b : path) (l : list (path * space)) (w : list dataset) : added :=
  match l with
  | [] => (w, false)
  | (q, n) :: l' =>
      match output n with
      | Some (k, f) =>
          if pred (b ++ q) then let '(w, thrown) := add_set g (name_of n) k f (b ++ q) w in
                                if thrown then (w, true) else run g pred b l' w
          else run g pred b l' w
      | None => run g pred b l' w
      end
  end.
Lemma run_app g pred b l1 : forall l2 w, run g pred b (l1 ++ l2) w = let '(w1, th) := run g pred b l1 w in if th then (w1, true) else run g pred b l2 w1.
Proof.
  induction l1 as [|(q, n) l1 IH]; intros l2 w; [reflexivity|]. cbn. destruct (output n) as [(k, f)|]; [|apply IH].
  destruct (pred (b ++ q)); [|apply IH]. destruct (add_set _ _ _ _ _ _) as (w', []); [reflexivity|apply IH].
Qed.
Lemma run_map g pred b i l : forall w, run g pred b (map (fun q => (i :: fst q, snd q)) l) w = run g pred (b ++ [i]) l w.
Proof.
  induction l as [|(q, n) l IH]; intros w; [reflexivity|]. cbn. rewrite <- app_assoc. cbn.
  destruct (output n) as [(k, f)|]; [|apply IH]. destruct (pred (b ++ i :: q)); [|apply IH].
  destruct (add_set _ _ _ _ _ _) as (w', []); [reflexivity|apply IH].
Qed.
Fixpoint space_rect' (P : space -> Prop) (HL : forall l, P (SLeaf l)) (HV : forall n k ls, P (SVector n k ls))
  (HN : forall n ts, Forall P ts -> P (SNode n ts)) (t : space) : P t :=
  match t with
  | SLeaf l => HL l
  | SVector n k ls => HV n k ls
  | SNode n ts => HN n ts ((fix go ts : Forall P ts := match ts with [] => Forall_nil P | t :: ts' => @Forall_cons _ P t ts' (space_rect' P HL HV HN t) (go ts') end) ts)
  end.
Lemma visit_run g pred t : forall p w, visit g pred t p w = run g pred p (comps t) w.
Proof.
  induction t as [l|n k ls|n ts IH] using space_rect'; intros p w.
  - cbn. rewrite app_nil_r. destruct (pred p); [|reflexivity]. now destruct (add_set _ _ _ _ _ _) as (w', []).
  - cbn. rewrite app_nil_r. destruct (pred p); [|reflexivity]. now destruct (add_set _ _ _ _ _ _) as (w', []).
  - rewrite comps_node. cbn [visit]. generalize 0 as i. revert w. induction IH as [|t ts Ht _ IH]; intros w i; [reflexivity|].
    cbn [comps_from]. rewrite run_app, run_map, <- Ht. destruct (visit g pred t (p ++ [i]) w) as (w', []); [reflexivity|]. apply IH.
Qed.
Lemma comps_reach t : forall p n, In (p, n) (comps t) <-> reach t p n /\ output n <> None.
Proof.
  induction t as [l|m k ls|m ts IH] using space_rect'; intros p n.
  - cbn. split; [intros [[= <- <-]|[]]; split; [constructor|discriminate]|]. intros (H & _). inversion H; subst. auto.
  - cbn. split; [intros [[= <- <-]|[]]; split; [constructor|discriminate]|]. intros (H & _). inversion H; subst. auto.
  - rewrite comps_node.
    assert (G : forall i, In (p, n) (comps_from ts i) <-> exists j t q, nth_error ts j = Some t /\ p = (i + j) :: q /\ reach t q n /\ output n <> None).
    { induction IH as [|t ts Ht _ IH]; intros i; cbn [comps_from].
      - split; [intros []|]. intros (j & t & q & H & _). destruct j; discriminate.
      - rewrite in_app_iff, in_map_iff, IH. split.
        + intros [((q, n') & [= <- <-] & H)|(j & t' & q & H & -> & R)].
          * apply Ht in H. exists 0, t, q. rewrite Nat.add_0_r. repeat split; try reflexivity; apply H.
          * exists (S j), t', q. rewrite Nat.add_succ_r. auto.
        + intros ([|j] & t' & q & H & -> & R & O).
          * injection H as <-. left. exists (q, n). rewrite Nat.add_0_r. split; [reflexivity|]. apply Ht. auto.
          * right. exists j, t', q. rewrite Nat.add_succ_r. auto. }
    rewrite G. split.
    + intros (j & t & q & H & -> & R & O). split; [|assumption]. econstructor; eauto.
    + intros (R & O). inversion R; subst; [cbn in O; congruence|]. eauto 8.
Qed.
Definition sorted (l : list (path * space)) : Prop := StronglySorted (fun a b => before (fst a) (fst b)) l.
Lemma comps_sorted t : sorted (comps t).
Proof.
  induction t as [l|m k ls|m ts IH] using space_rect'; try (repeat constructor).
  rewrite comps_node.
  assert (B : forall i p n, In (p, n) (comps_from ts i) -> exists j q, p = j :: q /\ i <= j).
  { clear IH. induction ts as [|t ts IH]; intros i p n; cbn; [intros []|]. rewrite in_app_iff, in_map_iff. intros [((q, n') & [= <- <-] & _)|H]; [eauto|].
    destruct (IH _ _ _ H) as (j & q & -> & L). exists j, q. split; auto. lia. }
  assert (G : forall i, sorted (comps_from ts i)).
  { clear B. induction IH as [|t ts Ht _ IH]; intros i; [constructor|]. cbn [comps_from].
    assert (B : forall i p n, In (p, n) (comps_from ts i) -> exists j q, p = j :: q /\ i <= j).
    { clear. induction ts as [|t ts IH]; intros i p n; cbn; [intros []|]. rewrite in_app_iff, in_map_iff. intros [((q, n') & [= <- <-] & _)|H]; [eauto|].
      destruct (IH _ _ _ H) as (j & q & -> & L). exists j, q. split; auto. lia. }
    induction Ht as [|(q, n) l Hs IHl F]; [apply IH|]. cbn. constructor; [apply IHl|]. rewrite Forall_app. split.
    - apply Forall_map. eapply Forall_impl; [|exact F]. intros a Ha. cbn in *. now constructor.
    - apply Forall_forall. intros (p, n') H. destruct (B _ _ _ H) as (j & q' & -> & L). cbn. constructor. lia. }
  apply G.
Qed.
Lemma before_irrefl p : ~ before p p.
Proof. intros H. remember p as q eqn:E in H at 2. induction H; injection E; intros; subst; [lia|auto]. Qed.
Lemma before_trans p q r : before p q -> before q r -> before p r.
Proof. intros H. revert r. induction H; intros r H'; inversion H'; subst; constructor; auto; lia. Qed.
Lemma name_ok g n p : nameable g n <-> exists s, component_name g (name_of n) p = Ok s.
Proof.
  unfold nameable, component_name. destruct (name_of n); cbn [is_empty].
  - destruct (prefix g), (suffix g); cbn [is_empty andb]; (split; [intros [H|[H|H]]; try congruence; eauto|]); intros (s' & H); try discriminate;
      try (right; left; discriminate); right; right; discriminate.
  - split; [eauto|]. intros _. left. discriminate.
Qed.
Lemma run_spec g pred l : sorted l -> (forall p n, In (p, n) l -> output n <> None) -> forall w w' th, run g pred [] l w = (w', th) ->
  exists done new, w' = w ++ new /\ sorted done /\ Forall2 (fun pn d => describes g (fst pn) (snd pn) d) done new /\
    (th = false -> forall p n, In (p, n) done <-> In (p, n) l /\ pred p = true) /\
    (th = true -> exists p n, In (p, n) l /\ pred p = true /\ ~ nameable g n /\
       forall q m, In (q, m) done <-> (In (q, m) l /\ pred q = true) /\ before q p) /\
    (forall p n, In (p, n) done -> In (p, n) l /\ nameable g n).
Proof.
  induction l as [|(q, n) l IH]; intros Hs Ho w w' th H; cbn in H.
  - injection H as <- <-. exists [], []. rewrite app_nil_r. split; [reflexivity|]. split; [constructor|]. split; [constructor|].
    split; [|split; [discriminate|intros ? ? []]]. intros _ p n. cbn. tauto.
  - inversion Hs as [|? ? Hs' F]; subst. rewrite Forall_forall in F.
    assert (Ho' : forall p n, In (p, n) l -> output n <> None) by (intros; eapply Ho; right; eauto).
    assert (On := Ho q n (or_introl eq_refl)). destruct (output n) as [(k, f)|] eqn:En; [|congruence]. destruct (pred q) eqn:Ep.
    + unfold add_set in H. destruct (component_name g (name_of n) q) as [s| |] eqn:Ec.
      * destruct (IH Hs' Ho' _ _ _ H) as (done & new & -> & Sd & Fd & Hf & Ht & Hi). exists ((q, n) :: done), (mkset s k f :: new).
        split; [now rewrite <- app_assoc|]. split; [constructor; auto; apply Forall_forall; intros (q', n') I; apply F, Hi, I|].
        split; [constructor; [split; cbn; auto|auto]|]. split; [|split].
        -- intros T p m. cbn. rewrite (Hf T). split; [intros [[= <- <-]|[I P]]; auto|]. intros ([[= <- <-]|I] & P); auto.
        -- intros T. destruct (Ht T) as (p & m & I & P & N & A). exists p, m. split; [now right|]. split; [auto|]. split; [auto|].
           intros q' m'. cbn. rewrite A. split.
           ++ intros [[= <- <-]|((I' & P') & B)]; [split; [split; auto|]; exact (F _ I)|auto].
           ++ intros (([[= <- <-]|I'] & P') & B); auto.
        -- intros p m [[= <- <-]|I]; [split; [now left|]; apply (name_ok g n q); eauto|]. split; [right|]; now apply (Hi p m).
      * injection H as <- <-. exists [], []. rewrite app_nil_r. split; [reflexivity|]. split; [constructor|]. split; [constructor|]. split; [discriminate|]. split; [|intros ? ? []].
        intros _. exists q, n. split; [now left|]. split; [auto|]. split; [rewrite (name_ok g n q); intros (s & E); congruence|].
        intros q' m'. split; [intros []|]. intros (([[= <- <-]|I] & _) & B); [now apply before_irrefl in B|].
        apply (before_irrefl q). eapply before_trans; [exact (F _ I)|exact B].
      * unfold component_name in Ec. destruct (is_empty (name_of n)); [|discriminate]. destruct (is_empty (prefix g) && is_empty (suffix g)); discriminate.
    + destruct (IH Hs' Ho' _ _ _ H) as (done & new & -> & Sd & Fd & Hf & Ht & Hi). exists done, new. split; [reflexivity|]. split; [auto|]. split; [auto|]. split; [|split].
      * intros T p m. rewrite (Hf T). cbn. split; [intros [I P]; auto|]. intros ([[= <- <-]|I] & P); [congruence|auto].
      * intros T. destruct (Ht T) as (p & m & I & P & N & A). exists p, m. split; [now right|]. split; [auto|]. split; [auto|].
        intros q' m'. rewrite A. cbn. split; [intuition|]. intros (([[= <- <-]|I'] & P') & B); auto. congruence.
      * intros p m I. split; [right|]; now apply (Hi p m).
Qed.
