(** Proofs about composed grid functions. *)
From Verif Require Import Common CommonFacts CdModel CdSpec CdProofs FlowProofs TpProofs GfModel GfSpec.
From Coq Require Import Reals Lra Lia.
Open Scope R_scope.
Local Arguments rsum : simpl never.

Lemma gf_ind' (P : gf -> Prop) :
  (forall d l, P (GLeaf d l)) -> (forall a b, P a -> P b -> P (GProduct a b)) -> (forall a b, P a -> P b -> P (GMinus a b)) ->
  (forall a b, P a -> P b -> P (GDivision a b)) -> (forall a, P a -> P (GSqr a)) -> (forall a, P a -> P (GSqrt a)) -> (forall a, P a -> P (GInverse a)) ->
  (forall q a, P a -> P (GScaled q a)) -> (forall r a, P a -> P (GSelect r a)) -> (forall a l, P a -> Forall P l -> P (GPointSum a l)) ->
  (forall q a, P a -> P (GPointScale q a)) -> forall g, P g.
Proof.
  intros HL HP HM HD H1 H2 H3 H4 H5 H6 H7. fix IH 1. intros g. destruct g; try now (apply HL || apply HP || apply HM || apply HD || apply H1 || apply H2 || apply H3 || apply H4 || apply H5 || apply H7).
  apply H6; [apply IH|]. induction l; constructor; [apply IH|exact IHl].
Qed.

Lemma table_length d y : length (table d y) = d. Proof. unfold table. now rewrite map_length, seq_length. Qed.
Lemma table_nth d y k : (k < d)%nat -> nth k (table d y) 0 = y k.
Proof. intros H. unfold table. rewrite nth_indep with (d' := y 0%nat) by now rewrite map_length, seq_length. rewrite map_nth. now rewrite seq_nth. Qed.
Lemma zip_length op u : forall v, length u = length v -> length (zip op u v) = length u.
Proof. induction u; destruct v; cbn; intros; try easy. f_equal. apply IHu. lia. Qed.
Lemma zip_nth op u : forall v k, length u = length v -> (k < length u)%nat -> nth k (zip op u v) 0 = op (nth k u 0) (nth k v 0).
Proof. induction u; destruct v; cbn; intros k HL Hk; try lia. destruct k; [easy|]. apply IHu; lia. Qed.
Lemma total_rsum u : total u = rsum (length u) (fun k => nth k u 0).
Proof.
  induction u as [|a u]; [reflexivity|]. cbn [total fold_right length]. fold (total u). rewrite IHu. clear IHu. generalize (length u). intros n.
  transitivity (a + rsum n (fun k => nth (S k) (a :: u) 0)); [reflexivity|]. induction n; [unfold rsum; cbn; ring|]. rewrite (rsum_S n), (rsum_S (S n)), <- IHn. ring.
Qed.
Lemma map_nth0 (f : R -> R) u k : (k < length u)%nat -> nth k (map f u) 0 = f (nth k u 0).
Proof. intros H. rewrite nth_indep with (d' := f 0) by now rewrite map_length. apply map_nth. Qed.
Lemma dot_total n y1 y2 u v : length u = n -> length v = n -> (forall k, (k < n)%nat -> y1 k = nth k u 0) -> (forall k, (k < n)%nat -> y2 k = nth k v 0) ->
  dot n y1 y2 = total (zip Rmult u v).
Proof.
  intros Hu Hv H1 H2. rewrite dot_sum, total_rsum, zip_length by lia. unfold inner. rewrite Hu. apply rsum_ext. intros k Hk. rewrite zip_nth by lia. now rewrite H1, H2.
Qed.

(** Reading fits a value list. *)
Definition fits (y : vec) (u : list R) : Prop := forall k, (k < length u)%nat -> y k = nth k u 0.

Lemma select_nth (u : list R) : forall remap v, map (nth_error u) remap = map Some v -> length v = length remap /\
  forall k, (k < length remap)%nat -> (nth k remap 0 < length u)%nat /\ nth (nth k remap 0%nat) u 0 = nth k v 0.
Proof.
  induction remap as [|r remap]; intros [|q v]; cbn; intros H; try easy. injection H as H1 H2. destruct (IHremap v H2) as [A B]. split; [lia|].
  intros [|k] Hk; [|apply B; lia]. split; [apply nth_error_Some; congruence|]. now apply nth_error_nth.
Qed.

Lemma dims_of l1 : forall l2 n, forallb (fun b => match dim b with Some m => (m =? n)%nat | None => false end) (l1 ++ l2) =
  forallb (fun b => match dim b with Some m => (m =? n)%nat | None => false end) l1 && forallb (fun b => match dim b with Some m => (m =? n)%nat | None => false end) l2.
Proof. intros. apply forallb_app. Qed.

(** The loop of the sum *)
Fixpoint values (s : store) (e : nat) (x : vec) (l : list gf) : res (list vec) :=
  match l with [] => Ok [] | b :: l => let* y := evaluate s b e x in let* ys := values s e x l in Ok (y :: ys) end.
Lemma evaluate_sum s a l e x : evaluate s (GPointSum a l) e x = let* y0 := evaluate s a e x in let* ys := values s e x l in
  Ok (fun k => fold_left (fun out (y : vec) => out + y k) (y0 :: ys) 0).
Proof. cbn [evaluate]. destruct (evaluate s a e x); cbn [bind]; try easy. f_equal. induction l; cbn; [easy|]. destruct (evaluate s a1 e x); cbn; try easy. now rewrite IHl. Qed.
Lemma values_app s e x l1 l2 : values s e x (l1 ++ l2) = let* y1 := values s e x l1 in let* y2 := values s e x l2 in Ok (y1 ++ y2).
Proof.
  induction l1; cbn; [now destruct (values s e x l2)|]. destruct (evaluate s a e x); cbn; try easy. rewrite IHl1. destruct (values s e x l1); cbn; try easy. now destruct (values s e x l2).
Qed.

(** The evaluation computes the meaning. *)
Lemma evaluate_means clock s e x g v : means clock e x g v -> (forall c, reads g c -> s c = Some (clock c)) ->
  dim g = Some (length v) /\ exists y, evaluate s g e x = Ok y /\ fits y v.
Proof.
  assert (R1 : forall (p : gf -> gf), (forall q a, part_of q a -> part_of q (p a)) -> forall a, (forall c, reads (p a) c -> s c = Some (clock c)) -> forall c, reads a c -> s c = Some (clock c)).
  { intros p Hp a H c (d & f & Hc). apply H. exists d, f. now apply Hp. }
  intros M. induction M; intros HS.
  - split; [now rewrite table_length|]. eexists. split; [reflexivity|]. intros k Hk. rewrite table_length in Hk. now rewrite table_nth.
  - split; [now rewrite table_length|]. eexists. split; [reflexivity|]. intros k Hk. rewrite table_length in Hk. now rewrite table_nth.
  - split; [now rewrite table_length|]. eexists. split; [cbn; rewrite (HS c); [reflexivity|]|].
    + exists d, f. constructor.
    + intros k Hk. rewrite table_length in Hk. now rewrite table_nth.
  - destruct IHM1 as (D1 & y1 & E1 & F1). { apply (R1 (fun a => GProduct a b)); [intros; now constructor|easy]. }
    destruct IHM2 as (D2 & y2 & E2 & F2). { apply (R1 (fun b => GProduct a b)); [intros; now constructor|easy]. }
    assert (DT : dot (length u) y1 y2 = total (zip Rmult u v)) by (apply dot_total; [easy|lia|easy|intros; apply F2; lia]).
    cbn [dim evaluate length]. rewrite D1, D2, E1, E2. cbn [bind]. rewrite <- H. rewrite Nat.eqb_refl.
    split; [destruct (length u) as [|[|]]; reflexivity|].
    exists (fun _ => dot (length u) y1 y2). split; [destruct (length u) as [|[|]]; reflexivity|]. intros k Hk. cbn in Hk. assert (k = 0)%nat as -> by lia. exact DT.
  - destruct IHM1 as (D1 & y1 & E1 & F1). { apply (R1 (fun a => GProduct a b)); [intros; now constructor|easy]. }
    destruct IHM2 as (D2 & y2 & E2 & F2). { apply (R1 (fun b => GProduct a b)); [intros; now constructor|easy]. }
    cbn [dim evaluate]. rewrite D1, D2, E1, E2. cbn [bind length]. rewrite map_length. split; [reflexivity|].
    exists (fun k => y2 k * y1 0%nat). split; [destruct (length v) as [|[|]]; (reflexivity || lia)|].
    intros k Hk. rewrite map_length in Hk. rewrite map_nth0 by easy. rewrite F2 by easy. rewrite (F1 0%nat) by (cbn; lia). cbn. ring.
  - destruct IHM1 as (D1 & y1 & E1 & F1). { apply (R1 (fun a => GProduct a b)); [intros; now constructor|easy]. }
    destruct IHM2 as (D2 & y2 & E2 & F2). { apply (R1 (fun b => GProduct a b)); [intros; now constructor|easy]. }
    cbn [dim evaluate]. rewrite D1, D2, E1, E2. cbn [bind length]. rewrite map_length. split; [destruct (length u) as [|[|]]; reflexivity|].
    exists (fun k => y1 k * y2 0%nat). split; [destruct (length u) as [|[|]]; (reflexivity || lia)|].
    intros k Hk. rewrite map_length in Hk. rewrite map_nth0 by easy. rewrite F1 by easy. rewrite (F2 0%nat) by (cbn; lia). cbn. ring.
  - destruct IHM1 as (D1 & y1 & E1 & F1). { apply (R1 (fun a => GMinus a b)); [intros; now constructor|easy]. }
    destruct IHM2 as (D2 & y2 & E2 & F2). { apply (R1 (fun b => GMinus a b)); [intros; now constructor|easy]. }
    cbn [dim evaluate]. rewrite D1, D2, E1, E2. cbn [bind]. rewrite <- H, Nat.eqb_refl, zip_length by easy. split; [easy|]. eexists. split; [reflexivity|].
    intros k Hk. rewrite zip_length in Hk by easy. rewrite zip_nth by easy. rewrite F1, F2 by lia. reflexivity.
  - destruct IHM1 as (D1 & y1 & E1 & F1). { apply (R1 (fun a => GDivision a b)); [intros; now constructor|easy]. }
    destruct IHM2 as (D2 & y2 & E2 & F2). { apply (R1 (fun b => GDivision a b)); [intros; now constructor|easy]. }
    cbn [dim evaluate]. rewrite D1, D2, E1, E2. cbn [bind length]. rewrite map_length. split; [easy|]. eexists. split; [reflexivity|].
    intros k Hk. rewrite map_length in Hk. rewrite map_nth0 by easy. cbn beta. rewrite F1 by easy. rewrite (F2 0%nat) by (cbn; lia). reflexivity.
  - destruct IHM as (D1 & y1 & E1 & F1). { apply (R1 GSqr); [intros; now constructor|easy]. }
    cbn [dim evaluate]. rewrite D1, E1. cbn [bind length]. split; [easy|]. eexists. split; [reflexivity|].
    intros k Hk. cbn in Hk. assert (k = 0)%nat as -> by lia. cbn [nth]. rewrite (dot_total _ y1 y1 u u) by easy. f_equal. clear. induction u; cbn; [easy|]. rewrite IHu. f_equal. ring.
  - destruct IHM as (D1 & y1 & E1 & F1). { apply (R1 GSqrt); [intros; now constructor|easy]. }
    cbn [dim evaluate]. rewrite D1, E1. cbn [bind length]. split; [easy|]. eexists. split; [reflexivity|].
    intros k Hk. cbn in Hk. assert (k = 0)%nat as -> by lia. cbn. f_equal. now apply (F1 0%nat).
  - destruct IHM as (D1 & y1 & E1 & F1). { apply (R1 GInverse); [intros; now constructor|easy]. }
    cbn [dim evaluate]. rewrite D1, E1. cbn [bind length]. split; [easy|]. eexists. split; [reflexivity|].
    intros k Hk. cbn in Hk. assert (k = 0)%nat as -> by lia. cbn. rewrite (F1 0%nat) by (cbn; lia). cbn. unfold Rdiv. ring.
  - destruct IHM as (D1 & y1 & E1 & F1). { apply (R1 (GScaled q)); [intros; now constructor|easy]. }
    cbn [dim evaluate]. rewrite D1, E1. cbn [bind]. rewrite map_length. split; [easy|]. eexists. split; [reflexivity|].
    intros k Hk. rewrite map_length in Hk. rewrite map_nth0 by easy. rewrite F1 by easy. ring.
  - destruct IHM as (D1 & y1 & E1 & F1). { apply (R1 (GSelect remap)); [intros; now constructor|easy]. }
    destruct (select_nth u remap v H) as [L B]. cbn [dim evaluate]. rewrite D1, E1. cbn [bind]. split; [congruence|]. eexists. split; [reflexivity|].
    intros k Hk. destruct (B k) as [B1 B2]; [lia|]. now rewrite <- B2, F1.
  - destruct IHM as (D1 & y1 & E1 & F1). { apply (R1 (fun a => GPointSum a [])); [intros; now constructor|easy]. }
    cbn [dim evaluate forallb]. rewrite D1, E1. cbn [bind]. split; [easy|]. eexists. split; [reflexivity|]. intros k Hk. cbn. rewrite <- F1 by easy. ring.
  - destruct IHM1 as (D1 & y1 & E1 & F1). { intros c (d & f & Hc). apply HS. exists d, f. inversion Hc; subst; [now constructor|]. eapply InSums; [apply in_or_app; left; eassumption|easy]. }
    destruct IHM2 as (D2 & y2 & E2 & F2). { intros c (d & f & Hc). apply HS. exists d, f. eapply InSums; [|exact Hc]. apply in_or_app. right. now left. }
    rewrite zip_length by easy. split.
    + cbn [dim] in *. destruct (dim a) as [n|]; [|easy]. rewrite dims_of. destruct (forallb _ l) eqn:El; [|easy]. cbn [forallb andb]. rewrite D2. injection D1 as ->. rewrite H, Nat.eqb_refl. reflexivity.
    + rewrite evaluate_sum in *. destruct (evaluate s a e x) as [y0| |]; [|easy|easy]. cbn [bind] in *. rewrite values_app. destruct (values s e x l) as [ys| |]; [|easy|easy]. cbn [bind values] in *.
      rewrite E2. cbn [bind]. eexists. split; [reflexivity|]. intros k Hk. rewrite zip_length in Hk by easy. rewrite zip_nth by easy. rewrite app_comm_cons, fold_left_app. cbn [fold_left].
      injection E1 as E1. rewrite <- F1, <- F2 by lia. rewrite <- E1. reflexivity.
  - destruct IHM as (D1 & y1 & E1 & F1). { apply (R1 (GPointScale q)); [intros; now constructor|easy]. }
    cbn [dim evaluate]. rewrite D1, E1. cbn [bind]. rewrite map_length. split; [easy|]. eexists. split; [reflexivity|].
    intros k Hk. rewrite map_length in Hk. rewrite map_nth0 by easy. rewrite F1 by easy. ring.
Qed.

(** Every function that compiles and selects existing components means something. *)
Lemma len1 (u : list R) : length u = 1%nat -> exists r, u = [r].
Proof. destruct u as [|r [|]]; cbn; intros; try lia. now exists r. Qed.
Lemma select_some (u : list R) remap : Forall (fun c => (c < length u)%nat) remap -> map (nth_error u) remap = map Some (map (fun c => nth c u 0) remap).
Proof. intros H. induction H; [easy|]. cbn. f_equal; [|easy]. now apply nth_error_nth'. Qed.
Lemma fit_sub p g : part_of p g -> selections_fit g -> selections_fit p.
Proof.
  assert (T : forall g, part_of p g -> forall q, part_of q p -> part_of q g).
  { intros h H. induction H; intros q' Hq; try easy; try (constructor; now auto). eapply InSums; eauto. }
  intros H F remap a n Hp. apply F. eapply T; eauto.
Qed.
Ltac sub F := eapply fit_sub; [|exact F]; auto using Self, InProductL, InProductR, InMinusL, InMinusR, InDivisionL, InDivisionR, InSqr, InSqrt, InInverse, InScaled, InSelect, InSum, InPointScale.
Lemma means_exists clock e x g : forall n, dim g = Some n -> selections_fit g -> exists v, means clock e x g v /\ length v = n.
Proof.
  induction g using gf_ind'; intros n D F.
  - injection D as ->. destruct l; eexists; (split; [constructor|apply table_length]).
  - cbn in D. destruct (dim g1) as [n1|] eqn:D1; [|easy]. destruct (dim g2) as [n2|] eqn:D2; [|now destruct n1 as [|[|]]].
    destruct (IHg1 n1 eq_refl) as (u & Mu & Lu); [sub F|]. destruct (IHg2 n2 eq_refl) as (v & Mv & Lv); [sub F|].
    destruct (Nat.eq_dec n1 n2) as [E|N].
    + exists [total (zip Rmult u v)]. split; [constructor; try easy; lia|]. rewrite E in D. rewrite (proj2 (Nat.eqb_eq n2 n2) eq_refl) in D. destruct n2 as [|[|]]; cbn; congruence.
    + destruct (Nat.eq_dec n1 1) as [->|N1].
      * injection D as <-. destruct (len1 u Lu) as [r ->]. eexists. split; [apply MProductL; [exact Mu|exact Mv|lia]|]. now rewrite map_length.
      * destruct (Nat.eq_dec n2 1) as [->|N2].
        -- destruct (len1 v Lv) as [r ->]. exists (map (Rmult r) u). split; [apply MProductR; [exact Mu|exact Mv|lia]|]. rewrite map_length, Lu. destruct n1 as [|[|]]; cbn in D; congruence.
        -- exfalso. apply Nat.eqb_neq in N. destruct n1 as [|[|]]; [| lia |]; destruct n2 as [|[|]]; try lia; try (cbn in D; discriminate); rewrite N in D; discriminate.
  - cbn in D. destruct (dim g1) as [n1|] eqn:D1; [|easy]. destruct (dim g2) as [n2|] eqn:D2; [|easy]. destruct (Nat.eqb_spec n1 n2); [|easy]. injection D as <-. subst n2.
    destruct (IHg1 n1 eq_refl) as (u & Mu & Lu); [sub F|]. destruct (IHg2 n1 eq_refl) as (v & Mv & Lv); [sub F|].
    eexists. split; [constructor; [exact Mu|exact Mv|lia]|]. rewrite zip_length; lia.
  - cbn in D. destruct (dim g1) as [n1|] eqn:D1; [|easy]. destruct (dim g2) as [[|[|]]|] eqn:D2; try easy. injection D as <-.
    destruct (IHg1 n1 eq_refl) as (u & Mu & Lu); [sub F|]. destruct (IHg2 1%nat eq_refl) as (v & Mv & Lv); [sub F|].
    destruct (len1 v Lv) as [r ->]. eexists. split; [constructor; [exact Mu|exact Mv]|]. now rewrite map_length.
  - cbn in D. destruct (dim g) as [n1|] eqn:D1; [|easy]. injection D as <-. destruct (IHg n1 eq_refl) as (u & Mu & Lu); [sub F|].
    eexists. split; [constructor; exact Mu|reflexivity].
  - cbn in D. destruct (dim g) as [[|[|]]|] eqn:D1; try easy. injection D as <-. destruct (IHg 1%nat eq_refl) as (u & Mu & Lu); [sub F|].
    destruct (len1 u Lu) as [r ->]. eexists. split; [constructor; exact Mu|reflexivity].
  - cbn in D. destruct (dim g) as [[|[|]]|] eqn:D1; try easy. injection D as <-. destruct (IHg 1%nat eq_refl) as (u & Mu & Lu); [sub F|].
    destruct (len1 u Lu) as [r ->]. eexists. split; [constructor; exact Mu|reflexivity].
  - cbn in D. destruct (IHg n D) as (u & Mu & Lu); [sub F|]. eexists. split; [constructor; exact Mu|now rewrite map_length].
  - cbn in D. destruct (dim g) as [n1|] eqn:D1; [|easy]. injection D as <-. destruct (IHg n1 eq_refl) as (u & Mu & Lu); [sub F|].
    exists (map (fun c => nth c u 0) r). split; [|now rewrite map_length]. apply MSelect with u; [easy|]. apply select_some. rewrite Lu. apply (F r g); [constructor|easy].
  - cbn in D. destruct (dim g) as [n1|] eqn:D1; [|easy]. destruct (forallb _ l) eqn:Fl; [|easy]. injection D as <-.
    destruct (IHg n1 eq_refl) as (u & Mu & Lu); [sub F|].
    assert (FL : forall b, In b l -> exists v, means clock e x b v /\ length v = n1).
    { intros b Hb. rewrite forallb_forall in Fl. specialize (Fl b Hb). destruct (dim b) as [m|] eqn:Db; [|easy]. apply Nat.eqb_eq in Fl. subst m.
      rewrite Forall_forall in H. apply (H b Hb n1 Db). eapply fit_sub; [|exact F]. eapply InSums; [exact Hb|constructor]. }
    clear - Mu Lu FL. induction l as [|b l IH] using rev_ind; [exists u; split; [now constructor|easy]|].
    destruct IH as (w & Mw & Lw); [intros b' Hb'; apply FL, in_or_app; now left|]. destruct (FL b) as (v & Mv & Lv); [apply in_or_app; right; now left|].
    exists (zip Rplus w v). split; [constructor; try easy; lia|]. rewrite zip_length; lia.
  - cbn in D. destruct (IHg n D) as (u & Mu & Lu); [sub F|]. eexists. split; [constructor; exact Mu|now rewrite map_length].
Qed.
Lemma zip_det op u v u' v' : u = u' -> v = v' -> zip op u v = zip op u' v'. Proof. now intros -> ->. Qed.

(** The time variables of a function *)
Fixpoint cells (g : gf) : list nat :=
  match g with
  | GLeaf _ (Timed c _) => [c] | GLeaf _ _ => []
  | GProduct a b | GMinus a b | GDivision a b => cells a ++ cells b
  | GSqr a | GSqrt a | GInverse a | GScaled _ a | GSelect _ a | GPointScale _ a => cells a
  | GPointSum a l => cells a ++ flat_map cells l
  end.
Lemma cells_reads g c : reads g c <-> In c (cells g).
Proof.
  split.
  - intros (d & f & P). remember (GLeaf d (Timed c f)) as q. induction P; subst; cbn; auto; try (apply in_or_app; auto; fail).
    apply in_or_app. right. apply in_flat_map. eauto.
  - revert c. induction g using gf_ind'; cbn; intros c Hc; try (apply in_app_or in Hc as [Hc|Hc]);
      try (match goal with IH : forall c, In c (cells ?a) -> _, Hc : In c (cells ?a) |- _ => destruct (IH c Hc) as (d' & f & P); exists d', f; now constructor end).
    + destruct l; cbn in Hc; try easy. destruct Hc as [->|[]]. exists d, f. constructor.
    + apply in_flat_map in Hc as (b & Hb & Hc). rewrite Forall_forall in H. destruct (H b Hb c Hc) as (d' & f & P). exists d', f. eapply InSums; eauto.
Qed.
Lemma reads_dec g c : reads g c \/ ~ reads g c.
Proof. rewrite cells_reads. destruct (in_dec Nat.eq_dec c (cells g)); auto. Qed.

(** Setting the time *)
Lemma set_time_cells g t : forall s s', set_time g t s = Some s' -> forall c, s' c = if in_dec Nat.eq_dec c (cells g) then Some t else s c.
Proof.
  assert (B : forall a b, (forall s s', set_time a t s = Some s' -> forall c, s' c = if in_dec Nat.eq_dec c (cells a) then Some t else s c) ->
    (forall s s', set_time b t s = Some s' -> forall c, s' c = if in_dec Nat.eq_dec c (cells b) then Some t else s c) ->
    forall s s', match set_time a t s with Some s => set_time b t s | None => None end = Some s' -> forall c, s' c = if in_dec Nat.eq_dec c (cells a ++ cells b) then Some t else s c).
  { intros a b IHa IHb s s' E c. destruct (set_time a t s) as [s1|] eqn:E1; [|easy]. rewrite (IHb _ _ E), (IHa _ _ E1).
    destruct (in_dec Nat.eq_dec c (cells b)), (in_dec Nat.eq_dec c (cells a)), (in_dec Nat.eq_dec c (cells a ++ cells b)) as [i1|i1]; try easy; try (exfalso; apply i1, in_or_app; auto; fail).
    apply in_app_or in i1 as [|]; easy. }
  induction g using gf_ind'; cbn [set_time cells]; intros s s' E c; try discriminate; try (now apply IHg); try (now apply (B g1 g2)).
  destruct l; [easy| |]; injection E as <-; [reflexivity|]. unfold set_cell. destruct (Nat.eqb_spec c c0), (in_dec Nat.eq_dec c [c0]) as [i|i]; cbn in i; subst; intuition congruence.
Qed.
Lemma set_time_reads g t s s' c : set_time g t s = Some s' -> (reads g c -> s' c = Some t) /\ (~ reads g c -> s' c = s c).
Proof. intros E. rewrite (set_time_cells _ _ _ _ E c), cells_reads. now destruct (in_dec Nat.eq_dec c (cells g)). Qed.

(** When there is a setTime *)
Definition no_time (p : gf) : Prop := match p with GLeaf _ (Stationary _) | GPointSum _ _ | GPointScale _ _ => True | _ => False end.
Lemma set_time_none g t s : set_time g t s = None <-> exists p, part_of p g /\ no_time p.
Proof.
  split.
  - revert s. induction g using gf_ind'; cbn [set_time]; intros s E; try (destruct (IHg s E) as (p & P & N); exists p; split; [now constructor|easy]).
    + destruct l; try discriminate. eexists. split; [constructor|exact I].
    + destruct (set_time g1 t s) eqn:E1; [destruct (IHg2 _ E) as (p & P & N)|destruct (IHg1 _ E1) as (p & P & N)]; exists p; (split; [now constructor|easy]).
    + destruct (set_time g1 t s) eqn:E1; [destruct (IHg2 _ E) as (p & P & N)|destruct (IHg1 _ E1) as (p & P & N)]; exists p; (split; [now constructor|easy]).
    + destruct (set_time g1 t s) eqn:E1; [destruct (IHg2 _ E) as (p & P & N)|destruct (IHg1 _ E1) as (p & P & N)]; exists p; (split; [now constructor|easy]).
    + eexists. split; [constructor|exact I].
    + eexists. split; [constructor|exact I].
  - intros (p & P & N). revert s. induction P; intros s; cbn [set_time]; try (now rewrite IHP); try (now apply IHP); try reflexivity.
    + destruct p as [d [f|f|c f]| | | | | | | | | |]; cbn in N; try easy.
    + destruct (set_time a t s); [apply IHP|easy].
    + destruct (set_time a t s); [apply IHP|easy].
    + destruct (set_time a t s); [apply IHP|easy].
Qed.

(** Histories *)
Lemma calls_last l : forall s s', calls l s = Some s' -> forall c, (exists t, last_set l c t /\ s' c = Some t) \/ ((forall g t, In (g, t) l -> ~ reads g c) /\ s' c = s c).
Proof.
  induction l as [|[g t] l IH]; cbn [calls]; intros s s' E c; [right; injection E as <-; split; [intros ? ? []|easy]|].
  destruct (set_time g t s) as [s1|] eqn:E1; [|easy]. destruct (IH _ _ E c) as [(t' & (l1 & g' & l2 & -> & Hr & Hn) & Hs)|[Hn Hs]].
  - left. exists t'. split; [|easy]. exists ((g, t) :: l1), g', l2. easy.
  - destruct (set_time_reads _ _ _ _ c E1) as [A B]. destruct (reads_dec g c) as [R|R].
    + left. exists t. split; [exists [], g, l; easy|]. rewrite Hs. now apply A.
    + right. split; [|rewrite Hs; now apply B]. intros g' t' [H|H]; [injection H as <- <-; easy|now apply (Hn g' t')].
Qed.

(** Trees *)
Lemma ftree_ind' (P : ftree -> Prop) : (forall g, P (FLeaf g)) -> (forall l, Forall P l -> P (FNode l)) -> forall f, P f.
Proof. intros H1 H2. fix IH 1. intros [g|l]; [apply H1|]. apply H2. induction l; constructor; [apply IH|exact IHl]. Qed.
Lemma set_time_tree_cells f t : forall s s', set_time_tree f t s = Some s' -> forall c,
  ((exists g, leaf_of g f /\ reads g c) -> s' c = Some t) /\ (~ (exists g, leaf_of g f /\ reads g c) -> s' c = s c).
Proof.
  induction f using ftree_ind'; intros s s' E c.
  - cbn in E. destruct (set_time_reads _ _ _ _ c E) as [A B]. split; [intros (g' & L & R); inversion L; subst; auto|]. intros N. apply B. intros R. apply N. exists g. split; [constructor|easy].
  - cbn [set_time_tree] in E. revert s E. induction H as [|f l Hf Hl IHl]; intros s E.
    + injection E as <-. split; [intros (g & L & R); inversion L; subst; easy|easy].
    + destruct (set_time_tree f t s) as [s1|] eqn:E1; [|easy]. destruct (Hf _ _ E1 c) as [A1 A2]. destruct (IHl _ E) as [B1 B2]. 
      assert (D : (exists g, leaf_of g (FNode l) /\ reads g c) \/ ~ (exists g, leaf_of g (FNode l) /\ reads g c)).
      { assert (Q : forall f, (exists g, leaf_of g f /\ reads g c) \/ ~ (exists g, leaf_of g f /\ reads g c)).
        { clear. induction f using ftree_ind'.
          - destruct (reads_dec g c); [left; exists g; split; [constructor|easy]|right]. intros (g' & L & R). inversion L; subst. easy.
          - induction H as [|f l Hf Hl IHl]; [right; intros (g & L & R); inversion L; subst; easy|].
            destruct Hf as [(g & L & R)|N1]; [left; exists g; split; [apply LeafIn with f; [now left|easy]|easy]|].
            destruct IHl as [(g & L & R)|N2]; [left; inversion L; subst; exists g; split; [apply LeafIn with f0; [now right|easy]|easy]|].
            right. intros (g & L & R). inversion L; subst. destruct H0 as [->|H0]; [apply N1; now exists g|]. apply N2. exists g. split; [now apply LeafIn with f0|easy]. }
        apply Q. }
      split.
      * intros (g & L & R). destruct D as [D|D]; [now apply B1|]. rewrite B2 by easy. apply A1. inversion L; subst. destruct H0 as [->|H0]; [now exists g|].
        exfalso. apply D. exists g. split; [now apply LeafIn with f0|easy].
      * intros N. rewrite B2, A2; [easy| |].
        -- intros (g & L & R). apply N. exists g. split; [apply LeafIn with f; [now left|easy]|easy].
        -- intros (g & L & R). apply N. inversion L; subst. exists g. split; [apply LeafIn with f0; [now right|easy]|easy].
Qed.

(** Integrals *)
Lemma integrate_at f cells : forall k, integrate f cells k = lsum (cell_integral f k) (filter g_interior cells).
Proof.
  intros k. unfold integrate. enough (E : forall s : vec, fold_left (fun sum c => if g_interior c then fold_left (fun (sum : vec) '(x, w, ie) => fun k => sum k + f (g_cell c) x k * (w * ie)) (g_rule c) sum else sum) cells s k
    = s k + lsum (cell_integral f k) (filter g_interior cells)) by (rewrite E; ring).
  induction cells as [|c cells IH]; intros s; cbn [fold_left filter]; [cbn; ring|]. rewrite IH. destruct (g_interior c); [|reflexivity]. cbn [lsum]. rewrite <- Rplus_assoc. f_equal.
  unfold cell_integral. generalize (g_rule c). intros l. revert s. induction l as [|[[x w] ie] l IHl]; intros s; cbn [fold_left lsum fst snd]; [ring|]. rewrite IHl. ring.
Qed.
Lemma comm_sum_at l k : comm_sum l k = lsum (fun v => v k) l.
Proof.
  unfold comm_sum. enough (E : forall s : vec, fold_left (fun (s v : vec) k => s k + v k) l s k = s k + lsum (fun v => v k) l) by (rewrite E; ring).
  induction l as [|v l IH]; intros s; cbn [fold_left lsum]; [ring|]. rewrite IH. ring.
Qed.
Lemma lsum_app {A} (f : A -> R) l1 l2 : lsum f (l1 ++ l2) = lsum f l1 + lsum f l2.
Proof. induction l1; cbn; [ring|]. rewrite IHl1. ring. Qed.
Lemma lsum_concat {A} (f : A -> R) ls : lsum (lsum f) ls = lsum f (concat ls).
Proof. induction ls; cbn [lsum concat]; [easy|]. now rewrite IHls, lsum_app. Qed.
Lemma lsum_perm {A} (f : A -> R) l1 l2 : Permutation l1 l2 -> lsum f l1 = lsum f l2.
Proof. induction 1; cbn [lsum]; lra. Qed.
Lemma lsum_map {A B} (f : B -> R) (h : A -> B) l : lsum f (map h l) = lsum (fun a => f (h a)) l.
Proof. induction l; cbn; [easy|]. now rewrite IHl. Qed.

(** Probes *)
Lemma fold_min l : forall a, (fold_left Nat.min l a <= a)%nat /\ (forall x, In x l -> fold_left Nat.min l a <= x)%nat /\ (In (fold_left Nat.min l a) l \/ fold_left Nat.min l a = a).
Proof.
  induction l as [|b l IH]; intros a; cbn [fold_left]; [split; [lia|]; split; [intros ? []|now right]|]. destruct (IH (Nat.min a b)) as (A & B & C). split; [lia|]. split.
  - intros x [->|H]; [lia|now apply B].
  - destruct C as [C|C]; [left; now right|]. rewrite C. destruct (Nat.min_dec a b) as [E|E]; rewrite E; [now right|left; now left].
Qed.
Lemma eval_rank_spec found size :
  (eval_rank found size = size /\ forall p e, (p < size)%nat -> found p <> Some (e, true)) \/
  (eval_rank found size < size /\ (exists e, found (eval_rank found size) = Some (e, true)) /\ forall p e, (p < eval_rank found size)%nat -> found p <> Some (e, true))%nat.
Proof.
  unfold eval_rank. destruct (fold_min (map (my_rank found size) (seq 0 size)) size) as (A & B & C). set (r := fold_left _ _ _) in *.
  assert (L : forall p, (p < size)%nat -> (r <= my_rank found size p)%nat) by (intros p Hp; apply B, in_map, in_seq; lia).
  destruct (Nat.eq_dec r size) as [E|N].
  - left. split; [easy|]. intros p e Hp F. specialize (L p Hp). unfold my_rank in L. rewrite F in L. lia.
  - right. split; [lia|]. destruct C as [C|C]; [|lia]. apply in_map_iff in C as (p & Ep & Hp). apply in_seq in Hp. unfold my_rank in Ep.
    destruct (found p) as [[e [|]]|] eqn:F; [|lia|lia]. split; [exists e; congruence|]. intros q e' Hq Fq. specialize (L q ltac:(lia)). unfold my_rank in L. rewrite Fq in L. lia.
Qed.

(** Fluxes *)
Lemma tolerance_pos : 0 < tolerance. Proof. unfold tolerance. apply Rinv_0_lt_compat. apply pow_lt. lra. Qed.
Lemma below_true a : a = 0 -> below a = true.
Proof. intros ->. unfold below. rewrite Rabs_R0. destruct (Rlt_dec 0 tolerance); [easy|]. pose proof tolerance_pos. lra. Qed.
Lemma below_false a : tolerance <= a -> below a = false.
Proof. intros H. unfold below. pose proof tolerance_pos. rewrite Rabs_right by lra. destruct (Rlt_dec a tolerance); [lra|easy]. Qed.

Lemma edge_flux_normal corner n0 n1 n2 v nu : outward_normal (corner n0) (corner n1) (corner n2) nu ->
  0 < (corner n1 0%nat - corner n0 0%nat) * (corner n2 1%nat - corner n0 1%nat) - (corner n1 1%nat - corner n0 1%nat) * (corner n2 0%nat - corner n0 0%nat) ->
  edge_flux corner n0 n1 v = v 0%nat * nu 0%nat + v 1%nat * nu 1%nat.
Proof.
  intros (U & O & I) A. unfold edge_flux. set (a := corner n1 0%nat - corner n0 0%nat) in *. set (b := corner n1 1%nat - corner n0 1%nat) in *.
  set (c := corner n2 0%nat - corner n0 0%nat) in *. set (d := corner n2 1%nat - corner n0 1%nat) in *. set (x := nu 0%nat) in *. set (y := nu 1%nat) in *.
  cbn [dot loop]. replace (sqrt _) with (sqrt (a * a + b * b)) by (f_equal; ring).
  assert (P : 0 < a * a + b * b) by (destruct (Req_dec a 0), (Req_dec b 0); subst; nra).
  assert (S : sqrt (a * a + b * b) <> 0) by (apply Rgt_not_eq, sqrt_lt_R0; easy).
  (* nu is a multiple of (b, -a) *)
  set (m := (x * b - y * a) / (a * a + b * b)).
  clearbody a b c d x y. assert (D : m * (a * a + b * b) = x * b - y * a) by (unfold m; field; lra). clearbody m.
  assert (X : x = m * b). { apply Rmult_eq_reg_r with (a * a + b * b); [|lra]. transitivity ((x * b - y * a) * b + a * (x * a + y * b)); [ring|]. rewrite O, <- D. ring. }
  assert (Y : y = - m * a). { apply Rmult_eq_reg_r with (a * a + b * b); [|lra]. transitivity (- (x * b - y * a) * a + b * (x * a + y * b)); [ring|]. rewrite O, <- D. ring. }
  assert (M2 : m * m * (a * a + b * b) = 1) by (rewrite X, Y in U; nra).
  assert (MP : 0 < m) by (rewrite X, Y in I; nra).
  assert (ME : / sqrt (a * a + b * b) = m).
  { apply Rmult_eq_reg_r with (sqrt (a * a + b * b)); [|easy]. rewrite Rinv_l by easy. symmetry. rewrite <- sqrt_1, <- M2, sqrt_mult, sqrt_square by nra. ring. }
  unfold Rdiv. rewrite ME, X, Y. ring.
Qed.
