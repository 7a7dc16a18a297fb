(** Proofs about the construction of constraints. *)
From Verif Require Import OrderingModel OrderingProofs CommonFacts DirModel DirSpec ConsSpec ConsProofs.
Local Open Scope nat_scope.

(** A local transformation that constrains exactly the DOF indices in [K], all with Dirichlet constraints. *)
Record holds (K : nat -> Prop) (t : container) : Prop := {
  h_nodup : NoDup (keys t); h_keys : forall k, In k (keys t) <-> K k; h_rows : forall k r, In (k, r) t -> r = [] }.
Definition adds (op : container -> res container) (S : nat -> Prop) : Prop :=
  forall K t, holds K t -> exists t', op t = Ok t' /\ holds (fun k => K k \/ S k) t'.

Lemma holds_iff K K' t : (forall k, K k <-> K' k) -> holds K t -> holds K' t.
Proof. intros H [A B C]. split; [exact A| |exact C]. intros k. rewrite B. apply H. Qed.
Lemma adds_iff op S S' : (forall k, S k <-> S' k) -> adds op S -> adds op S'.
Proof.
  intros H A K t L. destruct (A K t L) as (t' & E & M). exists t'. split; [exact E|].
  eapply holds_iff; [|exact M]. intros k. cbn. rewrite H. tauto.
Qed.
Lemma adds_ext op op' S : (forall t, op t = op' t) -> adds op S -> adds op' S.
Proof. intros H A K t L. rewrite <- H. apply A, L. Qed.
Lemma adds_nothing : adds (fun t => Ok t) (fun _ => False).
Proof. intros K t H. exists t. split; [reflexivity|]. eapply holds_iff; [|exact H]. intros k. cbn. tauto. Qed.
Lemma adds_dof d : adds (fun t => Ok (fix_dof d t)) (fun k => k = dofidx d).
Proof.
  intros K t [A B C]. eexists. split; [reflexivity|]. split.
  - apply nodup_put, A.
  - intros k. unfold fix_dof. rewrite keys_put, B. tauto.
  - intros k r I. apply in_put in I; [|exact A]. destruct I as [[_ E]|I]; [exact E|eapply C, I].
Qed.
Lemma adds_fold {A} (f : container -> A -> res container) (S : A -> nat -> Prop) l :
  (forall a, In a l -> adds (fun t => f t a) (S a)) -> adds (foldM f l) (fun k => exists a, In a l /\ S a k).
Proof.
  induction l as [|a l IH]; intros H; cbn [foldM].
  - eapply adds_iff; [|apply adds_nothing]. intros k. cbn. split; [tauto|]. intros (a & [] & _).
  - intros K t L. destruct (H a (or_introl eq_refl) K t L) as (t1 & E1 & L1). cbn beta in E1. rewrite E1. cbn [bind].
    destruct (IH (fun b I => H b (or_intror I)) _ _ L1) as (t2 & E2 & L2). exists t2. split; [exact E2|].
    eapply holds_iff; [|exact L2]. intros k. cbn. split.
    + intros [[A1|A2]|(b & I & A3)]; [tauto|right; exists a; tauto|right; exists b; tauto].
    + intros [A1|(b & [->|I] & A2)]; [tauto|tauto|right; exists b; tauto].
Qed.
Lemma foldM_pure {A T} (f : T -> A -> T) l : forall t, foldM (fun t a => Ok (f t a)) l t = Ok (fold_left f l t).
Proof. induction l as [|a l IH]; intros t; cbn [foldM fold_left bind]; [reflexivity|apply IH]. Qed.
Lemma adds_cond (b : bool) op op' S S' : (b = true -> adds op S) -> (b = false -> adds op' S') ->
  adds (fun t => if b then op t else op' t) (fun k => if b then S k else S' k).
Proof. destruct b; intros H H'; [apply H|apply H']; reflexivity. Qed.

Section Grid.
  Variables (e : env) (G : geo) (grid : list cell).
  Hypothesis PG : proper_grid G grid.

  Lemma adds_face c f ds : adds (fun t => Ok (fix_face G c f ds t)) (fun k => exists d, In d ds /\ lies_on G c f d /\ k = dofidx d).
  Proof.
    unfold fix_face. eapply adds_ext; [intros t; apply foldM_pure|].
    eapply adds_iff; [|apply adds_fold with (S := fun d k => lies_on G c f d /\ k = dofidx d)]; [intros k; cbn; reflexivity|].
    intros d I. unfold lies_on. destruct (Nat.eqb_spec (codim d) 0) as [Z|Z].
    - eapply adds_iff; [|apply adds_nothing]. intros k. cbn. rewrite Z. split; [tauto|lia].
    - eapply adds_ext; [intros t; apply foldM_pure|].
      eapply adds_iff; [|apply adds_fold with (S := fun s k => sub d = s /\ k = dofidx d)].
      + intros k. cbn. split.
        * intros (s & I1 & <- & ->). repeat split; [lia|exact I1].
        * intros ((_ & I1) & ->). exists (sub d). auto.
      + intros s I1. destruct (Nat.eqb_spec (sub d) s) as [E|E].
        * eapply adds_iff; [|apply adds_dof]. intros k. cbn. tauto.
        * eapply adds_iff; [|apply adds_nothing]. intros k. cbn. tauto.
  Qed.
  Lemma adds_all ds : adds (fun t => Ok (fix_all ds t)) (fun k => exists d, In d ds /\ k = dofidx d).
  Proof.
    unfold fix_all. eapply adds_ext; [intros t; apply foldM_pure|].
    eapply adds_iff; [|apply adds_fold with (S := fun d k => k = dofidx d)]; [intros k; cbn; reflexivity|].
    intros d I. apply adds_dof.
  Qed.

  (** ** Tables *)
  Lemma write_ok {A} i (x : A) l : i < length l -> write i x l = Ok (upd i x l).
  Proof. intros H. unfold write. destruct (Nat.ltb_spec i (length l)); [reflexivity|lia]. Qed.

  (** sizes used for the offsets *)
  Definition used_size (contains : nat -> bool) (gt : nat) : nat :=
    if existsb (fun cd => contains cd && existsb (Nat.eqb gt) (types G cd)) (seq 0 (S (dim G))) then tsize G gt else 0.
  Lemma sizes_types gts : forall o, length o = S (ntypes G) -> (forall gt, In gt gts -> gt < ntypes G) ->
    exists o', foldM (fun o gt => write (S gt) (tsize G gt) o) gts o = Ok o' /\ length o' = S (ntypes G) /\
      nth 0 o' 0 = nth 0 o 0 /\
      forall gt, gt < ntypes G -> nth (S gt) o' 0 = if existsb (Nat.eqb gt) gts then tsize G gt else nth (S gt) o 0.
  Proof.
    induction gts as [|x gts IH]; intros o L B; cbn [foldM].
    - exists o. repeat split. exact L.
    - assert (Bx : x < ntypes G) by (apply B; left; reflexivity).
      rewrite write_ok by lia. cbn [bind].
      destruct (IH (upd (S x) (tsize G x) o)) as (o' & E & L' & Z & N).
      + rewrite upd_length. exact L.
      + intros gt I. apply B. right. exact I.
      + exists o'. split; [exact E|]. split; [exact L'|]. split.
        * rewrite Z. destruct o; reflexivity.
        * intros gt H. rewrite N by exact H. cbn [existsb]. destruct (Nat.eqb_spec gt x) as [->|D].
          -- cbn [orb]. rewrite upd_nth_same by lia. destruct (existsb (Nat.eqb x) gts); reflexivity.
          -- cbn [orb]. rewrite upd_nth_other by lia. reflexivity.
  Qed.
  Lemma sizes_codims (contains : nat -> bool) cds : (forall cd, In cd cds -> cd <= dim G) -> forall o, length o = S (ntypes G) ->
    exists o', foldM (fun o cd => if contains cd then foldM (fun o gt => write (S gt) (tsize G gt) o) (types G cd) o else Ok o)
                 cds o = Ok o' /\ length o' = S (ntypes G) /\ nth 0 o' 0 = nth 0 o 0 /\
      forall gt, gt < ntypes G ->
        nth (S gt) o' 0 = if existsb (fun cd => contains cd && existsb (Nat.eqb gt) (types G cd)) cds
                          then tsize G gt else nth (S gt) o 0.
  Proof.
    induction cds as [|cd cds IH]; intros B o L; cbn [foldM].
    - exists o. repeat split. exact L.
    - cbn [existsb]. destruct (contains cd) eqn:C; cbn [andb orb].
      + destruct (sizes_types (types G cd) o L (fun gt I => types_numbered _ _ PG cd gt I)) as (o1 & E1 & L1 & Z1 & N1).
        rewrite E1. cbn [bind]. destruct (IH (fun x I => B x (or_intror I)) o1 L1) as (o2 & E2 & L2 & Z2 & N2).
        exists o2. split; [exact E2|]. split; [exact L2|]. split; [congruence|]. intros gt H. rewrite N2, N1 by exact H.
        destruct (existsb (Nat.eqb gt) (types G cd)); cbn [orb]; [|reflexivity].
        destruct (existsb _ cds); reflexivity.
      + cbn [bind]. apply IH; [intros x I; apply B; right; exact I|exact L].
  Qed.
  Definition weights (contains : nat -> bool) : list nat := map (used_size contains) (seq 0 (ntypes G)).
  Lemma ghost_offsets_ok contains : ghost_offsets G contains = Ok (psums 0 (weights contains)).
  Proof.
    unfold ghost_offsets.
    destruct (sizes_codims contains (seq 0 (S (dim G)))) with (o := repeat 0 (S (ntypes G))) as (o & E & L & Z & N).
    - intros cd I. apply in_seq in I. lia.
    - apply repeat_length.
    - rewrite E. cbn [bind]. f_equal. destruct o as [|x ws]; [cbn in L; lia|]. cbn [nth repeat] in Z. subst x.
      cbn [psums tl Nat.add]. f_equal. cbn [length] in L.
      apply nth_ext with (d := 0) (d' := 0); unfold weights; rewrite ?map_length, ?seq_length; [lia|].
      intros gt H. specialize (N gt ltac:(lia)). rewrite nth_repeat in N. cbn [nth] in N. rewrite N.
      rewrite nth_map_seq by lia. reflexivity.
  Qed.
  Lemma weight_used contains c cd i : In c grid -> cd <= dim G -> i < rsize (refel G (cid c)) cd -> contains cd = true ->
    nth (rtype (refel G (cid c)) cd i) (weights contains) 0 = tsize G (rtype (refel G (cid c)) cd i).
  Proof.
    intros I1 I2 I3 C. destruct (entity_indexed _ _ PG c cd i I1 I2 I3) as [T _].
    pose proof (types_numbered _ _ PG cd _ T) as B. unfold weights. rewrite nth_map_seq by exact B. unfold used_size.
    replace (existsb _ _) with true; [reflexivity|]. symmetry. apply existsb_exists. exists cd. split; [apply in_seq; lia|].
    rewrite C. cbn [andb]. apply existsb_exists. eexists. split; [exact T|apply Nat.eqb_refl].
  Qed.

  Definition clears (op : list bool -> res (list bool)) (S : nat -> Prop) (n : nat) : Prop :=
    forall gh, length gh = n -> exists gh', op gh = Ok gh' /\ length gh' = n /\
      forall i, nth i gh' false = true <-> nth i gh false = true /\ ~ S i.
  Lemma clears_iff op S S' n : (forall k, S k <-> S' k) -> clears op S n -> clears op S' n.
  Proof.
    intros H A gh L. destruct (A gh L) as (gh' & E & L' & N). exists gh'. split; [exact E|]. split; [exact L'|].
    intros i. rewrite N, H. tauto.
  Qed.
  Lemma clears_nothing n : clears (fun t => Ok t) (fun _ => False) n.
  Proof. intros gh L. exists gh. repeat split; tauto. Qed.
  Lemma clears_write i n : i < n -> clears (write i false) (fun k => k = i) n.
  Proof.
    intros H gh L. exists (upd i false gh). rewrite write_ok by lia. split; [reflexivity|]. rewrite upd_length. split; [exact L|].
    intros k. destruct (Nat.eq_dec k i) as [->|D].
    - rewrite upd_nth_same by lia. split; [discriminate|tauto].
    - rewrite upd_nth_other by lia. tauto.
  Qed.
  Lemma clears_fold {A} (f : list bool -> A -> res (list bool)) (S : A -> nat -> Prop) n l :
    (forall a, In a l -> clears (fun t => f t a) (S a) n) -> clears (foldM f l) (fun k => exists a, In a l /\ S a k) n.
  Proof.
    induction l as [|a l IH]; intros H; cbn [foldM].
    - eapply clears_iff; [|apply clears_nothing]. intros k. cbn. split; [tauto|]. intros (a & [] & _).
    - intros t L. destruct (H a (or_introl eq_refl) t L) as (t1 & E1 & L1 & N1). cbn beta in E1. rewrite E1. cbn [bind].
      destruct (IH (fun b I => H b (or_intror I)) _ L1) as (t2 & E2 & L2 & N2). exists t2. split; [exact E2|]. split; [exact L2|].
      intros i. rewrite N2, N1. split.
      + intros ((A1 & A2) & A3). split; [exact A1|]. intros (b & [<-|I] & A4); [tauto|]. apply A3. exists b. tauto.
      + intros (A1 & A2). repeat split; [exact A1| |].
        * intros A3. apply A2. exists a. cbn. tauto.
        * intros (b & I & A3). apply A2. exists b. cbn. tauto.
  Qed.
  Lemma repeat_true i n : nth i (repeat true n) false = true <-> i < n.
  Proof.
    revert i. induction n as [|n IH]; intros [|i]; cbn; try (split; [discriminate|lia]).
    - split; [lia|reflexivity].
    - rewrite IH. lia.
  Qed.

  (** Ghost flags: true exactly for the entities of no interior cell. *)
  Lemma ghosts_ok contains gt : compute_ghosts G contains (map cid grid) = Ok gt ->
    forall c d, In c grid -> codim d <= dim G -> sub d < rsize (refel G (cid c)) (codim d) -> contains (codim d) = true ->
    exists o b, at_ (gt_offsets gt) (rtype (refel G (cid c)) (codim d) (sub d)) = Ok o /\
      at_ (ghosts gt) (o + sub_index G (cid c) (sub d) (codim d)) = Ok b /\
      (b = true <-> forall c', In c' grid -> ptype G (cid c') = Interior -> ~ has_entity G (cid c') (entity_of G (cid c) d)).
  Proof.
    intros E c d Ic Hc Hs C. unfold compute_ghosts in E. rewrite ghost_offsets_ok in E. cbn [bind] in E.
    set (ws := weights contains) in *.
    match type of E with bind (foldM ?f ?l ?g) _ = _ =>
      assert (CL : clears (foldM f l) (fun k => exists c', In c' l /\
        exists cd, In cd (seq 0 (S (dim G))) /\ contains cd = true /\ exists i, In i (seq 0 (rsize (refel G c') cd)) /\
          k = OrderingProofs.pre ws (rtype (refel G c') cd i) + sub_index G c' i cd) (Common.sum_nat ws)) end.
    { apply clears_fold. intros c1 I1. apply filter_In in I1. destruct I1 as [I1 _]. apply in_map_iff in I1.
      destruct I1 as (c' & <- & I1). apply clears_fold. intros cd I2.
      destruct (contains cd) eqn:C2.
      - eapply clears_iff; [|apply clears_fold with
          (S := fun i k => k = OrderingProofs.pre ws (rtype (refel G (cid c')) cd i) + sub_index G (cid c') i cd)].
        + intros k. cbn. split; [intros H; split; [reflexivity|exact H]|intros [_ H]; exact H].
        + intros i I3. apply in_seq in I2. apply in_seq in I3.
          destruct (entity_indexed _ _ PG c' cd i I1 ltac:(lia) ltac:(lia)) as [T B].
          pose proof (types_numbered _ _ PG cd _ T) as TN.
          assert (LW : length ws = ntypes G) by (unfold ws, weights; rewrite map_length, seq_length; reflexivity).
          rewrite at_psums by lia. cbn [bind]. apply clears_write. apply pre_bound.
          unfold ws. rewrite weight_used; [exact B|exact I1|lia|lia|exact C2].
      - eapply clears_iff; [|apply clears_nothing]. intros k. cbn. split; [tauto|]. intros [H _]. discriminate H. }
    match type of E with bind (foldM ?f ?l ?g) _ = _ =>
      destruct (CL g) as (gh & E1 & L1 & N1); [rewrite psums_last; apply repeat_length|] end.
    rewrite E1 in E. cbn [bind] in E. injection E as <-. cbn [gt_offsets ghosts].
    destruct (entity_indexed _ _ PG c (codim d) (sub d) Ic Hc Hs) as [T B].
    pose proof (types_numbered _ _ PG (codim d) _ T) as TN.
    assert (LW : length ws = ntypes G) by (unfold ws, weights; rewrite map_length, seq_length; reflexivity).
    assert (WD : nth (rtype (refel G (cid c)) (codim d) (sub d)) ws 0 = tsize G (rtype (refel G (cid c)) (codim d) (sub d)))
      by (apply weight_used; assumption).
    assert (BD : OrderingProofs.pre ws (rtype (refel G (cid c)) (codim d) (sub d)) + sub_index G (cid c) (sub d) (codim d) < Common.sum_nat ws)
      by (apply pre_bound; rewrite WD; exact B).
    exists (OrderingProofs.pre ws (rtype (refel G (cid c)) (codim d) (sub d))).
    exists (nth (OrderingProofs.pre ws (rtype (refel G (cid c)) (codim d) (sub d)) + sub_index G (cid c) (sub d) (codim d)) gh false).
    split; [apply at_psums; lia|]. split; [apply at_nth; lia|].
    rewrite N1, psums_last, repeat_true. cbn [Nat.add].
    split.
    - intros [_ NE] c' I' PI (cd & i & H1 & H2 & H3). apply NE. unfold entity_of in H3. injection H3 as H3 H4.
      exists (cid c'). split; [apply filter_In; split; [apply in_map, I'|rewrite PI; reflexivity]|].
      destruct (entity_indexed _ _ PG c' cd i I' H1 H2) as [T' _].
      assert (cd = codim d) by (eapply (types_once _ _ PG); [exact T'|rewrite <- H3; exact T]). subst cd.
      exists (codim d). split; [apply in_seq; lia|]. split; [exact C|]. exists i. split; [apply in_seq; lia|]. congruence.
    - intros H. split; [exact BD|]. intros (c1 & I1 & cd & I2 & C2 & i & I3 & EQ).
      apply filter_In in I1. destruct I1 as [I1 PI]. apply in_map_iff in I1. destruct I1 as (c' & <- & I1).
      apply in_seq in I2. apply in_seq in I3.
      destruct (entity_indexed _ _ PG c' cd i I1 ltac:(lia) ltac:(lia)) as [T' B'].
      apply pre_inj in EQ.
      + apply (H c' I1); [destruct (ptype G (cid c')); congruence|]. exists cd, i. split; [lia|]. split; [lia|].
        unfold entity_of. f_equal; apply EQ.
      + rewrite WD. exact B.
      + unfold ws. rewrite weight_used; [exact B'|exact I1|lia|lia|exact C2].
  Qed.

  (** Interior nodes: true exactly for the vertices that are on no boundary face. *)
  Lemma interior_ok n it : interior_nodes G n grid = Ok it ->
    (forall c i, In c grid -> i < rsize (refel G (cid c)) (dim G) -> sub_index G (cid c) i (dim G) < n) ->
    forall v, v < n -> exists b, at_ it v = Ok b /\ (b = true <-> ~ boundary_vertex G grid v).
  Proof.
    intros E B v Hv. unfold interior_nodes in E.
    match type of E with foldM ?F ?l ?g = _ =>
      assert (CL : clears (foldM F l) (fun k => exists c, In c l /\ exists f, In f (faces c) /\ boundary f = true /\
        exists i, In i (closure (refel G (cid c)) (inside_face G (cid c) f) (dim G)) /\ k = sub_index G (cid c) i (dim G)) n) end.
    { apply clears_fold. intros c Ic. apply clears_fold. intros f If. destruct (boundary f) eqn:Bf.
      - eapply clears_iff; [|apply clears_fold with (S := fun i k => k = sub_index G (cid c) i (dim G))].
        + intros k. cbn. split; [intros H; split; [reflexivity|exact H]|intros [_ H]; exact H].
        + intros i Ii. apply clears_write. apply B; [exact Ic|]. eapply (closure_of_face _ _ PG); eauto.
      - eapply clears_iff; [|apply clears_nothing]. intros k. cbn. split; [tauto|]. intros [H _]. discriminate H. }
    destruct (CL _ (repeat_length true n)) as (gh & E1 & L1 & N1). rewrite E1 in E. injection E as <-.
    exists (nth v gh false). split; [apply at_nth; lia|]. rewrite N1, repeat_true. unfold boundary_vertex. split.
    - intros [_ H] (c & f & i & A1 & A2 & A3 & A4 & A5). apply H. exists c. split; [exact A1|]. exists f. repeat split; try assumption.
      exists i. tauto.
    - intros H. split; [exact Hv|]. intros (c & A1 & f & A2 & A3 & i & A4 & A5). apply H. exists c, f, i. tauto.
  Qed.
End Grid.
