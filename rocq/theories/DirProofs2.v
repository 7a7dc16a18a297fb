(** Proofs about the construction of constraints: trees, intersections, cells, the global container. *)
From Verif Require Import OrderingModel OrderingProofs CommonFacts DirModel DirSpec DirProofs ConsSpec ConsProofs.
Local Open Scope nat_scope.

Lemma leaves_below : forall t l, In l (leaves t) <-> below_node t l.
Proof.
  fix IH 1. intros [l0|ts] l; cbn [leaves].
  - split.
    + intros [<-|[]]. constructor.
    + intros H. inversion H; subst. left. reflexivity.
  - assert (A : In l (flat_map leaves ts) <-> exists t, In t ts /\ below_node t l).
    { induction ts as [|t ts IHts]; cbn [flat_map].
      - split; [intros []|intros (t & [] & _)].
      - rewrite in_app_iff, IHts, IH. split.
        + intros [H|(t' & I & H)]; [exists t|exists t']; cbn; tauto.
        + intros (t' & [<-|I] & H); [tauto|right; exists t'; tauto]. }
    rewrite A. split.
    + intros (t & I & H). econstructor; eassumption.
    + intros H. inversion H; subst. eexists. split; eassumption.
Qed.

Lemma pairs_governs : forall p t q l, In (q, l) (pairs p t) <-> governs p t q l.
Proof.
  fix IH 1. intros [q0|ps] t q l; cbn [pairs].
  - rewrite in_map_iff. split.
    + intros (l0 & E & I). injection E as -> ->. constructor. apply leaves_below, I.
    + intros H. inversion H; subst. exists l. split; [reflexivity|]. apply leaves_below. assumption.
  - destruct t as [l0|ts].
    + split; [intros []|]. intros H. inversion H.
    + set (go := fix go ps ts := match ps, ts with p :: ps', t :: ts' => pairs p t ++ go ps' ts' | _, _ => [] end).
      assert (A : forall ts, In (q, l) (go ps ts) <-> exists i p t, nth_error ps i = Some p /\ nth_error ts i = Some t /\ governs p t q l).
      { clear ts. induction ps as [|p ps IHps]; intros ts.
        - cbn. split; [intros []|]. intros (i & p & t & H & _). destruct i; discriminate H.
        - destruct ts as [|t ts].
          + cbn. split; [intros []|]. intros (i & p' & t & _ & H & _). destruct i; discriminate H.
          + cbn [go]. fold go. rewrite in_app_iff, IHps, IH. split.
            * intros [H|(i & p' & t' & H)]; [exists 0, p, t; cbn; tauto|exists (S i), p', t'; exact H].
            * intros ([|i] & p' & t' & H1 & H2 & H3); cbn in H1, H2.
              -- injection H1 as ->. injection H2 as ->. left. exact H3.
              -- right. exists i, p', t'. tauto. }
      rewrite A. split.
      * intros (i & p & t & H1 & H2 & H3). econstructor; eassumption.
      * intros H. inversion H; subst. do 3 eexists. repeat split; eassumption.
Qed.

Lemma governs_below : forall p t q l, governs p t q l -> below_node t l.
Proof. intros p t q l H. induction H; [assumption|]. econstructor; [eapply nth_error_In; eassumption|assumption]. Qed.

Lemma fits_governed : forall p t, fits p t -> forall l, below_node t l -> exists q, governs p t q l.
Proof.
  fix IH 3. intros p t [q0 t0|ps ts F] l B.
  - exists q0. constructor. exact B.
  - inversion B as [|ts' u l' I B']; subst.
    assert (A : forall t, In t ts -> below_node t l -> exists i p q, nth_error ps i = Some p /\ nth_error ts i = Some t /\ governs p t q l).
    { clear B u I B'. induction F as [|p0 t0 ps ts FT F IHF]; intros u I B; [destruct I|].
      destruct I as [->|I].
      - destruct (IH _ _ FT l B) as (q & H). exists 0, p0, q. cbn. tauto.
      - destruct (IHF u I B) as (i & p' & q & H1 & H2 & H3). exists (S i), p', q. cbn. tauto. }
    destruct (A u I B') as (i & p0 & q & H1 & H2 & H3). exists q. econstructor; eassumption.
Qed.

Section Grid.
  Variables (e : env) (G : geo) (grid : list cell).
  Hypothesis PG : proper_grid G grid.

  (** The parts of the classes. *)
  Definition volume_fixes (k : kind) (c : cell) (d : ldof) : Prop :=
    match k with
    | Nonoverlapping _ => forall c', In c' grid -> ptype G (cid c') = Interior -> ~ has_entity G (cid c') (entity_of G (cid c) d)
    | P0Ghosts => ptype G (cid c) = Ghost
    | InteriorNodes _ => ~ boundary_vertex G grid (sub_index G (cid c) (sub d) (dim G))
    | _ => False
    end.
  Definition boundary_fixes (k : kind) (q : param) (ds : list ldof) (c : cell) (f : face) (d : ldof) : Prop :=
    match k with
    | Conforming | Overlapping | Nonoverlapping _ => is_dirichlet q (cid c) f = true /\ lies_on G (cid c) f d
    | RT0 => is_neumann q (cid c) f = true /\ nth_error ds (inside_face G (cid c) f) = Some d
    | _ => False
    end.
  Definition processor_fixes (k : kind) (c : cell) (f : face) (d : ldof) : Prop :=
    match k with
    | Overlapping => lies_on G (cid c) f d
    | P0Overlapping => True
    | _ => False
    end.
  Lemma fixed_parts k q ds c d : fixed e G grid k q ds c d <->
    volume_fixes k c d \/
    (exists f, In f (faces c) /\ classify e f = Boundary /\ boundary_fixes k q ds c f d) \/
    (exists f, In f (faces c) /\ classify e f = Processor /\ processor_fixes k c f d).
  Proof.
    destruct k; cbn [fixed volume_fixes boundary_fixes processor_fixes]; unfold on_dirichlet_boundary, on_processor_boundary; split;
      intros H; repeat match goal with
      | H : False |- _ => destruct H
      | H : _ \/ _ |- _ => destruct H
      | H : exists _, _ |- _ => destruct H
      | H : _ /\ _ |- _ => destruct H
      end; try contradiction; auto;
      try solve [right; left; eexists; eauto]; try solve [right; right; eexists; eauto]; try solve [left; eexists; eauto];
      try solve [eexists; eauto]; try solve [right; eexists; eauto].
  Qed.

  Section LeafPart.
    Variables (l : leaf) (c : cell).
    Hypotheses (PL : proper_leaf G grid l) (PR : prepared G grid l) (IC : In c grid).
    Let ds := local l (cid c).

    Lemma adds_volume q : adds (fun t => call_volume G (cid c) t (q, l))
      (fun k => exists d, In d ds /\ volume_fixes (cls l) c d /\ k = dofidx d).
    Proof.
      unfold call_volume. cbn [fst snd]. fold ds.
      assert (N : forall v, ds = [] -> adds (fun t => match v, ds with Some v, (_ :: _) as ds => v q (cid c) ds t | _, _ => Ok t end)
                   (fun k => exists d, In d ds /\ volume_fixes (cls l) c d /\ k = dofidx d)).
      { intros v ->. eapply adds_iff; [|apply adds_ext with (op := fun t => Ok t); [|apply adds_nothing]].
        - intros k. cbn. split; [tauto|]. intros (d & [] & _).
        - intros t. destruct v; reflexivity. }
      destruct ds as [|d0 ds0] eqn:ED; [apply N; reflexivity|]. rewrite <- ED. clear N.
      assert (ID : forall d, In d ds -> In d (local l (cid c))) by (intros d I; exact I).
      unfold prepared in PR. destruct (cls l) eqn:K; cbn [volume volume_fixes];
        try (eapply adds_iff; [|apply adds_nothing]; intros k; cbn; split; [tauto|intros (d & _ & [] & _)]).
      - (* nonoverlapping *)
        destruct PR as (contains & CG & CC). unfold ghost_volume.
        assert (F : adds (foldM (fun t d =>
           let* o := at_ (gt_offsets g) (rtype (refel G (cid c)) (codim d) (sub d)) in
           let* b := at_ (ghosts g) (o + sub_index G (cid c) (sub d) (codim d)) in
           Ok (if b then fix_dof d t else t)) ds)
           (fun k => exists d, In d ds /\ (forall c', In c' grid -> ptype G (cid c') = Interior ->
              ~ has_entity G (cid c') (entity_of G (cid c) d)) /\ k = dofidx d)).
        { apply adds_fold. intros d I. destruct (PL c d IC I) as [H1 H2].
          destruct (ghosts_ok G grid PG contains g CG c d IC H1 H2 (CC c d IC I)) as (o & b & E1 & E2 & E3).
          rewrite E1. cbn [bind]. rewrite E2. cbn [bind]. destruct b.
          - eapply adds_iff; [|apply adds_dof]. intros k. cbn. rewrite <- E3. tauto.
          - eapply adds_iff; [|apply adds_nothing]. intros k. cbn. rewrite <- E3. split; [tauto|]. intros [H _]. discriminate H. }
        destruct (ptype G (cid c)) eqn:PT; try exact F.
        eapply adds_iff; [|apply adds_nothing]. intros k. cbn. split; [tauto|]. intros (d & I & H & _).
        apply (H c IC PT). destruct (PL c d IC I) as [H1 H2]. exists (codim d), (sub d). repeat split; assumption.
      - (* ghosts *)
        destruct (ptype G (cid c)) eqn:PT;
          try (eapply adds_iff; [|apply adds_nothing]; intros k; cbn; split; [tauto|intros (d & _ & H & _); discriminate H]).
        eapply adds_iff; [|apply adds_all]. intros k. cbn. split; intros (d & H); exists d; tauto.
      - (* interior nodes *)
        destruct PR as (n & EI & BD & KN). unfold interior_volume.
        apply adds_fold. intros d I. destruct (KN c d IC I) as [H1 H2]. destruct (PL c d IC I) as [_ H3].
        rewrite H1, H2, !Nat.eqb_refl. cbn [andb].
        destruct (interior_ok G grid PG n interior EI BD (sub_index G (cid c) (sub d) (dim G))) as (b & E1 & E2).
        { apply BD; [exact IC|]. rewrite <- H1. exact H3. }
        rewrite E1. cbn [bind]. destruct b.
        + eapply adds_iff; [|apply adds_dof]. intros k. cbn. rewrite <- E2. tauto.
        + eapply adds_iff; [|apply adds_nothing]. intros k. cbn. rewrite <- E2. split; [tauto|]. intros [H _]. discriminate H.
    Qed.

    Lemma adds_boundary f q : In f (faces c) -> adds (fun t => call_boundary G (cid c) f t (q, l))
      (fun k => exists d, In d ds /\ boundary_fixes (cls l) q ds c f d /\ k = dofidx d).
    Proof.
      intros IF. unfold call_boundary. cbn [fst snd]. fold ds.
      destruct ds as [|d0 ds0] eqn:ED.
      { eapply adds_iff; [|apply adds_ext with (op := fun t => Ok t); [|apply adds_nothing]].
        - intros k. cbn. split; [tauto|]. intros (d & [] & _).
        - intros t. destruct (boundary_part G (cls l)); reflexivity. }
      rewrite <- ED.
      assert (CF : adds (conforming_boundary G q (cid c) f ds)
                (fun k => exists d, In d ds /\ (is_dirichlet q (cid c) f = true /\ lies_on G (cid c) f d) /\ k = dofidx d)).
      { unfold conforming_boundary. destruct (is_dirichlet q (cid c) f).
        - eapply adds_iff; [|apply adds_face]. intros k. cbn. split; intros (d & H); exists d; tauto.
        - eapply adds_iff; [|apply adds_nothing]. intros k. cbn. split; [tauto|]. intros (d & _ & [H _] & _). discriminate H. }
      unfold prepared in PR. destruct (cls l) eqn:K; cbn [boundary_part boundary_fixes];
        try (eapply adds_iff; [|apply adds_nothing]; intros k; cbn; split; [tauto|intros (d & _ & [] & _)]); try exact CF.
      assert (NE : local l (cid c) <> []) by (fold ds; rewrite ED; discriminate).
      specialize (PR c f IC IF NE). fold ds in PR.
      destruct (nth_error ds (inside_face G (cid c) f)) as [d|] eqn:EN; [|apply nth_error_None in EN; lia].
      destruct (is_neumann q (cid c) f).
      - rewrite (at_ok _ _ _ EN). cbn [bind]. eapply adds_iff; [|apply adds_dof]. intros k. cbn. split.
        + intros ->. exists d. repeat split. eapply nth_error_In, EN.
        + intros (d' & _ & (_ & E) & ->). congruence.
      - eapply adds_iff; [|apply adds_nothing]. intros k. cbn. split; [tauto|]. intros (d' & _ & [H _] & _). discriminate H.
    Qed.

    Lemma adds_processor f : adds (fun t => call_processor G (cid c) f t l)
      (fun k => exists d, In d ds /\ processor_fixes (cls l) c f d /\ k = dofidx d).
    Proof.
      unfold call_processor. fold ds. destruct ds as [|d0 ds0] eqn:ED.
      { eapply adds_iff; [|apply adds_ext with (op := fun t => Ok t); [|apply adds_nothing]].
        - intros k. cbn. split; [tauto|]. intros (d & [] & _).
        - intros t. destruct (processor_part G (cls l)); reflexivity. }
      rewrite <- ED. destruct (cls l) eqn:K; cbn [processor_part processor_fixes];
        try (eapply adds_iff; [|apply adds_nothing]; intros k; cbn; split; [tauto|intros (d & _ & [] & _)]).
      - eapply adds_iff; [|apply adds_face]. intros k. cbn. split; intros (d & H); exists d; tauto.
      - eapply adds_iff; [|apply adds_all]. intros k. cbn. split; intros (d & H); exists d; tauto.
    Qed.
  End LeafPart.

  Variables (p : ptree) (t : stree).
  Hypotheses (FT : fits p t) (PL : forall l, below_node t l -> proper_leaf G grid l)
    (PR : forall l, below_node t l -> prepared G grid l).

  Lemma adds_visit c f : In c grid -> In f (faces c) -> adds (fun cl => visit_face e G p t (cid c) cl f)
    (fun k => exists q l d, governs p t q l /\ In d (local l (cid c)) /\ k = dofidx d /\
       ((classify e f = Boundary /\ boundary_fixes (cls l) q (local l (cid c)) c f d) \/
        (classify e f = Processor /\ processor_fixes (cls l) c f d))).
  Proof.
    intros IC IF. unfold visit_face. destruct (classify e f) eqn:CL.
    - eapply adds_iff; [|apply adds_fold with
        (S := fun l k => exists d, In d (local l (cid c)) /\ processor_fixes (cls l) c f d /\ k = dofidx d)].
      + intros k. cbn. split.
        * intros (l & I & d & H1 & H2 & H3). apply leaves_below in I. destruct (fits_governed p t FT l I) as (q & GV).
          exists q, l, d. tauto.
        * intros (q & l & d & GV & H1 & H2 & [[H _]|[_ H3]]); [discriminate H|]. exists l. split.
          -- apply leaves_below. eapply governs_below, GV.
          -- exists d. tauto.
      + intros l I. apply adds_processor.
    - eapply adds_iff; [|apply adds_nothing]. intros k. cbn. split; [tauto|].
      intros (q & l & d & _ & _ & _ & [[H _]|[H _]]); discriminate H.
    - eapply adds_iff; [|apply adds_fold with
        (S := fun (ql : param * leaf) k => exists d, In d (local (snd ql) (cid c)) /\
                boundary_fixes (cls (snd ql)) (fst ql) (local (snd ql) (cid c)) c f d /\ k = dofidx d)].
      + intros k. cbn. split.
        * intros ([q l] & I & d & H1 & H2 & H3). apply pairs_governs in I. exists q, l, d. tauto.
        * intros (q & l & d & GV & H1 & H2 & [[_ H3]|[H _]]); [|discriminate H]. exists (q, l). split.
          -- apply pairs_governs, GV.
          -- exists d. tauto.
      + intros [q l] I. apply pairs_governs in I. apply governs_below in I. apply adds_boundary; auto.
    - eapply adds_iff; [|apply adds_nothing]. intros k. cbn. split; [tauto|].
      intros (q & l & d & _ & _ & _ & [[H _]|[H _]]); discriminate H.
  Qed.

  Variables (ci : nat -> nat) (hash : container -> container).
  Hypothesis HP : forall cl, Permutation cl (hash cl).

  Definition cell_fixes (c : cell) (k : nat) : Prop :=
    exists q l d, governs p t q l /\ In d (local l (cid c)) /\ fixed e G grid (cls l) q (local l (cid c)) c d /\ k = dofidx d.

  Lemma cell_local c : In c grid -> exists cl, holds (cell_fixes c) cl /\
    forall cg, visit_cell e G ci hash p t cg c = Ok (import ci (hash cl) cg).
  Proof.
    intros IC.
    assert (H0 : holds (fun _ => False) []) by (split; [constructor|intros k; reflexivity|intros k r []]).
    assert (AV : adds (foldM (call_volume G (cid c)) (pairs p t))
       (fun k => exists ql, In ql (pairs p t) /\ exists d, In d (local (snd ql) (cid c)) /\ volume_fixes (cls (snd ql)) c d /\ k = dofidx d)).
    { apply adds_fold. intros [q l] I. apply pairs_governs in I. apply governs_below in I. apply adds_volume; auto. }
    assert (AF : adds (foldM (visit_face e G p t (cid c)) (faces c)) (fun k => exists f, In f (faces c) /\
       exists q l d, governs p t q l /\ In d (local l (cid c)) /\ k = dofidx d /\
       ((classify e f = Boundary /\ boundary_fixes (cls l) q (local l (cid c)) c f d) \/
        (classify e f = Processor /\ processor_fixes (cls l) c f d)))).
    { apply adds_fold. intros f I. apply adds_visit; assumption. }
    destruct (AV _ _ H0) as (cl1 & E1 & H1). destruct (AF _ _ H1) as (cl2 & E2 & H2).
    exists cl2. split.
    - eapply holds_iff; [|exact H2]. intros k. cbn. unfold cell_fixes. split.
      + intros [[[]|([q l] & I & d & A1 & A2 & A3)]|(f & I & q & l & d & A1 & A2 & A3 & A4)].
        * apply pairs_governs in I. exists q, l, d. rewrite fixed_parts. tauto.
        * exists q, l, d. rewrite fixed_parts. repeat split; try assumption.
          destruct A4 as [A4|A4]; right; [left|right]; exists f; tauto.
      + intros (q & l & d & A1 & A2 & A3 & A4). apply fixed_parts in A3. destruct A3 as [A3|[(f & B1 & B2 & B3)|(f & B1 & B2 & B3)]].
        * left. right. exists (q, l). split; [apply pairs_governs, A1|]. exists d. tauto.
        * right. exists f. split; [exact B1|]. exists q, l, d. tauto.
        * right. exists f. split; [exact B1|]. exists q, l, d. tauto.
    - intros cg. unfold visit_cell. rewrite E1. cbn [bind]. rewrite E2. cbn [bind].
      destruct cl2 as [|x cl2]; [|reflexivity]. pose proof (HP []) as HN. apply Permutation_nil in HN. rewrite HN. reflexivity.
  Qed.

  Lemma globally_keys l g : In g (keys (globally ci l)) <-> exists k, In k (keys l) /\ g = ci k.
  Proof.
    unfold keys, globally. rewrite map_map. rewrite in_map_iff. split.
    - intros ((k, r) & <- & I). exists k. split; [|reflexivity]. apply in_map_iff. exists (k, r). tauto.
    - intros (k & I & ->). apply in_map_iff in I. destruct I as ((k', r) & <- & I). exists (k', r). tauto.
  Qed.

  Theorem assembled cells : (forall c, In c cells -> In c grid) -> forall cs cg, merged cs cg ->
    exists cg' new, assemble e G ci hash cells p t cg = Ok cg' /\ merged (cs ++ new) cg' /\
      (forall g r, In (g, r) new -> r = []) /\
      (forall g, In g (keys new) <-> to_be_constrained e G ci grid cells p t g).
  Proof.
    unfold assemble. induction cells as [|c cells IH]; intros HC cs cg M.
    - exists cg, []. cbn [foldM]. split; [reflexivity|]. split; [rewrite app_nil_r; exact M|]. split; [intros g r []|].
      intros g. split; [intros []|]. intros (c & q & l & d & [] & _).
    - destruct (cell_local c (HC c (or_introl eq_refl))) as (cl & HH & EV). cbn [foldM]. rewrite EV. cbn [bind].
      pose proof (import_merged ci (hash cl) cs cg M) as M1.
      destruct (IH (fun x I => HC x (or_intror I)) _ _ M1) as (cg' & new & E & M2 & R & KS).
      exists cg', (globally ci (hash cl) ++ new). split; [exact E|]. split; [rewrite app_assoc; exact M2|]. split.
      + intros g r I. apply in_app_iff in I. destruct I as [I|I]; [|eapply R, I].
        unfold globally in I. apply in_map_iff in I. destruct I as ((k, r0) & E1 & I). cbn [fst snd] in E1. injection E1 as <- <-.
        eapply Permutation_in in I; [|symmetry; apply HP]. rewrite (h_rows _ _ HH k r0 I). reflexivity.
      + intros g. unfold keys. rewrite map_app, in_app_iff. fold (keys (globally ci (hash cl))) (keys new). rewrite KS, globally_keys.
        assert (KH : forall k, In k (keys (hash cl)) <-> cell_fixes c k).
        { intros k. rewrite <- (h_keys _ _ HH). unfold keys. split; apply Permutation_in; apply Permutation_map; [symmetry|]; apply HP. }
        unfold to_be_constrained. split.
        * intros [(k & I & ->)|(c' & q & l & d & A1 & A2)].
          -- apply KH in I. destruct I as (q & l & d & B1 & B2 & B3 & B4). exists c, q, l, d. subst k. cbn. tauto.
          -- exists c', q, l, d. cbn. tauto.
        * intros (c' & q & l & d & [<-|I] & B1 & B2 & B3 & B4).
          -- left. exists (dofidx d). split; [|exact B4]. apply KH. exists q, l, d. tauto.
          -- right. exists c', q, l, d. tauto.
  Qed.
End Grid.

Lemma all_empty_dirichlet cs cg : merged cs cg -> (forall g r, In (g, r) cs -> r = []) ->
  (forall g, constrained (entries cg) g <-> In g (keys cs)) /\ only_dirichlet (entries cg).
Proof.
  intros M H.
  assert (RI : forall g r, In r (rows_for g cs) <-> In (g, r) cs).
  { intros g r. unfold rows_for. rewrite in_map_iff. split.
    - intros ((g', r') & <- & I). apply filter_In in I. destruct I as [I E]. cbn [fst snd] in *. apply Nat.eqb_eq in E. subst g'. exact I.
    - intros I. exists (g, r). split; [reflexivity|]. apply filter_In. cbn [fst]. rewrite Nat.eqb_refl. tauto. }
  split.
  - intros g. unfold constrained. split.
    + intros I. destruct (rows_for g cs) as [|r rs] eqn:E.
      * apply (mg_none _ _ M) in E. apply find_none in E. contradiction.
      * assert (J : In (g, r) cs) by (apply RI; rewrite E; left; reflexivity). eapply in_keys, J.
    + intros I. apply keys_in in I. destruct I as (r & I). destruct (ConsModel.find g (entries cg)) as [r'|] eqn:E.
      * eapply in_keys, find_in, E.
      * apply (mg_none _ _ M) in E. apply RI in I. rewrite E in I. destruct I.
  - intros g r I. apply in_find in I; [|apply (mg_proper _ _ M)]. destruct (rows_for g cs) as [|r0 rs] eqn:E.
    + apply (mg_none _ _ M) in E. congruence.
    + assert (J : In (g, r0) cs) by (apply RI; rewrite E; left; reflexivity).
      pose proof (H _ _ J) as ->. apply RI in J. apply (mg_dirichlet _ _ M) in J. congruence.
Qed.
