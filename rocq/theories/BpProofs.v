(** Proofs about the function space facades. *)
From Coq Require Import Reals Permutation Lra.
From Verif Require Import Common CommonFacts ParModel ParSpec DdModel DdSpec DdProofs BpModel BpSpec.

Lemma dof_eqb_iff d e : dof_eqb d e = true <-> d = e.
Proof.
  unfold dof_eqb. rewrite Bool.andb_true_iff, !Nat.eqb_eq. destruct d, e; simpl. split; [intros (-> & ->)|injection 1]; auto.
Qed.
Lemma dof_in_dec (d : dof) l : {In d l} + {~ In d l}.
Proof. apply in_dec. decide equality; apply Nat.eq_dec. Qed.

Lemma copy_loop_in keys xin : forall xout d, In d keys -> copy_loop keys xin xout d = xin d.
Proof.
  unfold copy_loop. induction keys as [|k keys IH]; intros xout d H; [easy|]. simpl.
  destruct (dof_in_dec d keys) as [I|I]; [now apply IH|]. destruct H as [->|H]; [|easy]. clear IH.
  assert (E : write d (xin d) xout d = xin d) by (unfold write; now rewrite (proj2 (dof_eqb_iff d d) eq_refl)).
  revert E. generalize (write d (xin d) xout). induction keys as [|k keys IH]; intros v E; auto. simpl. apply IH.
  - intros C. apply I. now right.
  - unfold write. destruct (dof_eqb k d) eqn:B; auto. apply dof_eqb_iff in B. subst. auto.
Qed.
Lemma copy_loop_out keys xin : forall xout d, ~ In d keys -> copy_loop keys xin xout d = xout d.
Proof.
  unfold copy_loop. induction keys as [|k keys IH]; intros xout d H; [easy|]. simpl. rewrite IH; [|intros C; apply H; now right].
  unfold write. destruct (dof_eqb k d) eqn:B; auto. apply dof_eqb_iff in B. exfalso. apply H. now left.
Qed.
Lemma set_loop_copy keys r v : set_loop keys r v = copy_loop keys (fun _ => r) v.
Proof. reflexivity. Qed.

Section facade.
  Variables (W : world) (F : faces) (c : category) (porder order : order_t).
  (** The rank from which a copy takes its value. *)
  Variable source : nat -> dof -> nat.
  Hypothesis source_stores : forall q d, has_dof W q d -> has_dof W (source q d) d.
  Hypothesis source_source : forall q d, has_dof W q d -> source (source q d) d = source q d.
  Hypothesis consistent_call : forall v : dvec R, sized W v -> exists v',
    BpModel.make_consistent W c porder order v = Ok v' /\ forall q d, has_dof W q d -> val (v' q) d = val (v (source q d)) d.

  (** Where it counts, the container and the vectors are the undistributed ones. *)
  Definition agrees (st : state) (g : gstate) : Prop :=
    forall q d, has_dof W q d ->
      (In d (cc st (source q d)) <-> constrained g d) /\ forall x, val (vectors st x (source q d)) d = values g x d.

  Lemma store_spec st x (f : nat -> dof -> R) : exists st', store W c porder order st x (fun q => tabulate W (f q)) = Ok st' /\
    cc st' = cc st /\ (forall y, y <> x -> vectors st' y = vectors st y) /\
    forall q d, has_dof W q d -> val (vectors st' x q) d = f (source q d) d.
  Proof.
    destruct (consistent_call _ (tabulate_sized W f)) as (v' & E & V). unfold store. rewrite E. cbn. eexists. split; [reflexivity|].
    cbn [vectors cc]. split; auto. rewrite Nat.eqb_refl. split.
    - intros y H. destruct (Nat.eqb_spec y x); [easy|auto].
    - intros q d H. rewrite V by auto. now rewrite (tabulate_val W _ (source q d)) by auto.
  Qed.

  Hypothesis assembled_right : forall dirichlet q d, has_dof W q d ->
    In d (assembled F c dirichlet (source q d)) <-> on_dirichlet W F dirichlet d.

  Lemma step_agrees st g o g' : agrees st g -> gstep W F g g' o ->
    exists st', step W F c porder order st o = Ok st' /\ agrees st' g' /\
      (forall x, written o <> Some x -> vectors st' x = vectors st x) /\
      (forall x, written o = Some x -> consistent W (vectors st' x) (values g' x)).
  Proof.
    intros A G.
    assert (K : forall x (f : nat -> dof -> R),
      (forall d, constrained g' d <-> constrained g d) ->
      (forall q d, has_dof W q d -> f (source q d) d = values g' x d) ->
      (forall y d, y <> x -> values g' y d = values g y d) ->
      exists st', store W c porder order st x (fun q => tabulate W (f q)) = Ok st' /\ agrees st' g' /\
      (forall y, Some x <> Some y -> vectors st' y = vectors st y) /\
      (forall y, Some x = Some y -> consistent W (vectors st' y) (values g' y))).
    { intros x f C V N. destruct (store_spec st x f) as (st' & E & E1 & E2 & E3). exists st'. split; auto. split; [|split].
      - intros q d H. destruct (A q d H) as (A1 & A2). rewrite E1, C. split; auto. intros y. destruct (Nat.eq_dec y x) as [->|D].
        + rewrite E3 by auto. rewrite source_source by auto. auto.
        + rewrite E2, N by auto. auto.
      - intros y D. apply E2. congruence.
      - intros y D. injection D as <-. intros q d H. rewrite E3 by auto. auto. }
    destruct o; cbn [step written gstep] in *.
    - eexists. split; [reflexivity|]. destruct G as (G1 & G2). split; [|easy]. intros q d H. cbn.
      rewrite assembled_right, G1 by auto. split; [reflexivity|]. intros x. rewrite G2. now apply A.
    - eexists. split; [reflexivity|]. destruct G as (G1 & G2). split; [|easy]. intros q d H. cbn.
      split; [specialize (G1 d); tauto|]. intros x. rewrite G2. now apply A.
    - destruct G as (G1 & G2 & G3 & G4). apply (K x (fun q => set_loop (cc st q) r (val (vectors st x q)))); auto.
      intros q d H. destruct (A q d H) as (A1 & A2). rewrite set_loop_copy. destruct (dof_in_dec d (cc st (source q d))) as [I|I].
      + rewrite copy_loop_in by auto. symmetry. apply G2. tauto.
      + rewrite copy_loop_out by auto. rewrite A2. symmetry. apply G3. tauto.
    - destruct G as (G1 & G2 & G3 & G4). apply (K x (fun q => set_non_loop (cc st q) r (val (vectors st x q)))); auto.
      intros q d H. destruct (A q d H) as (A1 & A2). unfold set_non_loop. destruct (dof_in_dec d (cc st (source q d))) as [I|I].
      + rewrite copy_loop_in by auto. rewrite A2. symmetry. apply G2. tauto.
      + rewrite copy_loop_out by auto. symmetry. apply G3. tauto.
    - destruct G as (G1 & G2 & G3 & G4). apply (K xout (fun q => copy_loop (cc st q) (val (vectors st xin q)) (val (vectors st xout q)))); auto.
      intros q d H. destruct (A q d H) as (A1 & A2). destruct (dof_in_dec d (cc st (source q d))) as [I|I].
      + rewrite copy_loop_in by auto. rewrite A2. symmetry. apply G2. tauto.
      + rewrite copy_loop_out by auto. rewrite A2. symmetry. apply G3. tauto.
    - destruct G as (G1 & G2 & G3 & G4). apply (K xout (fun q => copy_non_loop (cc st q) (val (vectors st xin q)) (val (vectors st xout q)))); auto.
      intros q d H. destruct (A q d H) as (A1 & A2). unfold copy_non_loop. destruct (dof_in_dec d (cc st (source q d))) as [I|I].
      + rewrite copy_loop_in by auto. rewrite A2. symmetry. apply G2. tauto.
      + rewrite copy_loop_out by auto. rewrite A2. symmetry. apply G3. tauto.
  Qed.

  Lemma step_values g o g' x d : gstep W F g g' o -> written o <> Some x -> values g' x d = values g x d.
  Proof.
    intros G N. destruct o; cbn in *; try (now apply G); destruct G as (_ & _ & _ & G); apply G; congruence.
  Qed.

  Lemma run_agrees os g g' : gruns W F os g g' -> forall st, agrees st g ->
    exists st', run W F c porder order os st = Ok st' /\ agrees st' g' /\
      (forall x, ~ In (Some x) (map written os) -> vectors st' x = vectors st x /\ forall d, values g' x d = values g x d) /\
      (forall x, In (Some x) (map written os) -> consistent W (vectors st' x) (values g' x)).
  Proof.
    induction 1 as [g|o os g g1 g2 G GS IH]; intros st A.
    - exists st. cbn. repeat split; auto; try easy; apply A; auto.
    - destruct (step_agrees st g o g1 A G) as (st1 & E1 & A1 & U1 & C1). destruct (IH st1 A1) as (st2 & E2 & A2 & U2 & C2).
      exists st2. unfold run in *. cbn. rewrite E1. cbn. split; auto. split; auto. split.
      + intros x N. assert (N1 : written o <> Some x) by tauto. assert (N2 : ~ In (Some x) (map written os)) by tauto.
        destruct (U2 x N2) as (U3 & U4). rewrite U3. split; [now apply U1|].
        intros d. rewrite U4. now apply (step_values g o).
      + intros x [I|I]; [|now apply C2].
        destruct (in_dec (fun a b : option nat => ltac:(decide equality; apply Nat.eq_dec)) (Some x) (map written os)) as [J|J]; [now apply C2|].
        destruct (U2 x J) as (U3 & U4). intros q d H. rewrite U3, U4. now apply (C1 x).
  Qed.
End facade.

(** Every program has an undistributed counterpart. *)
Lemma dirichlet_dec W F dirichlet d : {on_dirichlet W F dirichlet d} + {~ on_dirichlet W F dirichlet d}.
Proof.
  destruct (existsb (fun q => existsb (fun f => dirichlet (fid f) && existsb (dof_eqb d) (fdofs f)) (boundary_faces F q)) (seq 0 (nranks W))) eqn:E.
  - left. apply existsb_exists in E as (q & Q & E). apply in_seq in Q. apply existsb_exists in E as (f & I & E).
    apply Bool.andb_true_iff in E as (E1 & E2). apply existsb_exists in E2 as (e & I2 & E2). apply dof_eqb_iff in E2. subst e.
    exists q, f. repeat split; auto. lia.
  - right. intros (q & f & Q & I & D & M). apply Bool.not_true_iff_false in E. apply E. apply existsb_exists. exists q. split; [apply in_seq; lia|].
    apply existsb_exists. exists f. split; auto. rewrite D. apply existsb_exists. exists d. split; auto. now apply dof_eqb_iff.
Qed.

Lemma gruns_exist W F os : forall g, (forall d, {constrained g d} + {~ constrained g d}) -> exists g', gruns W F os g g'.
Proof.
  induction os as [|o os IH]; intros g D; [exists g; constructor|].
  assert (exists g1 (D1 : forall d, {constrained g1 d} + {~ constrained g1 d}), gstep W F g g1 o) as (g1 & D1 & G).
  { set (sel := fun (x : nat) (a b : dof -> R) => GState (constrained g)
       (fun y d => if y =? x then (if D d then a d else b d) else values g y d)).
    assert (S1 : forall x a b d, constrained g d -> values (sel x a b) x d = a d).
    { intros x a b d H. cbn. rewrite Nat.eqb_refl. now destruct (D d). }
    assert (S2 : forall x a b d, ~ constrained g d -> values (sel x a b) x d = b d).
    { intros x a b d H. cbn. rewrite Nat.eqb_refl. now destruct (D d). }
    assert (S3 : forall x a b y d, y <> x -> values (sel x a b) y d = values g y d).
    { intros x a b y d H. cbn. now destruct (Nat.eqb_spec y x). }
    destruct o.
    - exists (GState (on_dirichlet W F dirichlet) (values g)), (dirichlet_dec W F dirichlet). split; intros; cbn; tauto.
    - exists (GState (fun _ => False) (values g)), (fun _ => right (fun h => h)). split; intros; cbn; tauto.
    - exists (sel x (fun _ => r) (values g x)), D. split; [now intros|]. repeat split; intros; [now rewrite S1|now rewrite S2|now rewrite S3].
    - exists (sel x (values g x) (fun _ => r)), D. split; [now intros|]. repeat split; intros; [now rewrite S1|now rewrite S2|now rewrite S3].
    - exists (sel xout (values g xin) (values g xout)), D. split; [now intros|]. repeat split; intros; [now rewrite S1|now rewrite S2|now rewrite S3].
    - exists (sel xout (values g xout) (values g xin)), D. split; [now intros|]. repeat split; intros; [now rewrite S1|now rewrite S2|now rewrite S3]. }
  destruct (IH g1 D1) as (g' & H). exists g'. econstructor; eauto.
Qed.
