(** Darcy velocities: proofs. *)
From Coq Require Import FunctionalExtensionality Lra Lia.
From Verif Require Import CommonFacts CcfvModel EngineProofs DiagSpec DiagProofs CcfvSpec CcfvProofs CcfvProofs2 VelModel VelSpec.
From Verif Require TpModel TpProofs CdSpec CdProofs FlowProofs.
Local Open Scope R_scope.

Lemma nsum_rsum n f : nsum n f = CdSpec.rsum n f.
Proof. induction n; cbn; congruence. Qed.
Lemma nsum_ext' n f g : (forall k, (k < n)%nat -> f k = g k) -> nsum n f = nsum n g.
Proof. intros H. rewrite !nsum_rsum. now apply CdProofs.rsum_ext. Qed.
Lemma dotn_inner d a b : dotn d a b = CdSpec.inner d a b.
Proof. apply nsum_rsum. Qed.

(** ** The normal velocities *)
Lemma normal_velocity_flux G P t u c f : (boundary f = false -> neighbor f = true -> 0 <= K (vg_fv G) P t c (normal (vg_fv G) c f) /\ 0 <= K (vg_fv G) P t (outside f) (normal (vg_fv G) c f)) ->
  ~ periodic f -> normal_velocity G P t u c f = darcy_flux (vg_fv G) P t u c f.
Proof.
  intros HK HP. unfold normal_velocity, darcy_flux, periodic, cell_distance, face_distance in *. rewrite !distance_spec, permeability_spec.
  destruct (boundary f) eqn:B, (neighbor f) eqn:N; try (exfalso; now apply HP).
  - destruct (pbc P t c f); reflexivity.
  - destruct HK as [H1 H2]; try easy. now rewrite k_avg_spec.
  - reflexivity.
Qed.
Lemma gap_sym Q x y : gap Q x y = gap Q y x.
Proof. unfold gap. f_equal. apply nsum_ext'. intros. ring. Qed.
Lemma K_opp Q P t c n n' : (forall i, n' i = - n i) -> K Q P t c n' = K Q P t c n.
Proof.
  intros H. unfold K. apply nsum_ext'. intros i _. rewrite H.
  rewrite (nsum_ext' _ (fun j => pA P t c i j * n' j) (fun j => - (1) * (pA P t c i j * n j))) by (intros; rewrite H; ring).
  rewrite (nsum_rsum _ (fun j => - (1) * _)), CdProofs.rsum_scal, <- nsum_rsum. ring.
Qed.
Lemma harmonic_comm a b : harmonic_mean a b = harmonic_mean b a.
Proof. unfold harmonic_mean. rewrite (Rplus_comm b a). unfold Rdiv. ring. Qed.
Lemma darcy_flux_opposite Q P t u c f c' f' : neighbor f = true -> boundary f = false -> neighbor f' = true -> boundary f' = false ->
  outside f = c' -> outside f' = c -> (forall i, normal Q c' f' i = - normal Q c f i) ->
  darcy_flux Q P t u c' f' = - darcy_flux Q P t u c f.
Proof.
  intros N B N' B' O O' H. unfold darcy_flux. rewrite N, B, N', B', O, O'. cbv zeta. rewrite (K_opp Q P t c (normal Q c f) (normal Q c' f')), (K_opp Q P t c' (normal Q c f) (normal Q c' f')) by easy.
  rewrite (harmonic_comm (K Q P t c (normal Q c f) + tiny)), (gap_sym Q (center Q c) (center Q c')). unfold Rdiv. ring.
Qed.

(** ** The coefficients of a cell *)
Section Coefficients.
  Variables (G : velgeo) (P : fvparam) (t : R) (u : vec) (c : cell) (n : nat -> vec).
  Notation d := (gdim (vg_fv G)).
  Hypothesis HC : conforming G c n.
  Notation num := (face_number G (cid c)).
  Definition face_velocity (i : nat) : R :=
    match find (fun f => (num f =? i)%nat) (faces c) with Some f => normal_velocity G P t u (cid c) f | None => 0 end.

  Lemma find_face l f : NoDup (map num l) -> In f l -> find (fun g => (num g =? num f)%nat) l = Some f.
  Proof.
    induction l as [|a l IH]; intros HN HI; [easy|]. cbn in *. inversion HN as [|? ? H1 H2]; subst.
    destruct HI as [->|HI]; [now rewrite Nat.eqb_refl|].
    destruct (Nat.eqb_spec (num a) (num f)) as [E|E]; [|now apply IH].
    exfalso. apply H1. rewrite E. now apply in_map.
  Qed.
  Lemma face_velocity_at f : In f (faces c) -> face_velocity (num f) = normal_velocity G P t u (cid c) f.
  Proof. intros H. unfold face_velocity. now rewrite find_face by (try apply HC; easy). Qed.

  Lemma set_fold (v : face -> nat -> R) l (co : vec) i : NoDup (map num l) ->
    fold_left (fun co f => set co (num f) (v f (num f))) l co i =
    match find (fun f => (num f =? i)%nat) l with Some f => v f i | None => co i end.
  Proof.
    revert co. induction l as [|a l IH]; intros co HN; [reflexivity|]. cbn in *. inversion HN as [|? ? H1 H2]; subst.
    rewrite IH by easy. destruct (Nat.eqb_spec (num a) i) as [E|E].
    - destruct (find _ l) as [f|] eqn:F.
      + apply find_some in F as [F1 F2]. apply Nat.eqb_eq in F2. exfalso. apply H1. rewrite E, <- F2. now apply in_map.
      + unfold set. subst i. now rewrite Nat.eqb_refl.
    - destruct (find _ l); [reflexivity|]. unfold set. destruct (Nat.eqb_spec i (num a)); congruence.
  Qed.
  Lemma rt0_coeff_ext B det (n1 n2 : nat -> vec) (v1 v2 : nat -> R) i : (forall k, n1 i k = n2 i k) -> v1 i = v2 i ->
    TpModel.rt0_coeff d B det n1 v1 i = TpModel.rt0_coeff d B det n2 v2 i.
  Proof. intros H1 H2. unfold TpModel.rt0_coeff. rewrite H2. replace (n1 i) with (n2 i) by (extensionality k; now rewrite H1). reflexivity. Qed.
  Lemma rt0_coeff_zero B det (n1 : nat -> vec) (v1 : nat -> R) i : v1 i = 0 -> TpModel.rt0_coeff d B det n1 v1 i = 0.
  Proof.
    intros H. unfold TpModel.rt0_coeff. rewrite CdProofs.dot_sum. unfold CdSpec.inner.
    transitivity (CdSpec.rsum d (fun _ => 0)); [|apply CdProofs.rsum_0]. apply CdProofs.rsum_ext. intros k _. rewrite CdProofs.dot_sum. unfold CdSpec.inner.
    replace (CdSpec.rsum d _) with 0; [ring|]. transitivity (CdSpec.rsum d (fun _ => 0)); [symmetry; apply CdProofs.rsum_0|].
    apply CdProofs.rsum_ext. intros. rewrite H. ring.
  Qed.
  Lemma coefficients_at i : cell_coefficients G P t u c i =
    TpModel.rt0_coeff d (jit G (cid c)) (jit_det G (cid c)) n face_velocity i.
  Proof.
    unfold cell_coefficients.
    rewrite (set_fold (fun f i => TpModel.rt0_coeff d (jit G (cid c)) (jit_det G (cid c)) (fun _ => normal (vg_fv G) (cid c) f) (fun _ => normal_velocity G P t u (cid c) f) i)) by apply HC.
    unfold face_velocity at 1. destruct (find _ (faces c)) as [f|] eqn:F.
    - pose proof F as F'. apply find_some in F' as [F1 F2]. apply Nat.eqb_eq in F2. apply rt0_coeff_ext.
      + intros k. rewrite <- F2. now apply HC.
      + unfold face_velocity. now rewrite F.
    - symmetry. apply rt0_coeff_zero. unfold face_velocity. now rewrite F.
  Qed.
End Coefficients.

(** ** Evaluation *)
Lemma evaluations_fresh G co l : match evaluations G co l with None => True | Some (i, (B, det)) => exists x, B = jt G i x /\ det = jt_det G i x end.
Proof.
  unfold evaluations.
  assert (H : forall m : cache, match m with None => True | Some (i, (B, det)) => exists x, B = jt G i x /\ det = jt_det G i x end ->
    match fold_left (fun m a => snd (evaluate G (co (fst a)) (fst a) (snd a) m)) l m with None => True | Some (i, (B, det)) => exists x, B = jt G i x /\ det = jt_det G i x end).
  { induction l as [|(c, x) l IH]; intros m H; [exact H|]. cbn [fold_left fst snd]. apply IH. unfold evaluate.
    destruct m as [(i, (B, det))|]; [destruct (c =? i)%nat|]; cbn [snd]; [exact H| |]; now exists x. }
  apply H. exact I.
Qed.

Section Field.
  Variables (G : velgeo) (P : fvparam) (t : R) (u : vec) (c : cell) (n : nat -> vec).
  Notation d := (gdim (vg_fv G)).
  Hypothesis HC : conforming G c n.
  Hypothesis HA : affine_cube G (cid c) n.

  Lemma evaluate_field co l x : exists J,
    (forall x k l, jt G (cid c) x k l = J k l) /\
    forall k, (k < d)%nat -> fst (evaluate G (cell_coefficients G P t u c) (cid c) x (evaluations G co l)) k =
    TpModel.rt0_field d (jit G (cid c)) J (jit_det G (cid c)) n (face_velocity G P t u c) x k.
  Proof.
    destruct HA as (J & len & HJ & HD & _). exists J. split; [exact HJ|]. intros k Hk.
    assert (HE : exists x', fst (evaluate G (cell_coefficients G P t u c) (cid c) x (evaluations G co l)) k =
      CdModel.dot d (fun l => jt G (cid c) x' l k)
        (CdModel.loop (2 * d) (fun i (y : vec) k => y k + cell_coefficients G P t u c i * TpModel.rt0 i x k) (fun _ => 0)) * jt_det G (cid c) x').
    { pose proof (evaluations_fresh G co l) as F. unfold evaluate. destruct (evaluations G co l) as [(i, (B, det))|].
      - destruct (Nat.eqb_spec (cid c) i) as [E|E].
        + destruct F as (x' & -> & ->). exists x'. subst i. reflexivity.
        + exists x. reflexivity.
      - exists x. reflexivity. }
    destruct HE as (x' & ->). unfold TpModel.rt0_field. rewrite !CdProofs.dot_sum.
    assert (ND : jit_det G (cid c) <> 0) by (intros E; pose proof (HD x') as F; rewrite E in F; lra).
    assert (EI : jt_det G (cid c) x' = / jit_det G (cid c)) by (apply (Rmult_eq_reg_r (jit_det G (cid c))); [rewrite HD; now field|easy]).
    rewrite EI. unfold Rdiv. f_equal. unfold CdSpec.inner. apply CdProofs.rsum_ext. intros m Hm. rewrite HJ. f_equal.
    rewrite !TpProofs.yhat_at by easy. now rewrite !(coefficients_at G P t u c n HC).
  Qed.
  Lemma field_normal co l x f : In f (faces c) -> on_face x (face_number G (cid c) f) ->
    dotn d (fst (evaluate G (cell_coefficients G P t u c) (cid c) x (evaluations G co l))) (normal (vg_fv G) (cid c) f) = normal_velocity G P t u (cid c) f.
  Proof.
    intros Hf Hx. destruct (evaluate_field co l x) as (J & HJ & HE). destruct HA as (J' & len & HJ' & HD & HI & HI' & HL & HN & HU).
    assert (EJ : J' = J) by (extensionality a; extensionality b; rewrite <- (HJ x), <- (HJ' x); reflexivity). subst J'.
    assert (ND : jit_det G (cid c) <> 0) by (intros E; pose proof (HD x) as F; rewrite E in F; lra).
    rewrite dotn_inner. destruct (proj2 HC f Hf) as [Hi Hn].
    transitivity (CdSpec.inner d (TpModel.rt0_field d (jit G (cid c)) J (jit_det G (cid c)) n (face_velocity G P t u c) x) (n (face_number G (cid c) f))).
    - unfold CdSpec.inner. apply CdProofs.rsum_ext. intros k Hk. now rewrite HE, Hn.
    - rewrite <- (face_velocity_at G P t u c n HC f Hf).
      apply (TpProofs.field_normal d (jit G (cid c)) J (jit_det G (cid c)) n len (face_velocity G P t u c)); try easy.
  Qed.
  Lemma field_constant co l x v : (forall i, (i < 2 * d)%nat -> In i (map (face_number G (cid c)) (faces c))) ->
    (forall f, In f (faces c) -> normal_velocity G P t u (cid c) f = dotn d v (normal (vg_fv G) (cid c) f)) ->
    forall k, (k < d)%nat -> fst (evaluate G (cell_coefficients G P t u c) (cid c) x (evaluations G co l)) k = v k.
  Proof.
    intros HF HV k Hk. destruct (evaluate_field co l x) as (J & HJ & HE). destruct HA as (J' & len & HJ' & HD & HI & HI' & HL & HN & HU).
    assert (EJ : J' = J) by (extensionality a; extensionality b; rewrite <- (HJ x), <- (HJ' x); reflexivity). subst J'.
    assert (ND : jit_det G (cid c) <> 0) by (intros E; pose proof (HD x) as F; rewrite E in F; lra).
    rewrite HE by easy.
    assert (T : forall w, CdSpec.inner d (TpModel.rt0_field d (jit G (cid c)) J (jit_det G (cid c)) n (face_velocity G P t u c) x) w = CdSpec.inner d v w).
    { intros w. apply (TpProofs.field_constant d (jit G (cid c)) J (jit_det G (cid c)) n len (face_velocity G P t u c)); try easy.
      intros i Hi. destruct (proj1 (in_map_iff _ _ _) (HF i Hi)) as (f & <- & Hf). rewrite (face_velocity_at G P t u c n HC f Hf), HV, dotn_inner by easy.
        apply CdProofs.rsum_ext. intros m _. now rewrite (proj2 (proj2 HC f Hf)). }
    specialize (T (fun m => if (m =? k)%nat then 1 else 0)). unfold CdSpec.inner in T.
    rewrite (CdProofs.rsum_ext d _ (fun m => if (m =? k)%nat then TpModel.rt0_field d (jit G (cid c)) J (jit_det G (cid c)) n (face_velocity G P t u c) x m else 0)) in T by (intros m _; destruct (m =? k)%nat; ring).
    rewrite (FlowProofs.rsum_pick d (TpModel.rt0_field d (jit G (cid c)) J (jit_det G (cid c)) n (face_velocity G P t u c) x)) in T by easy. rewrite T.
    rewrite (CdProofs.rsum_ext d _ (fun m => if (m =? k)%nat then v m else 0)) by (intros m _; destruct (m =? k)%nat; ring).
    now rewrite (FlowProofs.rsum_pick d v).
  Qed.
End Field.

(** ** Exchange *)
Lemma exchange_owner G P t u cellof interior owner has messages : interface owner has messages ->
  (forall p c, interior p c = true <-> p = owner c) ->
  forall c, (forall q, has q c = true -> construct G P t u cellof interior messages q c = cell_coefficients G P t u (cellof c)) /\
            construct G P t u cellof interior messages (owner c) c = cell_coefficients G P t u (cellof c).
Proof.
  intros [H1 H2] HI c. unfold construct.
  assert (HH : forall l (s : store), (forall p q c', In (p, q, c') l -> p = owner c') -> s (owner c) c = cell_coefficients G P t u (cellof c) ->
    fold_left deliver l s (owner c) c = cell_coefficients G P t u (cellof c) /\
    forall q, In (owner c, q, c) l \/ s q c = cell_coefficients G P t u (cellof c) -> fold_left deliver l s q c = cell_coefficients G P t u (cellof c)).
  { induction l as [|((p, q), c') l IH]; intros s HS HO; [split; [exact HO|intros q [[]|H]; exact H]|]. cbn [fold_left].
    assert (HS' : forall p q c', In (p, q, c') l -> p = owner c') by (intros; eapply HS; right; eassumption).
    assert (Hp : p = owner c') by (apply (HS p q c'); now left).
    assert (HO' : deliver s (p, q, c') (owner c) c = cell_coefficients G P t u (cellof c)).
    { unfold deliver. destruct (Nat.eqb_spec (owner c) q), (Nat.eqb_spec c c'); cbn; try exact HO. subst. exact HO. }
    destruct (IH _ HS' HO') as [I1 I2]. split; [exact I1|]. intros q' H. apply I2.
    destruct H as [[H|H]|H].
    - right. inversion H; subst. unfold deliver. rewrite !Nat.eqb_refl. exact HO.
    - now left.
    - right. unfold deliver. destruct (Nat.eqb_spec q' q), (Nat.eqb_spec c c'); cbn; try exact H. subst. exact HO. }
  destruct (HH messages (fun p c => if interior p c then cell_coefficients G P t u (cellof c) else fun _ => 0) H1) as [I1 I2].
  { now rewrite (proj2 (HI (owner c) c) eq_refl). }
  split; [|exact I1]. intros q Hq. destruct (Nat.eq_dec q (owner c)) as [->|E]; [exact I1|]. apply I2. left. now apply H2.
Qed.
