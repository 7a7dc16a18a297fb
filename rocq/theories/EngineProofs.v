From Coq Require Import FunctionalExtensionality.
From Verif Require Import DriverProofs EngineModel EngineSpec.
Local Open Scope R_scope.

Ltac vext := apply functional_extensionality; intro.

Lemma lsum_app {A} (f : A -> R) l l' : lsum f (l ++ l') = lsum f l + lsum f l'.
Proof. unfold lsum. induction l as [|x l IH]; cbn [fold_right app]; [lra|]. rewrite IH. lra. Qed.
Lemma lsum_cons {A} (f : A -> R) x l : lsum f (x :: l) = f x + lsum f l. Proof. reflexivity. Qed.
Lemma lsum_nil {A} (f : A -> R) : lsum f [] = 0. Proof. reflexivity. Qed.
Lemma lsum_ext {A} (f g : A -> R) l : (forall x, In x l -> f x = g x) -> lsum f l = lsum g l.
Proof.
  unfold lsum. induction l as [|x l IH]; intros H; cbn [fold_right]; [reflexivity|].
  rewrite (H x (or_introl eq_refl)), IH; [reflexivity|]. intros y Y. apply H. now right.
Qed.
Lemma lsum_plus {A} (f g : A -> R) l : lsum (fun x => f x + g x) l = lsum f l + lsum g l.
Proof. unfold lsum. induction l as [|x l IH]; cbn [fold_right]; [lra|]. rewrite IH. lra. Qed.
Lemma lsum_scal {A} w (f : A -> R) l : lsum (fun x => w * f x) l = w * lsum f l.
Proof. unfold lsum. induction l as [|x l IH]; cbn [fold_right]; [lra|]. rewrite IH. lra. Qed.
Lemma lsum_zero {A} (f : A -> R) l : (forall x, In x l -> f x = 0) -> lsum f l = 0.
Proof.
  intros H. rewrite (lsum_ext f (fun _ => 0) l H). unfold lsum. clear H.
  induction l as [|x l IH]; cbn [fold_right]; [lra|]. rewrite IH. lra.
Qed.
Lemma lsum_flat_map {A B} (f : B -> R) (h : A -> list B) l : lsum f (flat_map h l) = lsum (fun a => lsum f (h a)) l.
Proof. induction l as [|x l IH]; cbn [flat_map]; [reflexivity|]. rewrite lsum_app, IH. reflexivity. Qed.

Lemma vadd_zero_r v : vadd v vzero = v. Proof. vext. unfold vadd, vzero. lra. Qed.
Lemma vadd_zero_l v : vadd vzero v = v. Proof. vext. unfold vadd, vzero. lra. Qed.
Lemma vadd_assoc u v w : vadd (vadd u v) w = vadd u (vadd v w). Proof. vext. unfold vadd. lra. Qed.
Lemma vadd_comm u v : vadd u v = vadd v u. Proof. vext. unfold vadd. lra. Qed.
Lemma vscal_zero w : vscal w vzero = vzero. Proof. vext. unfold vscal, vzero. lra. Qed.
Lemma vscal_zero_l v : vscal 0 v = vzero. Proof. vext. unfold vscal, vzero. lra. Qed.
Lemma vscal_add w u v : vscal w (vadd u v) = vadd (vscal w u) (vscal w v). Proof. vext. unfold vscal, vadd. lra. Qed.

Lemma scatter_from_zero ds : forall i g, scatter_from i ds vzero g = 0.
Proof. induction ds as [|d ds IH]; intros i g; cbn [scatter_from]; [reflexivity|]. rewrite IH. unfold vzero. destruct (_ =? _)%nat; lra. Qed.
Lemma scatter_zero ds : scatter ds vzero = vzero. Proof. vext. apply scatter_from_zero. Qed.
Lemma scatter_from_add ds u v : forall i g, scatter_from i ds (vadd u v) g = scatter_from i ds u g + scatter_from i ds v g.
Proof. induction ds as [|d ds IH]; intros i g; cbn [scatter_from]; [unfold vzero; lra|]. rewrite IH. unfold vadd. destruct (_ =? _)%nat; lra. Qed.
Lemma scatter_add ds u v : scatter ds (vadd u v) = vadd (scatter ds u) (scatter ds v). Proof. vext. apply scatter_from_add. Qed.
Lemma scatter_from_scal ds w u : forall i g, scatter_from i ds (vscal w u) g = w * scatter_from i ds u g.
Proof. induction ds as [|d ds IH]; intros i g; cbn [scatter_from]; [unfold vzero; lra|]. rewrite IH. unfold vscal. destruct (_ =? _)%nat; lra. Qed.
Lemma scatter_scal ds w u : scatter ds (vscal w u) = vscal w (scatter ds u). Proof. vext. apply scatter_from_scal. Qed.

(** The idealised engine: every assemble call adds a fixed contribution [K] to the local vectors. *)
Record ms := mkms { m_rl : vec; m_rn : vec; m_rld : list nat; m_rnd : list nat }.
Section Ideal.
  Variables (G : space) (K : call -> vec * vec).
  Definition add_in (x : call) (m : ms) := mkms (vadd (m_rl m) (fst (K x))) (m_rn m) (m_rld m) (m_rnd m).
  Definition add_both (x : call) (m : ms) := mkms (vadd (m_rl m) (fst (K x))) (vadd (m_rn m) (snd (K x))) (m_rld m) (m_rnd m).
  Definition ideal_step (x : call) (m : ms) : ms * vec :=
    match x with
    | OnBindV c => (mkms vzero (m_rn m) (lfsv G (cid c)) (m_rnd m), vzero)
    | OnBindVOutside _ f _ => (mkms (m_rl m) vzero (m_rld m) (lfsv G (outside f)), vzero)
    | OnUnbindV _ => (m, scatter (m_rld m) (m_rl m))
    | OnUnbindVOutside _ _ _ => (m, scatter (m_rnd m) (m_rn m))
    | AsmVVolume _ | AsmUVVolume _ | AsmVBoundary _ _ _ | AsmUVBoundary _ _ _ | AsmVPost _ | AsmUVPost _ => (add_in x m, vzero)
    | AsmVSkeleton _ _ _ | AsmUVSkeleton _ _ _ => (add_both x m, vzero)
    | _ => (m, vzero)
    end.
  Fixpoint ideal_run (l : list call) (m : ms) (r : vec) : ms * vec :=
    match l with [] => (m, r) | x :: l' => let (m', v) := ideal_step x m in ideal_run l' m' (vadd r v) end.

  (** what a call finally contributes to the residual *)
  Definition contrib (g : nat) (x : call) : R :=
    match x with
    | AsmVVolume c | AsmUVVolume c | AsmVPost c | AsmUVPost c | AsmVBoundary c _ _ | AsmUVBoundary c _ _ =>
        scatter (lfsv G (cid c)) (fst (K x)) g
    | AsmVSkeleton c f _ | AsmUVSkeleton c f _ =>
        scatter (lfsv G (cid c)) (fst (K x)) g + scatter (lfsv G (outside f)) (snd (K x)) g
    | _ => 0
    end.

  Lemma ideal_run_app l l' m r : ideal_run (l ++ l') m r = let (m', r') := ideal_run l m r in ideal_run l' m' r'.
  Proof.
    revert m r. induction l as [|x l IH]; intros m r; cbn [ideal_run app]; [reflexivity|].
    destruct (ideal_step x m) as [m' v]. apply IH.
  Qed.

  (** "the residual plus what the local vector still holds for cell c" *)
  Definition pend (c : cell) (m : ms) (r : vec) (g : nat) : R := r g + scatter (lfsv G (cid c)) (m_rl m) g.

  Lemma ideal_face e fl c i f m r :
    m_rld m = lfsv G (cid c) ->
    let '(m', r') := ideal_run (face_calls e fl c i f) m r in
    m_rld m' = lfsv G (cid c) /\ forall g, pend c m' r' g = pend c m r g + lsum (contrib g) (face_calls e fl c i f).
  Proof.
    intros D. unfold face_calls.
    destruct (classify e f), (uv_skeleton fl), (v_skeleton fl), (uv_boundary fl), (v_boundary fl), (two_sided fl), (outside f <? cid c)%nat;
      cbn [orb app]; cbn [ideal_run ideal_step add_in add_both m_rl m_rn m_rld m_rnd];
      (split; [exact D|]); intros g; unfold pend, add_in, add_both; rewrite ?lsum_cons, ?lsum_nil; cbn [m_rl m_rn m_rld m_rnd contrib];
      rewrite ?vadd_zero_l, ?vadd_zero_r, ?scatter_add; unfold vadd; lra.
  Qed.

  Lemma ideal_faces e fl c : forall fs i m r,
    m_rld m = lfsv G (cid c) ->
    let '(m', r') := ideal_run (faces_calls e fl c i fs) m r in
    m_rld m' = lfsv G (cid c) /\ forall g, pend c m' r' g = pend c m r g + lsum (contrib g) (faces_calls e fl c i fs).
  Proof.
    induction fs as [|f fs IH]; intros i m r D; cbn [faces_calls].
    { cbn [ideal_run]. split; [exact D|]. intros g. rewrite lsum_nil. lra. }
    destruct (skip_intersection e c f); [now apply IH|].
    rewrite ideal_run_app. pose proof (ideal_face e fl c i f m r D) as F.
    destruct (ideal_run (face_calls e fl c i f) m r) as [m1 r1]. destruct F as [D1 F].
    pose proof (IH (S i) m1 r1 D1) as H. destruct (ideal_run (faces_calls e fl c (S i) fs) m1 r1) as [m2 r2].
    destruct H as [D2 H]. split; [exact D2|]. intros g. rewrite H, F, lsum_app. lra.
  Qed.

  Lemma ideal_cell e fl c m r :
    forall g, snd (ideal_run (cell_calls e fl c) m r) g = r g + lsum (contrib g) (cell_calls e fl c).
  Proof.
    intros g. unfold cell_calls. destruct (skip_entity e c). { cbn. lra. }
    rewrite ideal_run_app. cbn [ideal_run ideal_step]. unfold add_in at 1 2. cbn [m_rl m_rn m_rld m_rnd].
    set (m1 := mkms _ _ _ _). set (r1 := vadd _ _).
    assert (D1 : m_rld m1 = lfsv G (cid c)) by reflexivity.
    rewrite ideal_run_app.
    assert (F : let '(m', r') := ideal_run (if uv_skeleton fl || v_skeleton fl || uv_boundary fl || v_boundary fl
                                            then faces_calls e fl c 0 (faces c) else []) m1 r1 in
      m_rld m' = lfsv G (cid c) /\ forall g, pend c m' r' g = pend c m1 r1 g +
         lsum (contrib g) (if uv_skeleton fl || v_skeleton fl || uv_boundary fl || v_boundary fl
                                            then faces_calls e fl c 0 (faces c) else [])).
    { destruct (uv_skeleton fl || v_skeleton fl || uv_boundary fl || v_boundary fl); [now apply ideal_faces|].
      cbn [ideal_run]. split; [exact D1|]. intros h. rewrite lsum_nil. lra. }
    destruct (ideal_run (if uv_skeleton fl || v_skeleton fl || uv_boundary fl || v_boundary fl
                         then faces_calls e fl c 0 (faces c) else []) m1 r1) as [m2 r2].
    destruct F as [D2 F]. specialize (F g). rewrite !lsum_app.
    unfold pend in F. cbn [m_rl m1] in F.
    replace (r1 g) with (r g) in F by (unfold r1; rewrite !vadd_zero_r; reflexivity).
    rewrite ideal_run_app.
    assert (Z : scatter (lfsv G (cid c)) (vadd (vadd vzero (fst (K (AsmVVolume c)))) (fst (K (AsmUVVolume c)))) g =
      lsum (contrib g) [OnBindV c; AsmVVolume c; OnBindUV c; LoadInside c; AsmUVVolume c]).
    { rewrite !lsum_cons, lsum_nil. cbn [contrib]. rewrite !scatter_add, scatter_zero. unfold vadd, vzero. lra. }
    rewrite Z in F. rewrite (lsum_cons _ (OnUnbindUV c)), (lsum_cons _ (OnUnbindV c)), lsum_nil. cbn [contrib].
    destruct (uv_post fl), (v_post fl); cbn [orb app ideal_run ideal_step snd]; unfold add_in; cbn [m_rl m_rn m_rld m_rnd];
      rewrite ?D2, ?lsum_cons, ?lsum_nil; cbn [contrib] in *; rewrite ?vadd_zero_r, ?scatter_add; unfold vadd; try lra;
      rewrite ?lsum_cons, ?lsum_nil in F; cbn [contrib] in F; lra.
  Qed.

  Theorem ideal_sweep e fl : forall cells m r g,
    snd (ideal_run (sweep e fl cells) m r) g = r g + lsum (contrib g) (sweep e fl cells).
  Proof.
    unfold sweep. induction cells as [|c cells IH]; intros m r g; cbn [flat_map]. { cbn. lra. }
    rewrite ideal_run_app. pose proof (ideal_cell e fl c m r) as C.
    destruct (ideal_run (cell_calls e fl c) m r) as [m1 r1]. cbn [snd] in C. rewrite IH, C, lsum_app. lra.
  Qed.
End Ideal.
