(** Proofs about the finite volume operators. *)
From Coq Require Import FunctionalExtensionality Lra.
From Verif Require Import CommonFacts CcfvModel EngineProofs EngineProofs2 EngineProofs3 NumProofs ConsProofs2 ConsProofs3 DiagSpec DiagProofs DiagProofs2 CcfvSpec.
Local Open Scope R_scope.

(** ** Differences of residuals *)
Definition diff_terms (L : terms R) : terms (R * R) :=
  let a := fun (p : nat -> R * R) i => fst (p i) + snd (p i) in let b := fun (p : nat -> R * R) i => fst (p i) in
  let sub := fun (u v : vec) i => u i - v i in
  mkterms (R * R) (do_alpha_volume L) false (do_alpha_skeleton L) false (do_alpha_boundary L) false (do_alpha_post L) false (do_two_sided L)
    (fun c t p => sub (alpha_volume L c t (a p)) (alpha_volume L c t (b p))) (fun _ _ => vzero)
    (fun c f i t p q => (sub (fst (alpha_skeleton L c f i t (a p) (a q))) (fst (alpha_skeleton L c f i t (b p) (b q))),
                         sub (snd (alpha_skeleton L c f i t (a p) (a q))) (snd (alpha_skeleton L c f i t (b p) (b q)))))
    (fun _ _ _ _ => (vzero, vzero))
    (fun c f i t p => sub (alpha_boundary L c f i t (a p)) (alpha_boundary L c f i t (b p))) (fun _ _ _ _ => vzero)
    (fun c t p => sub (alpha_post L c t (a p)) (alpha_post L c t (b p))) (fun _ _ => vzero).

Lemma lsum_minus {A} (f g : A -> R) l : lsum (fun x => f x - g x) l = lsum f l - lsum g l.
Proof. induction l as [|a l IH]; rewrite ?lsum_nil, ?lsum_cons; [ring|]. rewrite IH. ring. Qed.
Lemma scatter_sub ds u v g : scatter ds (fun i => u i - v i) g = scatter ds u g - scatter ds v g.
Proof.
  replace (fun i => u i - v i) with (vadd u (vscal (-1) v)).
  - rewrite scatter_add, scatter_scal. unfold vadd, vscal. ring.
  - apply functional_extensionality. intros i. unfold vadd, vscal. ring.
Qed.
Lemma gather_sum (x z : vec) ds : (fun i => fst (gather (0, 0) (fun h => (x h, z h)) ds i) + snd (gather (0, 0) (fun h => (x h, z h)) ds i)) = gather 0 (vadd x z) ds.
Proof.
  apply functional_extensionality. intros i. unfold gather. destruct (nth_error ds i); cbn; unfold vadd; ring.
Qed.
Lemma gather_first (x z : vec) ds : (fun i => fst (gather (0, 0) (fun h => (x h, z h)) ds i)) = gather 0 x ds.
Proof. apply functional_extensionality. intros i. unfold gather. now destruct (nth_error ds i). Qed.

Lemma diff_value G L e t x z cells g :
  operator_value (0, 0) G e (diff_terms L) t (fun h => (x h, z h)) cells g =
  operator_value 0 G e L t (vadd x z) cells g - operator_value 0 G e L t x cells g.
Proof.
  unfold operator_value. rewrite <- lsum_minus. apply lsum_ext. intros c _.
  enough (E : cell_value (0, 0) G (diff_terms L) t (fun h => (x h, z h)) c g =
              cell_value 0 G L t (vadd x z) c g - cell_value 0 G L t x c g).
  { rewrite E.
    enough (E2 : lsum (fun p => face_value (0, 0) G e (diff_terms L) t (fun h => (x h, z h)) c p g) (numbered e c) =
                 lsum (fun p => face_value 0 G e L t (vadd x z) c p g) (numbered e c) - lsum (fun p => face_value 0 G e L t x c p g) (numbered e c))
      by (rewrite E2; ring).
    rewrite <- lsum_minus. apply lsum_ext. intros (i, f) _. unfold face_value. cbn [diff_terms do_two_sided do_alpha_skeleton do_lambda_skeleton do_alpha_boundary do_lambda_boundary alpha_skeleton lambda_skeleton alpha_boundary lambda_boundary].
    rewrite !gather_sum, !gather_first. cbn [opt opt2 fst snd]. rewrite !scatter_zero.
    destruct (classify e f); try (unfold vzero; ring).
    2: { destruct (do_alpha_boundary L); cbn [opt]; [rewrite scatter_sub|rewrite !scatter_zero]; unfold vzero; ring. }
    all: destruct ((outside f <? cid c)%nat || do_two_sided L); [|ring];
      destruct (do_alpha_skeleton L); cbn [opt2 fst snd]; rewrite ?scatter_sub, ?scatter_zero; unfold vzero; ring. }
  unfold cell_value. cbn [diff_terms do_alpha_volume do_lambda_volume do_alpha_post do_lambda_post alpha_volume lambda_volume alpha_post lambda_post opt].
  rewrite !gather_sum, !gather_first, !scatter_zero.
  destruct (do_alpha_volume L), (do_alpha_post L); cbn [opt]; rewrite ?scatter_sub, ?scatter_zero; unfold vzero; ring.
Qed.

(** An operator whose local terms are affine has an affine residual with the assembled matrix as its linear part. *)
Theorem affine_residual N G L J e cells a s s' s'' x z g : dofs_below N G -> local_apply G L J (diff_terms L) ->
  assemble_residual 0 G L e cells a s (vadd x z) vzero g =
  assemble_residual 0 G L e cells a s' x vzero g + mv N (assemble_jacobian G L J e cells a s'' x mzero) z g.
Proof.
  intros HN HL.
  rewrite <- (assembled_apply N G L J (diff_terms L) e cells a (mkrest vzero vzero (fun _ => (0, 0)) (fun _ => (0, 0)) [] [] [] [] (fun _ => (0, 0))) s'' x z g HN HL).
  rewrite !assembled_value, diff_value. unfold vzero. ring.
Qed.

(** ** One DOF per cell *)
Lemma scatter_single c v g : scatter [c] (single v) g = if (c =? g)%nat then v else 0.
Proof. cbn. unfold vzero. destruct (c =? g)%nat; cbn; ring. Qed.
Lemma scatter_one c v g : scatter [c] v g = if (c =? g)%nat then v O else 0.
Proof. cbn. unfold vzero. destruct (c =? g)%nat; ring. Qed.
Lemma gather_one (x : vec) c : gather 0 x [c] O = x c. Proof. reflexivity. Qed.

Lemma fv_dofs N c : (c < N)%nat -> lfsu (fv_space N) c = [c] /\ lfsv (fv_space N) c = [c].
Proof. intros H. cbn. apply Nat.ltb_lt in H. now rewrite H. Qed.

Section Fv.
  Variables (Q : fvgeo) (P : fvparam).

  Lemma permeability_spec t c n : permeability Q P t c n = K Q P t c n. Proof. reflexivity. Qed.
  Lemma vn_spec t c f : vn Q P t c f = v_n Q P t c f. Proof. reflexivity. Qed.
  Lemma distance_spec x y : distance (gdim Q) x y = gap Q x y. Proof. reflexivity. Qed.
  Lemma tiny_pos : 0 < tiny. Proof. unfold tiny. apply Rinv_0_lt_compat, pow_lt. lra. Qed.

  Lemma k_avg_spec t c f : 0 <= K Q P t c (normal Q c f) -> 0 <= K Q P t (outside f) (normal Q c f) ->
    k_avg Q P t c f = harmonic_mean (K Q P t c (normal Q c f) + tiny) (K Q P t (outside f) (normal Q c f) + tiny).
  Proof.
    intros A B. unfold k_avg, harmonic_mean. rewrite (permeability_spec t c), (permeability_spec t (outside f)). pose proof tiny_pos.
    assert (A' : 0 < K Q P t c (normal Q c f) + tiny) by lra. assert (B' : 0 < K Q P t (outside f) (normal Q c f) + tiny) by lra.
    revert A' B'. generalize (K Q P t c (normal Q c f) + tiny), (K Q P t (outside f) (normal Q c f) + tiny). intros a b A' B'.
    field. repeat split; lra.
  Qed.
  Lemma harmonic_pos a b : 0 < a -> 0 < b -> 0 < harmonic_mean a b.
  Proof. intros. unfold harmonic_mean. apply Rdiv_lt_0_compat; [|lra]. apply Rmult_lt_0_compat; lra. Qed.

  (** what the operator adds for a face *)
  Definition flux_of (t : R) (u : vec) (c : nat) (f : face) : R :=
    (if Rle_dec 0 (vn Q P t c f) then u c else u (outside f)) * vn Q P t c f * area Q c f
    + k_avg Q P t c f * (u c - u (outside f)) * area Q c f / cell_distance Q c f.
  Lemma flux_spec t u c f : 0 <= K Q P t c (normal Q c f) -> 0 <= K Q P t (outside f) (normal Q c f) ->
    flux_of t u c f = interior_flux Q P t u c f.
  Proof.
    intros A B. unfold flux_of, interior_flux. rewrite (k_avg_spec t c f A B), vn_spec.
    unfold cell_distance. rewrite distance_spec.
    destruct (Rle_dec 0 (v_n Q P t c f)).
    - rewrite Rmax_left, Rmin_right by lra. unfold Rdiv. ring.
    - rewrite Rmax_right, Rmin_left by lra. unfold Rdiv. ring.
  Qed.
  Lemma boundary_spec c f i t x : fv_alpha_boundary Q P c f i t x O = boundary_flux Q P t (fun _ => x O) (cid c) f.
  Proof.
    unfold fv_alpha_boundary, boundary_flux. cbn [single]. rewrite vn_spec, permeability_spec. unfold face_distance. rewrite distance_spec.
    destruct (pbc P t (cid c) f); unfold Rdiv; ring.
  Qed.

  Lemma skeleton_value t c f i xs xn :
    fst (fv_alpha_skeleton Q P c f i t xs xn) O =
      (if Rle_dec 0 (vn Q P t (cid c) f) then xs O else xn O) * vn Q P t (cid c) f * area Q (cid c) f
      + k_avg Q P t (cid c) f * (xs O - xn O) * area Q (cid c) f / cell_distance Q (cid c) f /\
    snd (fv_alpha_skeleton Q P c f i t xs xn) O = - fst (fv_alpha_skeleton Q P c f i t xs xn) O.
  Proof. cbn. split; [ring|]. unfold Rdiv. destruct (Rle_dec 0 (vn Q P t (cid c) f)); ring. Qed.

  (** ** values of the operator *)
  Variables (e : env) (t : R) (u : vec) (cells : list cell) (N : nat).
  Notation kept := (filter (fun c => negb (skip_entity e c)) cells).
  Notation RV := (operator_value 0 (fv_space N) e (ccfv Q P) t u cells).

  Lemma cell_term c g : (cid c < N)%nat -> cell_value 0 (fv_space N) (ccfv Q P) t u c g = if (cid c =? g)%nat then production Q P t u (cid c) else 0.
  Proof.
    intros HN. destruct (fv_dofs N _ HN) as [EU EV].
    unfold cell_value. cbn [ccfv do_alpha_volume do_lambda_volume do_alpha_post do_lambda_post alpha_volume lambda_volume opt].
    rewrite EU, EV. rewrite !scatter_zero. unfold fv_alpha_volume, fv_lambda_volume. rewrite !scatter_single, gather_one. unfold vzero, production.
    destruct (cid c =? g)%nat; ring.
  Qed.
  Lemma face_term c i f g : (cid c < N)%nat -> (classify e f = Skeleton \/ classify e f = Periodic -> (outside f < N)%nat) ->
    face_value 0 (fv_space N) e (ccfv Q P) t u c (i, f) g =
    match classify e f with
    | Skeleton | Periodic =>
        if (outside f <? cid c)%nat then
          (if (cid c =? g)%nat then flux_of t u (cid c) f else 0) - (if (outside f =? g)%nat then flux_of t u (cid c) f else 0)
        else 0
    | Boundary => if (cid c =? g)%nat then boundary_flux Q P t u (cid c) f else 0
    | Processor => 0
    end.
  Proof.
    intros HN HO. destruct (fv_dofs N _ HN) as [EU EV].
    unfold face_value. cbn [ccfv do_two_sided do_alpha_skeleton do_lambda_skeleton do_alpha_boundary do_lambda_boundary alpha_skeleton alpha_boundary opt opt2].
    rewrite EU, EV, orb_false_r. cbn [fst snd].
    assert (SK : (if (outside f <? cid c)%nat
       then scatter [cid c] (fst (fv_alpha_skeleton Q P c f i t (gather 0 u [cid c]) (gather 0 u [outside f]))) g +
            scatter [outside f] (snd (fv_alpha_skeleton Q P c f i t (gather 0 u [cid c]) (gather 0 u [outside f]))) g +
            (scatter [cid c] vzero g + scatter [outside f] vzero g) else 0) =
       if (outside f <? cid c)%nat then
          (if (cid c =? g)%nat then flux_of t u (cid c) f else 0) - (if (outside f =? g)%nat then flux_of t u (cid c) f else 0)
        else 0).
    { destruct (outside f <? cid c)%nat; [|reflexivity]. rewrite !scatter_zero, !scatter_one.
      destruct (skeleton_value t c f i (gather 0 u [cid c]) (gather 0 u [outside f])) as [-> ->].
      destruct (skeleton_value t c f i (gather 0 u [cid c]) (gather 0 u [outside f])) as [-> _].
      rewrite !gather_one. fold (flux_of t u (cid c) f). unfold vzero. destruct (cid c =? g)%nat, (outside f =? g)%nat; ring. }
    assert (EO : classify e f = Skeleton \/ classify e f = Periodic -> lfsu (fv_space N) (outside f) = [outside f] /\ lfsv (fv_space N) (outside f) = [outside f]) by (intros; apply fv_dofs; auto).
    destruct (classify e f); [reflexivity| | |].
    1, 3: destruct EO as [-> ->]; [auto|exact SK].
    rewrite scatter_zero, scatter_one, boundary_spec. unfold vzero, boundary_flux. rewrite gather_one. destruct (cid c =? g)%nat; ring.
  Qed.

  (** Tested with any grid function, interior faces contribute flux times jump. *)
  Lemma weak_form s : (forall c, In c cells -> (cid c < N)%nat) ->
    (forall c f, In c cells -> In f (faces c) -> classify e f = Skeleton \/ classify e f = Periodic -> (outside f < N)%nat) ->
    nsum N (fun g => s g * RV g) =
    lsum (fun c => s (cid c) * production Q P t u (cid c) +
      lsum (fun f => match classify e f with
                     | Skeleton | Periodic => if (outside f <? cid c)%nat then (s (cid c) - s (outside f)) * flux_of t u (cid c) f else 0
                     | Boundary => s (cid c) * boundary_flux Q P t u (cid c) f
                     | Processor => 0 end) (filter (fun f => negb (skip_intersection e c f)) (faces c))) kept.
  Proof.
    intros HC HF. unfold operator_value.
    rewrite (nsum_ext N _ (fun g => lsum (fun c => s g * cell_value 0 (fv_space N) (ccfv Q P) t u c g +
       lsum (fun p => s g * face_value 0 (fv_space N) e (ccfv Q P) t u c p g) (numbered e c)) kept)).
    2: { intros g _. rewrite <- lsum_scal. apply lsum_ext. intros c _. rewrite lsum_scal. ring. }
    rewrite nsum_lsum. apply lsum_ext. intros c Hc. apply filter_In in Hc as [Hc _]. rewrite nsum_plus. f_equal.
    - rewrite (nsum_ext N _ (fun g => if (cid c =? g)%nat then s g * production Q P t u (cid c) else 0)).
      + apply (nsum_single N (cid c) (fun g => s g * production Q P t u (cid c)) (HC c Hc)).
      + intros g _. rewrite cell_term by auto. destruct (cid c =? g)%nat; ring.
    - rewrite nsum_lsum. unfold numbered.
      set (fs := filter (fun f => negb (skip_intersection e c f)) (faces c)).
      assert (Hfs : forall f, In f fs -> classify e f = Skeleton \/ classify e f = Periodic -> (outside f < N)%nat) by (intros f Hf; apply filter_In in Hf as [Hf _]; now apply (HF c)).
      generalize 0%nat. clearbody fs. induction fs as [|f fs IH]; intros k; [reflexivity|].
      cbn [length seq combine]. rewrite !lsum_cons, IH by (intros f' Hf'; apply Hfs; now right). f_equal.
      rewrite (nsum_ext N _ (fun g => s g * match classify e f with
        | Skeleton | Periodic => if (outside f <? cid c)%nat then
          (if (cid c =? g)%nat then flux_of t u (cid c) f else 0) - (if (outside f =? g)%nat then flux_of t u (cid c) f else 0) else 0
        | Boundary => if (cid c =? g)%nat then boundary_flux Q P t u (cid c) f else 0 | Processor => 0 end)).
      2: { intros g _. rewrite face_term; [reflexivity|auto|apply (Hfs f (or_introl eq_refl))]. }
      assert (Hf := Hfs f (or_introl eq_refl)).
      assert (S1 : forall k v, (k < N)%nat -> nsum N (fun g => s g * (if (k =? g)%nat then v else 0)) = s k * v).
      { intros k' v Hk. rewrite (nsum_ext N _ (fun g => if (k' =? g)%nat then s g * v else 0)) by (intros g _; destruct (k' =? g)%nat; ring).
        apply (nsum_single N k' (fun g => s g * v) Hk). }
      assert (S0 : nsum N (fun g => s g * 0) = 0) by (rewrite (nsum_ext N _ (fun _ => 0)) by (intros; ring); apply nsum_zero).
      assert (SK : (outside f < N)%nat -> nsum N (fun g => s g * (if (outside f <? cid c)%nat then
          (if (cid c =? g)%nat then flux_of t u (cid c) f else 0) - (if (outside f =? g)%nat then flux_of t u (cid c) f else 0) else 0)) =
          (if (outside f <? cid c)%nat then (s (cid c) - s (outside f)) * flux_of t u (cid c) f else 0)).
      { intros HO. destruct (outside f <? cid c)%nat; [|exact S0].
        rewrite (nsum_ext N _ (fun g => s g * (if (cid c =? g)%nat then flux_of t u (cid c) f else 0) + - 1 * (s g * (if (outside f =? g)%nat then flux_of t u (cid c) f else 0)))) by (intros; ring).
        rewrite nsum_plus, nsum_scal, !S1 by auto. ring. }
      destruct (classify e f); [exact S0|apply SK; auto|apply S1; auto|apply SK; auto].
  Qed.
End Fv.
