(** The balance in every cell, and monotonicity. *)
From Coq Require Import FunctionalExtensionality Lra.
From Verif Require Import CommonFacts CcfvModel EngineProofs EngineProofs2 EngineProofs3 NumProofs ConsProofs2 ConsProofs3 DiagSpec DiagProofs DiagProofs2 CcfvSpec CcfvProofs.
Local Open Scope R_scope.

Lemma lsum_le {A} (f g : A -> R) l : (forall a, In a l -> f a <= g a) -> lsum f l <= lsum g l.
Proof.
  induction l as [|a l IH]; intros H; rewrite ?lsum_nil, ?lsum_cons; [lra|]. specialize (IH (fun b Hb => H b (or_intror Hb))). specialize (H a (or_introl eq_refl)). lra.
Qed.
Lemma lsum_nonpos {A} (f : A -> R) l : (forall a, In a l -> f a <= 0) -> lsum f l <= 0.
Proof. intros H. rewrite <- (lsum_zero (fun _ : A => 0) l) by reflexivity. now apply lsum_le. Qed.
Lemma lsum_neg {A} (f : A -> R) l a : (forall b, In b l -> f b <= 0) -> In a l -> f a < 0 -> lsum f l < 0.
Proof.
  induction l as [|b l IH]; intros H [] Ha; rewrite lsum_cons.
  - subst. pose proof (lsum_nonpos f l (fun b Hb => H b (or_intror Hb))). lra.
  - pose proof (H b (or_introl eq_refl)). pose proof (IH (fun b Hb => H b (or_intror Hb)) H0 Ha). lra.
Qed.
Lemma nsum_nonneg n f : (forall i, (i < n)%nat -> 0 <= f i) -> 0 <= nsum n f.
Proof. induction n as [|n IH]; intros H; cbn [nsum]; [lra|]. pose proof (H n ltac:(lia)). pose proof (IH (fun i Hi => H i ltac:(lia))). lra. Qed.
Lemma nsum_opp n f : nsum n (fun i => - f i) = - nsum n f.
Proof. rewrite (nsum_ext n _ (fun i => -1 * f i)) by (intros; ring). rewrite nsum_scal. ring. Qed.

Section Balance.
  Variables (Q : fvgeo) (P : fvparam) (e : env) (t : R) (u : vec) (cells : list cell) (m : slot -> slot) (N : nat).

  Lemma slot_in s : In s (visited_slots e cells) -> In (fst s) cells /\ In (snd (snd s)) (faces (fst s)) /\ skip_entity e (fst s) = false.
  Proof.
    unfold visited_slots. intros H. apply in_flat_map in H as (c & Hc & H). apply filter_In in Hc as [Hc Sk]. apply in_map_iff in H as ((i, f) & <- & H).
    cbn [fst snd]. split; [assumption|]. split; [|now apply negb_true_iff].
    unfold numbered in H. apply in_combine_r in H. now apply filter_In in H.
  Qed.
  Lemma interior_in s : In s (interior_slots e cells) -> In s (visited_slots e cells).
  Proof. intros H. now apply filter_In in H. Qed.

  Hypothesis HM : mirrored e cells m.
  Hypothesis HN1 : forall c, In c cells -> (cid c < N)%nat.
  Hypothesis HN2 : forall c f, In c cells -> In f (faces c) -> classify e f = Skeleton \/ classify e f = Periodic -> (outside f < N)%nat.
  Hypothesis HC : consistent Q P t e cells m.
  Hypothesis HE : elliptic Q P t e cells.

  Notation flux := (flux_of Q P t u).
  Definition sflux (s : slot) : R := flux_of Q P t u (cid (fst s)) (snd (snd s)).

  Lemma gap_sym x y : gap Q x y = gap Q y x.
  Proof. unfold gap. f_equal. apply nsum_ext. intros. ring. Qed.
  Lemma harmonic_sym a b : harmonic_mean a b = harmonic_mean b a.
  Proof. unfold harmonic_mean, Rdiv. rewrite (Rplus_comm b a). ring. Qed.
  Lemma K_opp c n n' : (forall i, n' i = - n i) -> K Q P t c n' = K Q P t c n.
  Proof.
    intros H. unfold K. apply nsum_ext. intros i _. rewrite H.
    rewrite (nsum_ext (gdim Q) (fun j => pA P t c i j * n' j) (fun j => - (pA P t c i j * n j))) by (intros j _; rewrite H; ring).
    rewrite nsum_opp. ring.
  Qed.
  Lemma mirror_flux s : In s (interior_slots e cells) -> sflux (m s) = - sflux s.
  Proof.
    intros Hs. unfold sflux. destruct HM as [_ M]. destruct (M s Hs) as (Hm & _ & A & B & _).
    destruct (HC s Hs) as (EA & EN & EB).
    destruct (slot_in s (interior_in s Hs)) as (C1 & F1 & _). destruct (slot_in (m s) (interior_in _ Hm)) as (C2 & F2 & _).
    destruct (HE _ _ C1 F1) as [K1 K2]. destruct (HE _ _ C2 F2) as [K3 K4].
    rewrite !flux_spec by assumption. unfold interior_flux. rewrite EA, B, A in *.
    set (c := cid (fst s)) in *. set (c' := outside (snd (snd s))) in *.
    rewrite (K_opp c _ _ EN), (K_opp c' _ _ EN), (harmonic_sym (K Q P t c' _ + tiny)), (gap_sym (center Q c')).
    assert (V : v_n Q P t c' (snd (snd (m s))) = - v_n Q P t c (snd (snd s))).
    { unfold v_n. rewrite <- nsum_opp. apply nsum_ext. intros i _. rewrite EB, EN. ring. }
    rewrite V.
    assert (M1 : Rmax (- v_n Q P t c (snd (snd s))) 0 = - Rmin (v_n Q P t c (snd (snd s))) 0) by (unfold Rmax, Rmin; destruct (Rle_dec _ 0), (Rle_dec _ 0); lra).
    assert (M2 : Rmin (- v_n Q P t c (snd (snd s))) 0 = - Rmax (v_n Q P t c (snd (snd s))) 0) by (unfold Rmax, Rmin; destruct (Rle_dec _ 0), (Rle_dec _ 0); lra).
    rewrite M1, M2. unfold Rdiv. ring.
  Qed.

  (** the residual of a cell *)
  Lemma cell_balance c : In c cells -> skip_entity e c = false -> distinct_cells cells ->
    operator_value 0 (fv_space N) e (ccfv Q P) t u cells (cid c) =
    production Q P t u (cid c) + lsum (fun f => outflow Q P t u e (cid c) f) (filter (fun f => negb (skip_intersection e c f)) (faces c)).
  Proof.
    intros Hc Sk HD. set (g := cid c).
    set (kept := filter (fun c => negb (skip_entity e c)) cells).
    set (own := fun s : slot => if (cid (fst s) =? g)%nat then outflow Q P t u e (cid (fst s)) (snd (snd s)) else 0).
    transitivity (lsum (fun c => if (cid c =? g)%nat then production Q P t u (cid c) else 0) kept + lsum own (visited_slots e cells)).
    - unfold operator_value. fold kept. rewrite lsum_plus. f_equal.
      + apply lsum_ext. intros c' Hc'. apply cell_term. apply filter_In in Hc' as [Hc' _]. auto.
      + transitivity (lsum (fun s => face_value 0 (fv_space N) e (ccfv Q P) t u (fst s) (snd s) g) (visited_slots e cells)).
        { unfold visited_slots. rewrite lsum_flat_map. apply lsum_ext. intros c' _. now rewrite lsum_map. }
        rewrite !(slots_split e cells).
        2: { intros (c', (i, f)) H. unfold own, outflow. cbn [fst snd] in *. rewrite H. now destruct (cid c' =? g)%nat. }
        2: { intros (c', (i, f)) H. cbn [fst snd] in *. unfold face_value. now rewrite H. }
        f_equal.
        * rewrite (two_sided_sum e cells m HM own (fun s => if (outside (snd (snd s)) =? g)%nat then - sflux s else 0)).
          -- rewrite lsum_filter. apply lsum_ext. intros s Hs. pose proof (interior_class e cells s Hs) as IC.
             destruct (slot_in s (interior_in s Hs)) as (C1 & F1 & _). destruct (HE _ _ C1 F1) as [K1 K2].
             destruct s as (c', (i, f)). cbn [fst snd] in *. rewrite face_term by eauto. unfold own, outflow, sflux, first_side, inn, out. cbn [fst snd].
             rewrite <- (flux_spec Q P t u (cid c') f K1 K2).
             destruct IC as [-> | ->]; destruct (outside f <? cid c')%nat; destruct (cid c' =? g)%nat, (outside f =? g)%nat; ring.
          -- intros s Hs. unfold own. destruct (mirror_sides e cells m HM s Hs) as [E1 E2]. unfold inn, out in E1, E2.
             pose proof (mirror_flux s Hs) as MF. destruct HM as [_ M]. destruct (M s Hs) as (Hm & _).
             pose proof (interior_class e cells _ Hm) as IC. destruct (slot_in _ (interior_in _ Hm)) as (C1 & F1 & _). destruct (HE _ _ C1 F1) as [K1 K2].
             rewrite <- MF. unfold sflux, outflow. rewrite (flux_spec Q P t u _ _ K1 K2), <- E1.
             destruct IC as [-> | ->]; reflexivity.
        * apply lsum_ext. intros s Hs. assert (Hv : In s (visited_slots e cells)) by now apply filter_In in Hs. destruct (slot_in s Hv) as (C1 & F1 & _).
          apply bd_class in Hs. destruct s as (c', (i, f)). cbn [fst snd] in *. rewrite face_term by eauto. unfold own, outflow. cbn [fst snd].
          now rewrite Hs.
    - assert (Hk : In c kept) by (apply filter_In; now rewrite Sk).
      assert (NDk : NoDup kept) by (apply NoDup_filter, cells_nodup, HD).
      f_equal.
      + rewrite (lsum_one _ kept c NDk Hk).
        * unfold g. now rewrite Nat.eqb_refl.
        * intros b Hb Hn. destruct (Nat.eqb_spec (cid b) g) as [E|]; [|reflexivity]. exfalso. apply Hn.
          apply (same_cell cells); auto. now apply filter_In in Hb.
      + unfold visited_slots. rewrite lsum_flat_map. fold kept.
        rewrite (lsum_one _ kept c NDk Hk).
        * rewrite lsum_map. unfold own. cbn [fst snd]. unfold g. rewrite Nat.eqb_refl.
          unfold numbered. generalize (filter (fun f => negb (skip_intersection e c f)) (faces c)). intros fs. generalize 0%nat.
          induction fs as [|f fs IH]; intros k; [reflexivity|]. cbn [length seq combine]. now rewrite !lsum_cons, IH.
        * intros b Hb Hn. rewrite lsum_map. apply lsum_zero. intros p _. unfold own. cbn [fst snd].
          destruct (Nat.eqb_spec (cid b) g) as [E|]; [|reflexivity]. exfalso. apply Hn.
          apply (same_cell cells); auto. now apply filter_In in Hb.
  Qed.
End Balance.

(** ** The derivative *)
Lemma msingle_mv x z : mv 1 (msingle x) z O = x * z O.
Proof. unfold mv. cbn. ring. Qed.
Lemma ccfv_affine N Q P : local_apply (fv_space N) (ccfv Q P) (ccfv_j Q P) (diff_terms (ccfv Q P)).
Proof.
  unfold local_apply. repeat (split; [reflexivity|]). intros c t p. cbn [length lfsu lfsv fv_space]. split; [|split; [|split]].
  - intros i I. assert (i = O) by lia. subst i. cbn [ccfv_j j_volume]. unfold fv_j_volume. rewrite msingle_mv. cbn. ring.
  - intros i I. unfold mv. cbn. unfold vzero, mzero. ring.
  - intros f k i I. assert (i = O) by lia. subst i. cbn [ccfv_j j_boundary]. unfold fv_j_boundary. rewrite msingle_mv. cbn.
    destruct (pbc P t (cid c) f); unfold Rdiv; ring.
  - intros f k q i. cbn [ccfv_j j_skeleton diff_terms alpha_skeleton ccfv]. unfold fv_j_skeleton, fv_alpha_skeleton.
    destruct (Rle_dec 0 (vn Q P t (cid c) f)); split; intros I; assert (i = O) by lia; subst i; rewrite !msingle_mv; cbn; unfold Rdiv; ring.
Qed.

Lemma boundary_affine Q P c f i t (x : vec) : fv_alpha_boundary Q P c f i t x O = fv_alpha_boundary Q P c f i t vzero O + fv_j_boundary Q P c f i t vzero O O * x O.
Proof. unfold fv_alpha_boundary, fv_j_boundary. cbn. unfold vzero. destruct (pbc P t (cid c) f); unfold Rdiv; ring. Qed.
Lemma ccfv_applied N Q P : local_apply (fv_space N) (ccfv Q P) (ccfv_j Q P) (ccfv_apply Q P).
Proof.
  unfold local_apply. repeat (split; [reflexivity|]). intros c t p. cbn [length lfsu lfsv fv_space]. split; [|split; [|split]].
  - intros i I. assert (i = O) by lia. subst i. cbn [ccfv_j j_volume]. unfold fv_j_volume. rewrite msingle_mv. cbn. ring.
  - intros i I. unfold mv. cbn. unfold vzero, mzero. ring.
  - intros f k i I. assert (i = O) by lia. subst i. cbn [ccfv_j j_boundary ccfv_apply alpha_boundary]. unfold fv_j_boundary at 1. rewrite msingle_mv.
    unfold num_apply_boundary_linear, raw_vector, add_coef, quotient, fresh, vacc, vadd, vscal.
    cbn [seq fold_left snd].
    rewrite (boundary_affine Q P c f k t (vset _ _ _)), (boundary_affine Q P c f k t (fun i => snd (p i))).
    unfold vset, step_width. cbn [Nat.eqb]. unfold fv_j_boundary, vzero. cbn [msingle].
    assert (0 < / 10 ^ 7 * (1 + Rabs (snd (p O)))) by (apply Rmult_lt_0_compat; [apply Rinv_0_lt_compat, pow_lt; lra|pose proof (Rabs_pos (snd (p O))); lra]).
    set (dl := / 10 ^ 7 * (1 + Rabs (snd (p O)))) in *. clearbody dl. field. lra.
  - intros f k q i. cbn [ccfv_j j_skeleton ccfv_apply alpha_skeleton]. unfold fv_j_skeleton, fv_alpha_skeleton.
    destruct (Rle_dec 0 (vn Q P t (cid c) f)); split; intros I; assert (i = O) by lia; subst i; rewrite !msingle_mv; cbn; unfold Rdiv; ring.
Qed.
Lemma temporal_affine N Q P : local_apply (fv_space N) (ccfv_temporal Q P) (ccfv_temporal_j Q P) (diff_terms (ccfv_temporal Q P)).
Proof.
  unfold local_apply. repeat (split; [reflexivity|]). intros c t p. cbn [length lfsu lfsv fv_space]. split; [|split; [|split]].
  - intros i I. assert (i = O) by lia. subst i. cbn [ccfv_temporal_j j_volume]. rewrite msingle_mv. cbn. ring.
  - intros i I. unfold mv. cbn. unfold vzero, mzero. ring.
  - intros f k i I. unfold mv. cbn. unfold vzero, mzero. ring.
  - intros f k q i. cbn. unfold mv, vzero, mzero. cbn. split; intros; ring.
Qed.

Lemma cell_below N e cells c : numbered_cells N e cells -> In c cells -> (cid c < N)%nat.
Proof. intros [Pm _] H. apply (in_map cid) in H. apply (Permutation_in _ Pm), in_seq in H. lia. Qed.

(** ** Monotonicity of an implicit step *)
Section Monotone.
  Variables (Q : fvgeo) (P : fvparam) (e : env) (t : R) (cells : list cell) (N : nat).
  Hypothesis HN : numbered_cells N e cells.
  Hypothesis HS : forall c, In c cells -> skip_entity e c = false.
  Hypothesis HE : elliptic Q P t e cells.
  Hypothesis HD : monotone_data Q P t e cells.

  Lemma cid_lt c : In c cells -> (cid c < N)%nat.
  Proof. intros H. destruct HN as [Pm _]. apply (in_map cid) in H. apply (Permutation_in _ Pm), in_seq in H. lia. Qed.
  Lemma cell_at g : (g < N)%nat -> exists c, In c cells /\ cid c = g.
  Proof.
    intros H. destruct HN as [Pm _]. assert (I : In g (map cid cells)) by (apply (Permutation_in _ (Permutation_sym Pm)), in_seq; lia).
    apply in_map_iff in I as (c & <- & I). eauto.
  Qed.
  Lemma all_kept : filter (fun c => negb (skip_entity e c)) cells = cells.
  Proof. clear HN HE HD. induction cells as [|c l IH]; [reflexivity|]. cbn [filter]. rewrite HS by now left. cbn. f_equal. apply IH. intros; apply HS; now right. Qed.

  Lemma mass_value x g : (g < N)%nat -> exists c, In c cells /\ cid c = g /\
    operator_value 0 (fv_space N) e (ccfv_temporal Q P) t x cells g = pd P t g * x g * volume Q g.
  Proof.
    intros Hg. destruct (cell_at g Hg) as (c & Hc & E). exists c. split; [assumption|]. split; [assumption|].
    unfold operator_value. rewrite all_kept.
    assert (ND : NoDup (map cid cells)) by (destruct HN as [Pm _]; apply (Permutation_NoDup (Permutation_sym Pm)), seq_NoDup).
    rewrite (lsum_ext _ (fun c => if (cid c =? g)%nat then pd P t (cid c) * x (cid c) * volume Q (cid c) else 0)).
    - rewrite (lsum_one _ cells c (cells_nodup _ ND) Hc).
      + now rewrite E, Nat.eqb_refl.
      + intros b Hb Hn. destruct (Nat.eqb_spec (cid b) g) as [E'|]; [|reflexivity]. exfalso. apply Hn. apply (same_cell cells); auto. congruence.
    - intros b Hb. destruct (fv_dofs N _ (cid_lt b Hb)) as [EU EV].
      unfold cell_value. cbn [ccfv_temporal do_alpha_volume do_lambda_volume do_alpha_post do_lambda_post alpha_volume opt].
      rewrite EU, EV, !scatter_zero, scatter_single, gather_one.
      rewrite (lsum_zero _ (numbered e b)).
      + unfold vzero. destruct (cid b =? g)%nat; ring.
      + intros (i, f) _. unfold face_value. cbn [ccfv_temporal do_two_sided do_alpha_skeleton do_lambda_skeleton do_alpha_boundary do_lambda_boundary opt opt2 fst snd].
        rewrite !scatter_zero. unfold vzero. destruct (classify e f); try ring.
        all: destruct ((outside f <? cid b)%nat || false); try ring.
        all: repeat match goal with |- context[if ?B then _ else _] => destruct B end; cbn; ring.
  Qed.

  (** differences of fluxes *)
  Lemma flux_diff x y c f : flux_of Q P t y c f - flux_of Q P t x c f = flux_of Q P t (fun g => y g - x g) c f.
  Proof. unfold flux_of, Rdiv. destruct (Rle_dec 0 (vn Q P t c f)); ring. Qed.

  Lemma comparison (dt : R) (x y : vec) : 0 <= dt ->
    (forall g, (g < N)%nat ->
      operator_value 0 (fv_space N) e (ccfv_temporal Q P) t x cells g + dt * operator_value 0 (fv_space N) e (ccfv Q P) t x cells g <=
      operator_value 0 (fv_space N) e (ccfv_temporal Q P) t y cells g + dt * operator_value 0 (fv_space N) e (ccfv Q P) t y cells g) ->
    forall g, (g < N)%nat -> x g <= y g.
  Proof.
    intros Hdt HR g0 Hg0. apply Rnot_lt_le. intros Neg.
    set (z := fun g => y g - x g).
    set (s := fun g => if Rlt_dec (z g) 0 then 1 else 0).
    assert (Hs : forall g, z g < 0 /\ s g = 1 \/ 0 <= z g /\ s g = 0) by (intros g; unfold s; destruct (Rlt_dec (z g) 0); [left|right]; lra).
    assert (POS : 0 <= nsum N (fun g => s g * (pd P t g * y g * volume Q g) - s g * (pd P t g * x g * volume Q g)) +
       dt * (nsum N (fun g => s g * operator_value 0 (fv_space N) e (ccfv Q P) t y cells g) - nsum N (fun g => s g * operator_value 0 (fv_space N) e (ccfv Q P) t x cells g))).
    { rewrite <- (nsum_scal N (-1)) with (f := fun g => s g * operator_value 0 (fv_space N) e (ccfv Q P) t x cells g) || idtac.
      replace (nsum N (fun g => s g * operator_value 0 (fv_space N) e (ccfv Q P) t y cells g) - nsum N (fun g => s g * operator_value 0 (fv_space N) e (ccfv Q P) t x cells g))
        with (nsum N (fun g => s g * operator_value 0 (fv_space N) e (ccfv Q P) t y cells g + -1 * (s g * operator_value 0 (fv_space N) e (ccfv Q P) t x cells g)))
        by (rewrite nsum_plus, nsum_scal; ring).
      rewrite <- nsum_scal, <- nsum_plus. apply nsum_nonneg. intros g Hg.
      destruct (mass_value x g Hg) as (c & _ & _ & Mx). destruct (mass_value y g Hg) as (c' & _ & _ & My). specialize (HR g Hg). rewrite Mx, My in HR.
      destruct (Hs g) as [[_ ->] | [_ ->]]; lra. }
    assert (HF : forall c f, In c cells -> In f (faces c) -> classify e f = Skeleton \/ classify e f = Periodic -> (outside f < N)%nat) by (apply HN).
    rewrite !(weak_form Q P e t _ cells N s cid_lt HF), all_kept in POS.
    (* the mass part as a sum over cells *)
    assert (ND : NoDup (map cid cells)) by (destruct HN as [Pm _]; apply (Permutation_NoDup (Permutation_sym Pm)), seq_NoDup).
    assert (MS : nsum N (fun g => s g * (pd P t g * y g * volume Q g) - s g * (pd P t g * x g * volume Q g)) =
                 lsum (fun c => s (cid c) * (pd P t (cid c) * z (cid c) * volume Q (cid c))) cells).
    { rewrite <- lsum_seq. destruct HN as [Pm _]. rewrite <- (lsum_perm _ _ _ Pm), lsum_map. apply lsum_ext. intros c _. unfold z. ring. }
    rewrite MS, <- lsum_minus, <- lsum_scal, <- lsum_plus in POS.
    destruct (cell_at g0 Hg0) as (c0 & Hc0 & Ec0).
    match type of POS with 0 <= lsum ?F _ => enough (lsum F cells < 0) by lra; set (FF := F) end.
    assert (TERM : forall c, In c cells -> exists r, r <= 0 /\ FF c = s (cid c) * z (cid c) * volume Q (cid c) * (pd P t (cid c) + dt * pc P t (cid c)) + dt * r).
    { intros c Hc. destruct HD as [D1 D2]. destruct (D1 c Hc) as (V & Cd & Cc).
      set (fs := filter (fun f => negb (skip_intersection e c f)) (faces c)) in *.
      exists (lsum (fun f => match classify e f with
          | Skeleton | Periodic => if (outside f <? cid c)%nat then (s (cid c) - s (outside f)) * flux_of Q P t z (cid c) f else 0
          | Boundary => s (cid c) * (boundary_flux Q P t y (cid c) f - boundary_flux Q P t x (cid c) f)
          | Processor => 0 end) fs).
      split.
      - apply lsum_nonpos. intros f Hf. apply filter_In in Hf as [Hf _]. destruct (D2 c f Hc Hf) as (Ar & Gi & Gb & Ob).
        destruct (HE c f Hc Hf) as [K1 K2].
        assert (SK : (classify e f = Skeleton \/ classify e f = Periodic) -> (if (outside f <? cid c)%nat then (s (cid c) - s (outside f)) * flux_of Q P t z (cid c) f else 0) <= 0).
        { intros Cl. specialize (Gi Cl). destruct (outside f <? cid c)%nat; [|lra]. rewrite (flux_spec Q P t z (cid c) f K1 K2). unfold interior_flux.
          pose proof tiny_pos. assert (HK := harmonic_pos (K Q P t (cid c) (normal Q (cid c) f) + tiny) (K Q P t (outside f) (normal Q (cid c) f) + tiny) ltac:(lra) ltac:(lra)).
          set (k := harmonic_mean _ _) in *. set (gp := gap Q _ _) in *.
          assert (0 < k / gp) by (apply Rdiv_lt_0_compat; lra).
          replace (k * (z (cid c) - z (outside f)) / gp) with (k / gp * (z (cid c) - z (outside f))) by (unfold Rdiv; ring).
          pose proof (Rmax_r (v_n Q P t (cid c) f) 0). pose proof (Rmin_r (v_n Q P t (cid c) f) 0).
          set (vp := Rmax _ _) in *. set (vm := Rmin _ _) in *. clearbody vp vm.
          destruct (Hs (cid c)) as [[Z1 ->] | [Z1 ->]], (Hs (outside f)) as [[Z2 ->] | [Z2 ->]].
          - lra.
          - assert (vp * z (cid c) <= 0) by nra. assert (vm * z (outside f) <= 0) by nra.
            assert (k / gp * (z (cid c) - z (outside f)) <= 0) by nra. nra.
          - assert (0 <= vp * z (cid c)) by nra. assert (0 <= vm * z (outside f)) by nra.
            assert (0 <= k / gp * (z (cid c) - z (outside f))) by nra. nra.
          - lra. }
        destruct (classify e f) eqn:Cl; [lra|apply SK; auto| |apply SK; auto].
        unfold boundary_flux. specialize (Gb eq_refl). specialize (Ob eq_refl).
        destruct (pbc P t (cid c) f) eqn:Bc.
        + specialize (Gb eq_refl). clear Gi. set (gp := gap Q (center Q (cid c)) (fcenter Q (cid c) f)) in *. set (k := K Q P t (cid c) (normal Q (cid c) f)) in *.
          assert (0 <= k / gp) by (apply Rmult_le_pos; [assumption|left; apply Rinv_0_lt_compat, Gb]).
          replace (area Q (cid c) f * (v_n Q P t (cid c) f * pg P t (cid c) f + k * (y (cid c) - pg P t (cid c) f) / gp) -
                   area Q (cid c) f * (v_n Q P t (cid c) f * pg P t (cid c) f + k * (x (cid c) - pg P t (cid c) f) / gp))
            with (area Q (cid c) f * (k / gp) * z (cid c)) by (unfold z, Rdiv; ring).
          assert (0 <= area Q (cid c) f * (k / gp)) by nra. destruct (Hs (cid c)) as [[Z1 ->] | [Z1 ->]]; nra.
        + lra.
        + specialize (Ob eq_refl).
          replace (area Q (cid c) f * (v_n Q P t (cid c) f * y (cid c) + po P t (cid c) f) - area Q (cid c) f * (v_n Q P t (cid c) f * x (cid c) + po P t (cid c) f))
            with (area Q (cid c) f * v_n Q P t (cid c) f * z (cid c)) by (unfold z; ring).
          assert (0 <= area Q (cid c) f * v_n Q P t (cid c) f) by nra. destruct (Hs (cid c)) as [[Z1 ->] | [Z1 ->]]; nra.
        + lra.
      - set (part := fun (w : vec) f => match classify e f with
          | Skeleton | Periodic => if (outside f <? cid c)%nat then (s (cid c) - s (outside f)) * flux_of Q P t w (cid c) f else 0
          | Boundary => s (cid c) * boundary_flux Q P t w (cid c) f
          | Processor => 0 end).
        change (FF c) with (s (cid c) * (pd P t (cid c) * z (cid c) * volume Q (cid c)) +
          dt * ((s (cid c) * production Q P t y (cid c) + lsum (part y) fs) - (s (cid c) * production Q P t x (cid c) + lsum (part x) fs))).
        match goal with |- _ = _ + dt * lsum ?F3 fs =>
          assert (EQ : lsum F3 fs = lsum (part y) fs - lsum (part x) fs) end.
        { rewrite <- lsum_minus. apply lsum_ext. intros f _. unfold part, z. rewrite <- flux_diff. destruct (classify e f); try ring; destruct (outside f <? cid c)%nat; ring. }
        rewrite EQ. clearbody part. unfold production, z. ring. }
    apply (lsum_neg FF cells c0).
    - intros c Hc. destruct (TERM c Hc) as (r & Hr & ->). destruct HD as [D1 _]. destruct (D1 c Hc) as (V & Cd & Cc).
      assert (0 <= dt * pc P t (cid c)) by nra. assert (0 < volume Q (cid c) * (pd P t (cid c) + dt * pc P t (cid c))) by nra.
      assert (s (cid c) * z (cid c) <= 0) by (destruct (Hs (cid c)) as [[Z1 ->] | [Z1 ->]]; lra).
      assert (dt * r <= 0) by nra. nra.
    - assumption.
    - destruct (TERM c0 Hc0) as (r & Hr & ->). destruct HD as [D1 _]. destruct (D1 c0 Hc0) as (V & Cd & Cc).
      assert (0 <= dt * pc P t (cid c0)) by nra. assert (0 < volume Q (cid c0) * (pd P t (cid c0) + dt * pc P t (cid c0))) by nra.
      rewrite Ec0 in *. assert (Zn : z g0 < 0) by (unfold z; lra). destruct (Hs g0) as [[_ ->] | [Z1 _]]; [|lra].
      assert (dt * r <= 0) by nra. nra.
  Qed.

  (** zero is a subsolution for nonnegative data *)
  Lemma zero_sub g : nonnegative_data Q P t e cells -> (g < N)%nat -> operator_value 0 (fv_space N) e (ccfv Q P) t vzero cells g <= 0.
  Proof.
    intros [N1 N2] Hg. set (s := fun h => if (g =? h)%nat then 1 else 0).
    assert (HF : forall c f, In c cells -> In f (faces c) -> classify e f = Skeleton \/ classify e f = Periodic -> (outside f < N)%nat) by (apply HN).
    pose proof (weak_form Q P e t vzero cells N s cid_lt HF) as W. rewrite all_kept in W.
    assert (E : nsum N (fun h => s h * operator_value 0 (fv_space N) e (ccfv Q P) t vzero cells h) = operator_value 0 (fv_space N) e (ccfv Q P) t vzero cells g).
    { rewrite <- (nsum_single N g (operator_value 0 (fv_space N) e (ccfv Q P) t vzero cells) Hg). apply nsum_ext. intros h _. unfold s. destruct (g =? h)%nat; ring. }
    rewrite E in W. rewrite W. apply lsum_nonpos. intros c Hc. destruct HD as [D1 D2]. destruct (D1 c Hc) as (V & _ & _). specialize (N1 c Hc).
    assert (S01 : 0 <= s (cid c)) by (unfold s; destruct (g =? cid c)%nat; lra).
    assert (PR : s (cid c) * production Q P t vzero (cid c) <= 0) by (unfold production, vzero; assert (0 <= pf P t (cid c) * volume Q (cid c)) by nra; nra).
    match goal with |- _ + lsum ?F ?l <= 0 => assert (lsum F l <= 0); [|lra] end.
    apply lsum_nonpos. intros f Hf. apply filter_In in Hf as [Hf _]. destruct (D2 c f Hc Hf) as (Ar & _ & Gb & _).
    assert (Z : flux_of Q P t vzero (cid c) f = 0) by (unfold flux_of, vzero, Rdiv; destruct (Rle_dec 0 (vn Q P t (cid c) f)); ring).
    destruct (classify e f) eqn:Cl; [lra| | |].
    1, 3: destruct (outside f <? cid c)%nat; [rewrite Z|]; lra.
    specialize (N2 c f Hc Hf Cl). specialize (Gb eq_refl). unfold boundary_flux, vzero. destruct (HE c f Hc Hf) as [K1 _].
    enough (area Q (cid c) f * match pbc P t (cid c) f with
       | BDirichlet => v_n Q P t (cid c) f * pg P t (cid c) f + K Q P t (cid c) (normal Q (cid c) f) * (0 - pg P t (cid c) f) / gap Q (center Q (cid c)) (fcenter Q (cid c) f)
       | BNeumann => pj P t (cid c) f | BOutflow => v_n Q P t (cid c) f * 0 + po P t (cid c) f | BNone => 0 end <= 0) by nra.
    destruct (pbc P t (cid c) f).
    - destruct N2 as [G0 V0]. specialize (Gb eq_refl). set (gp := gap Q (center Q (cid c)) (fcenter Q (cid c) f)) in *. set (k := K Q P t (cid c) (normal Q (cid c) f)) in *.
      assert (0 <= k / gp) by (apply Rmult_le_pos; [assumption|left; apply Rinv_0_lt_compat, Gb]).
      replace (k * (0 - pg P t (cid c) f) / gp) with (- (k / gp * pg P t (cid c) f)) by (unfold Rdiv; ring).
      assert (0 <= k / gp * pg P t (cid c) f) by nra. assert (v_n Q P t (cid c) f * pg P t (cid c) f <= 0) by nra. nra.
    - nra.
    - nra.
    - lra.
  Qed.
End Monotone.
