(** C64, C65, C66: the cell-centred finite volume scheme. *)
From Coq Require Import FunctionalExtensionality Lra.
From Verif Require Import CommonFacts CcfvModel EngineProofs EngineProofs2 EngineProofs3 DriverProofs ConsProofs2 ConsProofs3 DiagSpec DiagProofs DiagProofs2 DiagProps CcfvSpec CcfvProofs CcfvProofs2.
Local Open Scope R_scope.

(** C64: the residual of a cell is its production plus the fluxes out through all of its faces, although every face is
    visited from one side only. *)
Theorem c64_balance : forall Q P N e cells m a s u c,
  numbered_cells N e cells -> mirrored e cells m -> consistent Q P (time a) e cells m -> elliptic Q P (time a) e cells ->
  In c cells -> skip_entity e c = false ->
  assemble_residual 0 (fv_space N) (ccfv Q P) e cells a s u vzero (cid c) =
  weight a * (production Q P (time a) u (cid c) +
              lsum (outflow Q P (time a) u e (cid c)) (filter (fun f => negb (skip_intersection e c f)) (faces c))).
Proof.
  intros Q P N e cells m a s u c HN HM HC HE Hc Sk. rewrite assembled_value.
  rewrite (cell_balance Q P e (time a) u cells m N HM (fun c => cell_below N e cells c HN) (proj2 HN) HC HE c Hc Sk).
  - unfold vzero. now rewrite Rplus_0_l.
  - destruct HN as [Pm _]. apply (Permutation_NoDup (Permutation_sym Pm)), seq_NoDup.
Qed.
Print Assumptions c64_balance.

(** C64: conservation; summed over all cells, only production and boundary fluxes remain. *)
Theorem c64_conservation : forall Q P N e cells a s u,
  numbered_cells N e cells ->
  nsum N (assemble_residual 0 (fv_space N) (ccfv Q P) e cells a s u vzero) =
  weight a * lsum (fun c => production Q P (time a) u (cid c) +
    lsum (fun f => match classify e f with Boundary => boundary_flux Q P (time a) u (cid c) f | _ => 0 end)
         (filter (fun f => negb (skip_intersection e c f)) (faces c)))
    (filter (fun c => negb (skip_entity e c)) cells).
Proof.
  intros Q P N e cells a s u HN.
  rewrite (nsum_ext N _ (fun g => weight a * (1 * operator_value 0 (fv_space N) e (ccfv Q P) (time a) u cells g)))
    by (intros g _; rewrite assembled_value; unfold vzero; ring).
  rewrite nsum_scal, (weak_form Q P e (time a) u cells N (fun _ => 1) (fun c => cell_below N e cells c HN) (proj2 HN)). f_equal.
  apply lsum_ext. intros c _. f_equal; [ring|]. apply lsum_ext. intros f _. destruct (classify e f); try ring; destruct (outside f <? cid c)%nat; ring.
Qed.
Print Assumptions c64_conservation.

(** C64: the residual is affine and its linear part is the assembled matrix (of the spatial and the capacity operator). *)
Theorem c64_jacobian : forall Q P N e cells a s s' s'' x z g, (0 < N)%nat ->
  assemble_residual 0 (fv_space N) (ccfv Q P) e cells a s (vadd x z) vzero g =
  assemble_residual 0 (fv_space N) (ccfv Q P) e cells a s' x vzero g +
  mv N (assemble_jacobian (fv_space N) (ccfv Q P) (ccfv_j Q P) e cells a s'' x mzero) z g /\
  assemble_residual 0 (fv_space N) (ccfv_temporal Q P) e cells a s (vadd x z) vzero g =
  assemble_residual 0 (fv_space N) (ccfv_temporal Q P) e cells a s' x vzero g +
  mv N (assemble_jacobian (fv_space N) (ccfv_temporal Q P) (ccfv_temporal_j Q P) e cells a s'' x mzero) z g.
Proof.
  intros. assert (D : dofs_below N (fv_space N)).
  { intros c h [<- | []]. destruct (Nat.ltb_spec c N); lia. }
  split; apply affine_residual; auto; [apply ccfv_affine|apply temporal_affine].
Qed.
Print Assumptions c64_jacobian.

(** C66: with weight one, applying the Jacobian without a matrix gives the product with the matrix (exactly, although
    the boundary term uses difference quotients). *)
Theorem c66_apply_partial : forall Q P N e cells a s s' x z g, (0 < N)%nat -> weight a = 1 ->
  assemble_residual (0, 0) (fv_space N) (ccfv_apply Q P) e cells a s (fun h => (x h, z h)) vzero g =
  mv N (assemble_jacobian (fv_space N) (ccfv Q P) (ccfv_j Q P) e cells a s' x mzero) z g.
Proof.
  intros. apply assembled_apply; [|apply ccfv_applied]. intros c h [<- | []]. destruct (Nat.ltb_spec c N); lia.
Qed.
Print Assumptions c66_apply_partial.

(** FINDING: convectiondiffusionccfv.hh 42 with numericaljacobianapply.hh 303-338: for any other weight (a time step, a
    Runge-Kutta coefficient) the boundary part of a matrix-free application lacks the weight. *)
Theorem c66_apply_weight_refuted : exists Q P c f w,
  fv_j_boundary Q P c f 0 0 vzero 0%nat 0%nat <> 0 /\
  forall z, num_apply_boundary_linear (/ 10 ^ 7) (fv_alpha_boundary Q P c f 0 0) 1 1 w z vzero 0%nat =
            fv_j_boundary Q P c f 0 0 vzero 0%nat 0%nat * z 0%nat /\
            (z 0%nat <> 0 -> num_apply_boundary_linear (/ 10 ^ 7) (fv_alpha_boundary Q P c f 0 0) 1 1 w z vzero 0%nat <>
                         w * (fv_j_boundary Q P c f 0 0 vzero 0%nat 0%nat * z 0%nat)).
Proof.
  exists (mkfvgeo 1 (fun _ => 1) (fun _ => vzero) (fun _ _ => 1) (fun _ _ => vzero) (fun _ _ _ => 1)).
  exists (mkfvparam (fun _ _ => mzero) (fun _ _ => 0) (fun _ _ => 0) (fun _ _ => 1) (fun _ _ _ _ => 1) (fun _ _ _ => 0) (fun _ _ _ => BOutflow) (fun _ _ _ => 0) (fun _ _ _ => 0)).
  exists (mkcell 0 []), (mkface 0 false true 0 false), 2.
  split; [cbn; unfold vn, dotp; cbn; lra|]. intros z.
  match goal with |- ?A = ?B /\ _ => assert (E : A = B) end.
  { pose proof (ccfv_applied 1 (mkfvgeo 1 (fun _ => 1) (fun _ => vzero) (fun _ _ => 1) (fun _ _ => vzero) (fun _ _ _ => 1))
      (mkfvparam (fun _ _ => mzero) (fun _ _ => 0) (fun _ _ => 0) (fun _ _ => 1) (fun _ _ _ _ => 1) (fun _ _ _ => 0) (fun _ _ _ => BOutflow) (fun _ _ _ => 0) (fun _ _ _ => 0))) as A.
    unfold local_apply in A. do 9 destruct A as [_ A]. destruct (A (mkcell 0 []) 0 (fun i => (0, z i))) as (_ & _ & B & _).
    specialize (B (mkface 0 false true 0 false) 0%nat 0%nat (Nat.lt_0_succ 0)).
    unfold mv in B. cbn [ccfv_apply alpha_boundary length lfsu fv_space nsum ccfv_j j_boundary] in B. rewrite Rplus_0_l in B. exact B. }
  split; [exact E|]. intros Hz. rewrite E. cbn. unfold vn, dotp. cbn. lra.
Qed.
Print Assumptions c66_apply_weight_refuted.

(** A time step that an operator suggests: the calls it sees during a time stepping scheme. *)
Inductive fvcall := PreStage (r : nat) | Assembly.
Definition fv_calls (Q : fvgeo) (P : fvparam) (l : list fvcall) (s : fvstate) : res fvstate :=
  foldM (fun s x => match x with PreStage r => Ok (fv_pre_stage r s) | Assembly => fv_assembly Q P s end) l s.
(** FINDING: convectiondiffusionccfv.hh 279-300: the suggested time step never depends on the problem; after the first
    stage has been prepared it is 1E100, although the flow empties a cell in one unit of time. *)
Theorem c66_timestep_refuted : exists Q P c f,
  pd P 0 (cid c) * volume Q (cid c) = 1 /\ In f (faces c) /\ area Q (cid c) f * v_n Q P 0 (cid c) f = 1 /\
  forall l s0 dt, exists s, fv_calls Q P (PreStage 1 :: l) s0 = Ok s /\ fv_suggest s dt = Ok (10 ^ 100).
Proof.
  exists (mkfvgeo 1 (fun _ => 1) (fun _ => vzero) (fun _ _ => 1) (fun _ _ => vzero) (fun _ _ _ => 1)).
  exists (mkfvparam (fun _ _ => mzero) (fun _ _ => 0) (fun _ _ => 0) (fun _ _ => 1) (fun _ _ _ _ => 1) (fun _ _ _ => 0) (fun _ _ _ => BOutflow) (fun _ _ _ => 0) (fun _ _ _ => 0)).
  exists (mkcell 0 [mkface 0 false true 0 false]), (mkface 0 false true 0 false).
  split; [cbn; ring|]. split; [now left|]. split; [cbn; unfold v_n; cbn; ring|].
  intros l s0 dt. cbn [fv_calls]. unfold fv_calls. cbn [foldM bind].
  assert (H : forall l s, dtmin s = Some (10 ^ 100) -> exists s', foldM (fun s x => match x with PreStage r => Ok (fv_pre_stage r s) | Assembly => fv_assembly
     (mkfvgeo 1 (fun _ => 1) (fun _ => vzero) (fun _ _ => 1) (fun _ _ => vzero) (fun _ _ _ => 1))
     (mkfvparam (fun _ _ => mzero) (fun _ _ => 0) (fun _ _ => 0) (fun _ _ => 1) (fun _ _ _ _ => 1) (fun _ _ _ => 0) (fun _ _ _ => BOutflow) (fun _ _ _ => 0) (fun _ _ _ => 0)) s end) l s = Ok s' /\ dtmin s' = Some (10 ^ 100)).
  { clear. intros l. induction l as [|[r|] l IH]; intros s Hs.
    - now exists s.
    - cbn [foldM bind]. apply IH. unfold fv_pre_stage. destruct (r =? 1)%nat; [reflexivity|exact Hs].
    - cbn [foldM bind fv_assembly]. unfold fv_assembly at 1. cbn [ccfv do_alpha_post bind]. now apply IH. }
  destruct (H l (fv_pre_stage 1 s0) eq_refl) as (s & E & F). exists s. split; [exact E|]. unfold fv_suggest. now rewrite F.
Qed.
Print Assumptions c66_timestep_refuted.

(** C65: an implicit Euler step is monotone for every step width: if the left-hand side for [x] is at most that for [y]
    in every cell, then [x] is at most [y]. *)
Theorem c65_comparison : forall Q P N e cells t dt s1 s2 s3 s4 x y,
  numbered_cells N e cells -> (forall c, In c cells -> skip_entity e c = false) ->
  elliptic Q P t e cells -> monotone_data Q P t e cells -> 0 <= dt ->
  (forall g, (g < N)%nat ->
     assemble_residual 0 (fv_space N) (ccfv_temporal Q P) e cells (mkla 1 t) s1 x vzero g +
     assemble_residual 0 (fv_space N) (ccfv Q P) e cells (mkla dt t) s2 x vzero g <=
     assemble_residual 0 (fv_space N) (ccfv_temporal Q P) e cells (mkla 1 t) s3 y vzero g +
     assemble_residual 0 (fv_space N) (ccfv Q P) e cells (mkla dt t) s4 y vzero g) ->
  forall g, (g < N)%nat -> x g <= y g.
Proof.
  intros Q P N e cells t dt s1 s2 s3 s4 x y HN HS HE HD Hdt H.
  apply (comparison Q P e t cells N HN HS HE HD dt x y Hdt).
  intros g Hg. specialize (H g Hg). rewrite !assembled_value in H. cbn [weight time] in H. unfold vzero in H. lra.
Qed.
Print Assumptions c65_comparison.

(** C65: hence an implicit Euler step has at most one solution ... *)
Theorem c65_unique : forall Q P N e cells t dt s1 s2 s3 s4 x y b,
  numbered_cells N e cells -> (forall c, In c cells -> skip_entity e c = false) ->
  elliptic Q P t e cells -> monotone_data Q P t e cells -> 0 <= dt ->
  (forall g, (g < N)%nat ->
     assemble_residual 0 (fv_space N) (ccfv_temporal Q P) e cells (mkla 1 t) s1 x vzero g +
     assemble_residual 0 (fv_space N) (ccfv Q P) e cells (mkla dt t) s2 x vzero g = b g) ->
  (forall g, (g < N)%nat ->
     assemble_residual 0 (fv_space N) (ccfv_temporal Q P) e cells (mkla 1 t) s3 y vzero g +
     assemble_residual 0 (fv_space N) (ccfv Q P) e cells (mkla dt t) s4 y vzero g = b g) ->
  forall g, (g < N)%nat -> x g = y g.
Proof.
  intros Q P N e cells t dt s1 s2 s3 s4 x y b HN HS HE HD Hdt Hx Hy g Hg.
  apply Rle_antisym; [eapply (c65_comparison Q P N e cells t dt s1 s2 s3 s4 x y); eauto|eapply (c65_comparison Q P N e cells t dt s3 s4 s1 s2 y x); eauto];
    intros h Hh; rewrite (Hx h Hh), (Hy h Hh); lra.
Qed.
Print Assumptions c65_unique.

(** C65: ... and keeps concentrations nonnegative: from a nonnegative old solution and nonnegative data, the new solution
    is nonnegative. *)
Theorem c65_nonnegative : forall Q P N e cells t dt s1 s2 s3 old x,
  numbered_cells N e cells -> (forall c, In c cells -> skip_entity e c = false) ->
  elliptic Q P t e cells -> monotone_data Q P t e cells -> nonnegative_data Q P t e cells -> 0 <= dt ->
  (forall g, (g < N)%nat -> 0 <= old g) ->
  (forall g, (g < N)%nat ->
     assemble_residual 0 (fv_space N) (ccfv_temporal Q P) e cells (mkla 1 t) s1 x vzero g +
     assemble_residual 0 (fv_space N) (ccfv Q P) e cells (mkla dt t) s2 x vzero g =
     assemble_residual 0 (fv_space N) (ccfv_temporal Q P) e cells (mkla 1 t) s3 old vzero g) ->
  forall g, (g < N)%nat -> 0 <= x g.
Proof.
  intros Q P N e cells t dt s1 s2 s3 old x HN HS HE HD HP Hdt Ho H.
  apply (comparison Q P e t cells N HN HS HE HD dt vzero x Hdt).
  intros g Hg. specialize (H g Hg). rewrite !assembled_value in H. cbn [weight time] in H. assert (Z0 : vzero g = 0) by reflexivity. rewrite Z0 in H.
  pose proof (zero_sub Q P e t cells N HN HS HE HD g HP Hg) as Z.
  destruct (mass_value Q P e t cells N HN HS vzero g Hg) as (c & Hc & E & M0).
  destruct (mass_value Q P e t cells N HN HS old g Hg) as (c2 & _ & _ & M1).
  rewrite M0. rewrite M1 in H. destruct HD as [D1 _]. destruct (D1 c Hc) as (V & Cd & _). rewrite E in V, Cd. specialize (Ho g Hg).
  assert (0 <= pd P t g * old g * volume Q g) by (apply Rmult_le_pos; [apply Rmult_le_pos|]; lra).
  rewrite Z0. assert (dt * operator_value 0 (fv_space N) e (ccfv Q P) t vzero cells g <= 0) by nra. lra.
Qed.
Print Assumptions c65_nonnegative.

(** The hypotheses hold for transport with diffusion and decay along three cells, with inflow on the left and outflow on
    the right. *)
Definition row3 : list cell :=
  [mkcell 0 [mkface 0 false true 7 false; mkface 1 true false 1 true];
   mkcell 1 [mkface 1 true false 0 true; mkface 2 true false 2 true];
   mkcell 2 [mkface 2 true false 1 true; mkface 3 false true 7 false]].
Definition line_geo : fvgeo :=
  mkfvgeo 1 (fun _ => 1) (fun c _ => INR c) (fun _ _ => 1) (fun _ f _ => INR (fid f) - / 2) (fun c f _ => if (fid f =? c)%nat then -1 else 1).
Definition transport : fvparam :=
  mkfvparam (fun _ _ _ _ => 3) (fun _ _ => 1) (fun _ _ => 0) (fun _ _ => 1) (fun _ _ _ _ => 2) (fun _ _ _ => 1)
    (fun _ _ f => if (fid f =? 0)%nat then BDirichlet else BOutflow) (fun _ _ _ => 0) (fun _ _ _ => 0).
Definition other3 (s : slot) : slot :=
  match List.find (fun s' => (cid (fst s') =? outside (snd (snd s)))%nat && (outside (snd (snd s')) =? cid (fst s))%nat && is_interior env0 s') (visited_slots env0 row3) with
  | Some s' => s' | None => s end.
Lemma row3_mirrored : mirrored env0 row3 other3 /\
  forall s, In s (interior_slots env0 row3) ->
    s = nth 0 (interior_slots env0 row3) s \/ s = nth 1 (interior_slots env0 row3) s \/ s = nth 2 (interior_slots env0 row3) s \/ s = nth 3 (interior_slots env0 row3) s.
Proof.
  assert (KK : forall s, In s (interior_slots env0 row3) ->
    s = nth 0 (interior_slots env0 row3) s \/ s = nth 1 (interior_slots env0 row3) s \/ s = nth 2 (interior_slots env0 row3) s \/ s = nth 3 (interior_slots env0 row3) s).
  { intros s H. vm_compute in H. vm_compute. destruct H as [H|[H|[H|[H|[]]]]]; auto. }
  split; [|exact KK]. split.
  - cbv. repeat (constructor; [intros K; repeat (destruct K as [K|K]; [discriminate|]); destruct K|]). constructor.
  - intros s H. pose proof (KK s H) as K.
    vm_compute in K. clear H. destruct K as [-> | [-> | [-> | ->]]]; vm_compute; repeat split; auto; intros; discriminate.
Qed.

Ltac each_face Hc Hf := destruct Hc as [<- | [<- | [<- | []]]]; destruct Hf as [<- | [<- | []]].
Example c64_meets : numbered_cells 3 env0 row3 /\ mirrored env0 row3 other3 /\ consistent line_geo transport 0 env0 row3 other3 /\
  elliptic line_geo transport 0 env0 row3 /\ In (nth 1 row3 (mkcell 0 [])) row3 /\
  interior_flux line_geo transport 0 (fun g => INR g) 1 (mkface 2 true false 2 true) = 2 - harmonic_mean (3 + tiny) (3 + tiny).
Proof.
  split; [|split; [|split; [|split; [|split]]]].
  - split; [apply Permutation_refl|]. intros c f Hc Hf Cl. each_face Hc Hf; cbn in *; try lia; destruct Cl; discriminate.
  - apply row3_mirrored.
  - intros s Hs. destruct row3_mirrored as [_ K]. specialize (K s Hs). clear Hs. vm_compute in K.
    destruct K as [-> | [-> | [-> | ->]]];
      match goal with |- context[other3 ?s] => let r := eval vm_compute in (other3 s) in change (other3 s) with r end;
      cbn; repeat split; intros; ring.
  - intros c f Hc Hf. each_face Hc Hf; unfold K; cbn; split; lra.
  - cbn. auto.
  - unfold interior_flux, v_n, gap, K. cbn [line_geo transport gdim volume center area fcenter normal pA pb nsum fid outside Nat.eqb].
    replace (0 + (INR 1 - INR 2) * (INR 1 - INR 2)) with 1 by (cbn; ring). rewrite sqrt_1.
    replace (0 + 2 * 1) with 2 by ring. rewrite Rmax_left, Rmin_right by lra. replace (0 + 1 * (0 + 3 * 1)) with 3 by ring. cbn [INR]. field.
Qed.
Example c65_meets : (forall c, In c row3 -> skip_entity env0 c = false) /\ monotone_data line_geo transport 0 env0 row3 /\ nonnegative_data line_geo transport 0 env0 row3.
Proof.
  split; [reflexivity|]. split; split.
  - intros c _. cbn. lra.
  - intros c f Hc Hf. each_face Hc Hf; cbn [cid line_geo area center transport pbc fid outside Nat.eqb gap].
    all: split; [lra|].
    all: unfold gap, v_n; cbn; split; [intros [K|K]; discriminate K || (apply sqrt_lt_R0; lra)|].
    all: split; [intros A B; discriminate A || discriminate B || (apply sqrt_lt_R0; lra)|intros A B; discriminate A || discriminate B || lra].
  - intros c _. cbn. lra.
  - intros c f Hc Hf Cl. each_face Hc Hf; cbn; unfold v_n; cbn; try split; lra || discriminate.
Qed.
