(** C123: Darcy velocities of finite volume solutions. *)
From Coq Require Import FunctionalExtensionality Lra Lia.
From Verif Require Import CommonFacts CcfvModel EngineProofs DiagSpec DiagProofs CcfvSpec CcfvProofs CcfvProofs2 CcfvProps VelModel VelSpec VelProofs.
From Verif Require TpModel.
Local Open Scope R_scope.

(** C123: on a face that is one intersection, the field in an affine cell has the normal component that the scheme prescribes, at every point
    of the face and after any evaluations in any cells. *)
Theorem c123_normal_partial : forall G P t u c n co l x f,
  conforming G c n -> affine_cube G (cid c) n -> In f (faces c) -> on_face x (face_number G (cid c) f) -> ~ periodic f ->
  (boundary f = false -> neighbor f = true -> 0 <= K (vg_fv G) P t (cid c) (normal (vg_fv G) (cid c) f) /\ 0 <= K (vg_fv G) P t (outside f) (normal (vg_fv G) (cid c) f)) ->
  dotn (gdim (vg_fv G)) (fst (evaluate G (cell_coefficients G P t u c) (cid c) x (evaluations G co l))) (normal (vg_fv G) (cid c) f) =
  darcy_flux (vg_fv G) P t u (cid c) f.
Proof. intros. rewrite (field_normal G P t u c n) by easy. now apply normal_velocity_flux. Qed.
Print Assumptions c123_normal_partial.

(** C123: the normal component is continuous across interior faces. *)
Theorem c123_continuous_partial : forall G P t u c n c' n' co l l' x x' f f',
  conforming G c n -> affine_cube G (cid c) n -> conforming G c' n' -> affine_cube G (cid c') n' ->
  In f (faces c) -> In f' (faces c') -> outside f = cid c' -> outside f' = cid c ->
  neighbor f = true -> boundary f = false -> neighbor f' = true -> boundary f' = false ->
  (forall k, normal (vg_fv G) (cid c') f' k = - normal (vg_fv G) (cid c) f k) ->
  0 <= K (vg_fv G) P t (cid c) (normal (vg_fv G) (cid c) f) -> 0 <= K (vg_fv G) P t (cid c') (normal (vg_fv G) (cid c) f) ->
  on_face x (face_number G (cid c) f) -> on_face x' (face_number G (cid c') f') ->
  dotn (gdim (vg_fv G)) (fst (evaluate G (cell_coefficients G P t u c) (cid c) x (evaluations G co l))) (normal (vg_fv G) (cid c) f) =
  dotn (gdim (vg_fv G)) (fst (evaluate G (cell_coefficients G P t u c') (cid c') x' (evaluations G co l'))) (normal (vg_fv G) (cid c) f).
Proof.
  intros G P t u c n c' n' co l l' x x' f f' C A C' A' I I' E E' N B N' B' HN K1 K2 X X'.
  assert (NP : ~ periodic f) by (intros [_ F]; congruence). assert (NP' : ~ periodic f') by (intros [_ F]; congruence).
  rewrite (c123_normal_partial G P t u c n) by (try easy; rewrite E; easy).
  transitivity (- dotn (gdim (vg_fv G)) (fst (evaluate G (cell_coefficients G P t u c') (cid c') x' (evaluations G co l'))) (normal (vg_fv G) (cid c') f')).
  - rewrite (c123_normal_partial G P t u c' n') by (try easy; rewrite E'; intros _ _; rewrite (K_opp _ P t (cid c) (normal (vg_fv G) (cid c) f) (normal (vg_fv G) (cid c') f')), (K_opp _ P t (cid c') (normal (vg_fv G) (cid c) f) (normal (vg_fv G) (cid c') f')) by easy; easy).
    rewrite (darcy_flux_opposite _ P t u (cid c) f (cid c') f') by easy. ring.
  - unfold dotn. rewrite !nsum_rsum, <- CdProofs.rsum_opp. apply CdProofs.rsum_ext. intros k _. rewrite HN. ring.
Qed.
Print Assumptions c123_continuous_partial.

Lemma filter_all {A} (p : A -> bool) l : (forall a, In a l -> p a = true) -> filter p l = l.
Proof. induction l as [|a l IH]; intros H; [reflexivity|]. cbn. rewrite H by now left. f_equal. apply IH. intros. apply H. now right. Qed.

(** C123: where the pressure solves the finite volume equations without convection, the velocity is locally conservative: what leaves the cell
    through its faces is what the sources produce in it. *)
Theorem c123_balance_partial : forall G P N e cells m a s u c n co l (x : face -> vec),
  numbered_cells N e cells -> mirrored e cells m -> consistent (vg_fv G) P (time a) e cells m -> elliptic (vg_fv G) P (time a) e cells ->
  In c cells -> skip_entity e c = false -> all_partitions e = true -> weight a <> 0 ->
  (forall c f k, pb P (time a) c f k = 0) ->
  conforming G c n -> affine_cube G (cid c) n ->
  (forall f, In f (faces c) -> skip_intersection e c f = false /\ ~ periodic f /\ on_face (x f) (face_number G (cid c) f) /\
     (boundary f = true -> pbc P (time a) (cid c) f = BDirichlet \/ pbc P (time a) (cid c) f = BNeumann)) ->
  assemble_residual 0 (fv_space N) (ccfv (vg_fv G) P) e cells a s u vzero (cid c) = 0 ->
  lsum (fun f => area (vg_fv G) (cid c) f *
    dotn (gdim (vg_fv G)) (fst (evaluate G (cell_coefficients G P (time a) u c) (cid c) (x f) (evaluations G co l))) (normal (vg_fv G) (cid c) f)) (faces c) =
  (pf P (time a) (cid c) - pc P (time a) (cid c) * u (cid c)) * volume (vg_fv G) (cid c).
Proof.
  intros G P N e cells m a s u c n co l x H1 H2 H3 H4 Hc Hs Hall Hw Hb HC HA HF HR.
  rewrite (c64_balance (vg_fv G) P N e cells m a s u c) in HR by easy.
  apply Rmult_integral in HR as [HR|HR]; [easy|].
  rewrite filter_all in HR by (intros f Hf; now rewrite (proj1 (HF f Hf))).
  assert (E : lsum (fun f => area (vg_fv G) (cid c) f *
    dotn (gdim (vg_fv G)) (fst (evaluate G (cell_coefficients G P (time a) u c) (cid c) (x f) (evaluations G co l))) (normal (vg_fv G) (cid c) f)) (faces c)
    = lsum (outflow (vg_fv G) P (time a) u e (cid c)) (faces c)).
  { apply lsum_ext. intros f Hf. destruct (HF f Hf) as (_ & HP & HX & HB).
    rewrite (c123_normal_partial G P (time a) u c n) by (try easy; intros _ _; now apply (H4 c f)).
    assert (V : v_n (vg_fv G) P (time a) (cid c) f = 0).
    { unfold v_n. rewrite nsum_rsum, <- (CdProofs.rsum_0 (gdim (vg_fv G))). apply CdProofs.rsum_ext. intros. rewrite Hb. ring. }
    unfold outflow, classify, base_type, darcy_flux. rewrite Hall.
    destruct (neighbor f) eqn:EN, (boundary f) eqn:EB.
    - now destruct HP.
    - unfold interior_flux. rewrite V, Rmax_left, Rmin_left by lra. ring.
    - unfold boundary_flux. rewrite V. destruct (HB eq_refl) as [->| ->]; ring.
    - ring. }
  rewrite E. unfold production in HR. lra.
Qed.
Print Assumptions c123_balance_partial.

(** C123: if the prescribed fluxes are those of a uniform flow, the field is this flow everywhere in the cell. *)
Theorem c123_uniform : forall G P t u c n co l x v,
  conforming G c n -> affine_cube G (cid c) n ->
  (forall i, (i < 2 * gdim (vg_fv G))%nat -> exists f, In f (faces c) /\ face_number G (cid c) f = i) ->
  (forall f, In f (faces c) -> ~ periodic f /\ darcy_flux (vg_fv G) P t u (cid c) f = dotn (gdim (vg_fv G)) v (normal (vg_fv G) (cid c) f) /\
    (boundary f = false -> neighbor f = true -> 0 <= K (vg_fv G) P t (cid c) (normal (vg_fv G) (cid c) f) /\ 0 <= K (vg_fv G) P t (outside f) (normal (vg_fv G) (cid c) f))) ->
  forall k, (k < gdim (vg_fv G))%nat -> fst (evaluate G (cell_coefficients G P t u c) (cid c) x (evaluations G co l)) k = v k.
Proof.
  intros G P t u c n co l x v HC HA HI HF. apply (field_constant G P t u c n HC HA co l x v).
  - intros i Hi. destruct (HI i Hi) as (f & Hf & <-). now apply in_map.
  - intros f Hf. destruct (HF f Hf) as (H1 & H2 & H3). rewrite <- H2. now apply normal_velocity_flux.
Qed.
Print Assumptions c123_uniform.

(** C123: for a pressure that is linear in the centers, the same scalar permeability in all cells, and neighbours in the direction of the normals, the
    velocity is minus the (regularised) permeability times the gradient. *)
Theorem c123_linear : forall G P t u c n co l x p0 g kappa,
  conforming G c n -> affine_cube G (cid c) n -> 0 <= kappa ->
  (forall i, (i < 2 * gdim (vg_fv G))%nat -> exists f, In f (faces c) /\ face_number G (cid c) f = i) ->
  (forall c, u c = p0 + dotn (gdim (vg_fv G)) g (center (vg_fv G) c)) ->
  (forall f, In f (faces c) -> neighbor f = true /\ boundary f = false /\
    K (vg_fv G) P t (cid c) (normal (vg_fv G) (cid c) f) = kappa /\ K (vg_fv G) P t (outside f) (normal (vg_fv G) (cid c) f) = kappa /\
    exists h, 0 < h /\ forall k, (k < gdim (vg_fv G))%nat -> center (vg_fv G) (outside f) k - center (vg_fv G) (cid c) k = h * normal (vg_fv G) (cid c) f k) ->
  forall k, (k < gdim (vg_fv G))%nat -> fst (evaluate G (cell_coefficients G P t u c) (cid c) x (evaluations G co l)) k = - (kappa + tiny) * g k.
Proof.
  intros G P t u c n co l x p0 g kappa HC HA HK HI HU HF.
  apply (c123_uniform G P t u c n co l x (fun k => - (kappa + tiny) * g k) HC HA HI). intros f Hf.
  destruct (HF f Hf) as (N & B & K1 & K2 & h & Hh & HE). pose proof tiny_pos.
  split; [intros [_ F]; congruence|]. split; [|intros; lra].
  unfold darcy_flux. rewrite N, B, K1, K2.
  assert (U : dotn (gdim (vg_fv G)) (normal (vg_fv G) (cid c) f) (normal (vg_fv G) (cid c) f) = 1).
  { destruct HA as (J & len & _ & _ & _ & _ & _ & _ & HN). destruct (proj2 HC f Hf) as [Hi Hn]. rewrite <- (HN _ Hi). apply nsum_ext'. intros. now rewrite Hn. }
  assert (GAP : gap (vg_fv G) (center (vg_fv G) (cid c)) (center (vg_fv G) (outside f)) = h).
  { unfold gap. rewrite (nsum_ext' _ _ (fun k => h * h * (normal (vg_fv G) (cid c) f k * normal (vg_fv G) (cid c) f k))).
    - rewrite nsum_rsum, CdProofs.rsum_scal, <- nsum_rsum. change (nsum _ _) with (dotn (gdim (vg_fv G)) (normal (vg_fv G) (cid c) f) (normal (vg_fv G) (cid c) f)).
      rewrite U, Rmult_1_r. apply sqrt_square. lra.
    - intros k Hk. transitivity ((center (vg_fv G) (outside f) k - center (vg_fv G) (cid c) k) * (center (vg_fv G) (outside f) k - center (vg_fv G) (cid c) k)); [ring|].
      rewrite HE by easy. ring. }
  assert (DU : u (cid c) - u (outside f) = - h * dotn (gdim (vg_fv G)) g (normal (vg_fv G) (cid c) f)).
  { rewrite !HU. unfold dotn. change nsum with CdSpec.rsum.
    transitivity (CdSpec.rsum (gdim (vg_fv G)) (fun k => - h * (g k * normal (vg_fv G) (cid c) f k))); [|apply CdProofs.rsum_scal].
    transitivity (CdSpec.rsum (gdim (vg_fv G)) (fun k => g k * center (vg_fv G) (cid c) k) - CdSpec.rsum (gdim (vg_fv G)) (fun k => g k * center (vg_fv G) (outside f) k)); [ring|].
    rewrite <- CdProofs.rsum_minus. apply CdProofs.rsum_ext. intros k Hk.
    transitivity (- g k * (center (vg_fv G) (outside f) k - center (vg_fv G) (cid c) k)); [ring|]. rewrite HE by easy. ring. }
  rewrite GAP, DU. unfold harmonic_mean.
  transitivity (- (kappa + tiny) * dotn (gdim (vg_fv G)) g (normal (vg_fv G) (cid c) f)); [field; lra|].
  unfold dotn. change nsum with CdSpec.rsum. rewrite <- CdProofs.rsum_scal. apply CdProofs.rsum_ext. intros. ring.
Qed.
Print Assumptions c123_linear.

(** C123: every process that has a cell, as interior, overlap or ghost cell, evaluates there with the coefficients of the process that has the cell in
    its interior, in whatever order the messages arrive. *)
Theorem c123_exchange : forall G P t u cellof interior owner has messages,
  interface owner has messages -> (forall p c, interior p c = true <-> p = owner c) ->
  forall p c, has p c = true -> construct G P t u cellof interior messages p c = cell_coefficients G P t u (cellof c).
Proof. intros G P t u cellof interior owner has messages H1 H2 p c. now apply (exchange_owner G P t u cellof interior owner has messages H1 H2 c). Qed.
Print Assumptions c123_exchange.
Example c123_exchange_example : interface (fun c => c / 2)%nat (fun p c => (p <? 2) && (c <? 4))%nat
  [(1,0,2); (0,1,0); (1,0,3); (0,1,1)]%nat /\ (forall p c, ((p =? c / 2)%nat = true <-> p = (c / 2)%nat)).
Proof.
  split; [split|].
  - intros p q c H. cbn in H. repeat destruct H as [H|H]; try (inversion H; subst; reflexivity).
  - intros q c H1 H2. apply andb_prop in H1 as [H1 H3]. apply Nat.ltb_lt in H1, H3.
    destruct q as [|[|]], c as [|[|[|[|]]]]; try lia; cbn in H2 |- *; try congruence; tauto.
  - intros. apply Nat.eqb_eq.
Qed.

Definition unit_matrix : mat := fun k l => if (k =? l)%nat then 1 else 0.
(** Unit intervals [c, c+1]: the face 0 is on the left, the face 1 on the right. *)
Definition line (b0 b1 : bctype) (j0 j1 o1 : R) : velgeo * fvparam :=
  let side := fun (f : face) => fid f in
  (mkvelgeo (mkfvgeo 1 (fun _ => 1) (fun c k => INR c + 1/2) (fun _ _ => 1) (fun c f k => INR c + INR (side f)) (fun _ f => TpModel.normalhat (side f)))
     (fun _ f => side f) (fun _ => unit_matrix) (fun _ => 1) (fun _ _ => unit_matrix) (fun _ _ => 1),
   mkfvparam (fun _ _ => unit_matrix) (fun _ _ => 0) (fun _ _ => 0) (fun _ _ => 1) (fun _ _ _ _ => 0) (fun _ _ _ => 4)
     (fun _ _ f => if (side f =? 0)%nat then b0 else b1) (fun _ _ f => if (side f =? 0)%nat then j0 else j1) (fun _ _ _ => o1)).

Lemma line_affine b0 b1 j0 j1 o1 c : affine_cube (fst (line b0 b1 j0 j1 o1)) c TpModel.normalhat.
Proof.
  exists unit_matrix, (fun _ => 1). cbn. repeat split; try (intros; lra).
  - intros v k H. destruct k; [|lia]. unfold unit_matrix. cbn. ring.
  - intros v k H. destruct k; [|lia]. unfold unit_matrix. cbn. ring.
  - intros i k Hi Hk. destruct k; [|lia]. unfold unit_matrix. cbn. ring.
  - intros i Hi. unfold dotn, TpModel.normalhat. destruct i as [|[|]]; [| |lia]; cbn; ring.
Qed.
Lemma line_conforming b0 b1 j0 j1 o1 c f g : fid f = 0%nat -> fid g = 1%nat -> conforming (fst (line b0 b1 j0 j1 o1)) (mkcell c [f; g]) TpModel.normalhat.
Proof.
  intros F H. unfold conforming. cbn. rewrite F, H. split.
  - constructor; [|constructor; [easy|constructor]]. cbn. intros [E|[]]. discriminate.
  - intros h [<-|[<-|[]]]; rewrite ?F, ?H; (split; [lia|reflexivity]).
Qed.
Lemma line_K b0 b1 j0 j1 o1 t c i : (i < 2)%nat -> K (vg_fv (fst (line b0 b1 j0 j1 o1))) (snd (line b0 b1 j0 j1 o1)) t c (TpModel.normalhat i) = 1.
Proof. intros H. unfold K, unit_matrix, TpModel.normalhat. destruct i as [|[|]]; [| |lia]; cbn; ring. Qed.

(** The left end of a line: pressure 3 in the cell, 4 at the end, 1 in the neighbour. The velocity is -(-2) = 2 into the cell from the left and 2 to the right (up to 1E-30). *)
Example c123_example : let '(G, P) := line BDirichlet BNeumann 0 0 0 in
  let c := mkcell 0 [mkface 0 false true 0 true; mkface 1 true false 1 true] in
  let u : vec := fun c => match c with 0%nat => 3 | _ => 1 end in
  conforming G c TpModel.normalhat /\ affine_cube G (cid c) TpModel.normalhat /\
  (forall f, In f (faces c) -> ~ periodic f /\ 0 <= K (vg_fv G) P 0 (cid c) (normal (vg_fv G) (cid c) f)) /\
  map (darcy_flux (vg_fv G) P 0 u 0) (faces c) = [-2; 2 * (1 + tiny)] /\
  forall x, x 0%nat = 1 -> fst (evaluate G (cell_coefficients G P 0 u c) 0 x None) 0%nat = 2 * (1 + tiny).
Proof.
  cbn zeta. set (G := fst (line BDirichlet BNeumann 0 0 0)). set (P := snd (line BDirichlet BNeumann 0 0 0)).
  change (line BDirichlet BNeumann 0 0 0) with (G, P). cbv iota.
  set (c := mkcell 0 _). set (u := fun c : nat => _).
  assert (HC : conforming G c TpModel.normalhat) by now apply line_conforming.
  assert (HA : affine_cube G (cid c) TpModel.normalhat) by apply line_affine.
  assert (HK : forall k i, (i < 2)%nat -> K (vg_fv G) P 0 k (TpModel.normalhat i) = 1) by (intros; now apply line_K).
  assert (HF : forall f, In f (faces c) -> ~ periodic f /\ 0 <= K (vg_fv G) P 0 (cid c) (normal (vg_fv G) (cid c) f)).
  { intros f [<-|[<-|[]]]; (split; [intros [F1 F2]; discriminate|]); cbn [normal vg_fv G line fst fid cid c]; rewrite HK by lia; lra. }
  assert (HV : map (darcy_flux (vg_fv G) P 0 u 0) (faces c) = [-2; 2 * (1 + tiny)]).
  { pose proof tiny_pos. cbn [map faces c]. unfold darcy_flux. cbn [boundary neighbor outside].
    change (normal (vg_fv G) 0 (mkface 0 false true 0 true)) with (TpModel.normalhat 0). change (normal (vg_fv G) 0 (mkface 1 true false 1 true)) with (TpModel.normalhat 1).
    rewrite !HK by lia. replace (gap (vg_fv G) _ _) with (/ 2).
    - replace (gap (vg_fv G) _ _) with 1.
      + unfold harmonic_mean. f_equal; [cbn; field|f_equal; cbn; field; lra].
      + unfold gap. cbn. symmetry. transitivity (sqrt 1); [f_equal; field|apply sqrt_1].
    - unfold gap. cbn. symmetry. transitivity (sqrt (/ 2 * / 2)); [f_equal; field|apply sqrt_square; lra]. }
  repeat split; try easy; try apply HC; try apply HF; try easy.
  intros x Hx. assert (I : In (mkface 1 true false 1 true) (faces c)) by (right; now left).
  injection HV as _ HV.
  assert (HK2 : boundary (mkface 1 true false 1 true) = false -> neighbor (mkface 1 true false 1 true) = true ->
    0 <= K (vg_fv G) P 0 (cid c) (normal (vg_fv G) (cid c) (mkface 1 true false 1 true)) /\
    0 <= K (vg_fv G) P 0 (outside (mkface 1 true false 1 true)) (normal (vg_fv G) (cid c) (mkface 1 true false 1 true))).
  { intros _ _. change (normal (vg_fv G) (cid c) (mkface 1 true false 1 true)) with (TpModel.normalhat 1). rewrite !HK by lia. lra. }
  transitivity (darcy_flux (vg_fv G) P 0 u (cid c) (mkface 1 true false 1 true)); [|exact HV].
  rewrite <- (c123_normal_partial G P 0 u c TpModel.normalhat (fun _ => vzero) [] x _ HC HA I Hx (proj1 (HF _ I)) HK2).
  change (evaluations G (fun _ => vzero) []) with (@None (nat * (mat * R))). change (cid c) with 0%nat.
  generalize (fst (evaluate G (cell_coefficients G P 0 u c) 0 x None)). intros v.
  unfold dotn. cbn. unfold TpModel.normalhat. cbn. ring.
Qed.

(** FINDING: darcyccfv.hh 183-246: the outflow data o of the scheme is ignored; at an outflow boundary the velocity is 0. Here the scheme lets one
    unit in and one unit out, the velocity field only lets it in. *)
Theorem c123_outflow_refuted : exists G P e u c n, conforming G c n /\ affine_cube G (cid c) n /\ (forall f, In f (faces c) -> ~ periodic f) /\
  (forall c f k, pb P 0 c f k = 0) /\ production (vg_fv G) P 0 u (cid c) + lsum (outflow (vg_fv G) P 0 u e (cid c)) (faces c) = 0 /\
  forall co l (x : face -> vec), (forall f, In f (faces c) -> on_face (x f) (face_number G (cid c) f)) ->
  lsum (fun f => area (vg_fv G) (cid c) f *
    dotn (gdim (vg_fv G)) (fst (evaluate G (cell_coefficients G P 0 u c) (cid c) (x f) (evaluations G co l))) (normal (vg_fv G) (cid c) f)) (faces c) <>
  (pf P 0 (cid c) - pc P 0 (cid c) * u (cid c)) * volume (vg_fv G) (cid c).
Proof.
  set (G := fst (line BNeumann BOutflow (-1) 0 1)). set (P := snd (line BNeumann BOutflow (-1) 0 1)).
  set (c := mkcell 0 [mkface 0 false true 0 true; mkface 1 false true 1 true]).
  assert (HC : conforming G c TpModel.normalhat) by now apply line_conforming.
  assert (HA : affine_cube G (cid c) TpModel.normalhat) by apply line_affine.
  assert (HF : forall f, In f (faces c) -> ~ periodic f) by (intros f [<-|[<-|[]]] [F1 F2]; discriminate).
  exists G, P, (mkenv true (fun _ => false) (fun _ _ => false)), (fun _ => 3), c, TpModel.normalhat.
  split; [exact HC|]. split; [exact HA|]. split; [exact HF|]. split; [reflexivity|]. split.
  - unfold production, outflow, boundary_flux, v_n, lsum. cbn. ring.
  - intros co l x Hx. rewrite (lsum_ext _ (fun f => if (fid f =? 0)%nat then -1 else 0)).
    + unfold lsum. cbn. lra.
    + intros f Hf. rewrite (c123_normal_partial G P 0 (fun _ => 3) c TpModel.normalhat); try easy.
      * destruct Hf as [<-|[<-|[]]]; unfold darcy_flux; cbn; ring.
      * now apply Hx.
      * now apply HF.
      * destruct Hf as [<-|[<-|[]]]; discriminate.
Qed.
Print Assumptions c123_outflow_refuted.

(** FINDING: darcyccfv.hh 206-229: at a periodic boundary, the boundary condition overrides the flux to the neighbour, although the operator asks for none
    there. *)
Theorem c123_periodic_refuted : exists G P e u c n f, conforming G c n /\ affine_cube G (cid c) n /\ In f (faces c) /\ periodic f /\
  (forall c f k, pb P 0 c f k = 0) /\ outflow (vg_fv G) P 0 u e (cid c) f = 0 /\
  forall co l x, on_face x (face_number G (cid c) f) -> area (vg_fv G) (cid c) f *
    dotn (gdim (vg_fv G)) (fst (evaluate G (cell_coefficients G P 0 u c) (cid c) x (evaluations G co l))) (normal (vg_fv G) (cid c) f) = 5.
Proof.
  set (G := fst (line BNeumann BNeumann 0 5 0)). set (P := snd (line BNeumann BNeumann 0 5 0)).
  set (c := mkcell 0 [mkface 0 true true 1 true; mkface 1 true true 1 true]).
  assert (HC : conforming G c TpModel.normalhat) by now apply line_conforming.
  assert (HA : affine_cube G (cid c) TpModel.normalhat) by apply line_affine.
  exists G, P, (mkenv true (fun _ => false) (fun _ _ => false)), (fun _ => 3), c, TpModel.normalhat, (mkface 1 true true 1 true).
  assert (I : In (mkface 1 true true 1 true) (faces c)) by (right; now left).
  split; [exact HC|]. split; [exact HA|]. split; [exact I|]. split; [easy|]. split; [reflexivity|]. split.
  - unfold outflow, interior_flux. cbn [classify base_type neighbor boundary all_partitions].
    replace (v_n (vg_fv G) P 0 (cid c) (mkface 1 true true 1 true)) with 0 by (unfold v_n; cbn; ring). rewrite Rmax_left, Rmin_left by lra.
    replace (3 - 3) with 0 by ring. unfold Rdiv. ring.
  - intros co l x Hx. rewrite (field_normal G P 0 (fun _ => 3) c TpModel.normalhat HC HA co l x _ I Hx). cbn. ring.
Qed.
Print Assumptions c123_periodic_refuted.

(** The unit square with two smaller neighbours at its right face (the face 1), no flux through the other faces. *)
Definition square : velgeo :=
  mkvelgeo (mkfvgeo 2 (fun _ => 1) (fun c k => match c, k with 0%nat, _ => 1/2 | 1%nat, 1%nat => 1/4 | _, 1%nat => 3/4 | _, _ => 5/4 end)
              (fun _ f => if (3 <? fid f)%nat then 1/2 else 1) (fun _ _ _ => 0) (fun _ f => TpModel.normalhat (if (3 <? fid f)%nat then 1 else fid f)))
    (fun _ f => if (3 <? fid f)%nat then 1%nat else fid f) (fun _ => unit_matrix) (fun _ => 1) (fun _ _ => unit_matrix) (fun _ _ => 1).
Definition square_param (f : R) : fvparam :=
  mkfvparam (fun _ _ => unit_matrix) (fun _ _ => 0) (fun _ _ => f) (fun _ _ => 1) (fun _ _ _ _ => 0) (fun _ _ _ => 0) (fun _ _ _ => BNeumann) (fun _ _ _ => 0) (fun _ _ _ => 0).
Definition wall (i : nat) : face := mkface i false true 0 true.
Definition half (i : nat) : face := mkface (3 + i) true false i true.
Lemma square_affine c : affine_cube square c TpModel.normalhat.
Proof.
  exists unit_matrix, (fun _ => 1). cbn. repeat split; try (intros; lra).
  - intros v k H. unfold unit_matrix. destruct k as [|[|]]; [| |lia]; cbn; ring.
  - intros v k H. unfold unit_matrix. destruct k as [|[|]]; [| |lia]; cbn; ring.
  - intros i k Hi Hk. unfold unit_matrix. destruct k as [|[|]]; [| |lia]; cbn; ring.
  - intros i Hi. unfold dotn, TpModel.normalhat. destruct i as [|[|[|[|]]]]; [| | | |lia]; cbn; ring.
Qed.

(** FINDING: darcyccfv.hh 160-244: a face that consists of several intersections (hanging nodes) gets the velocity of the last one. The scheme is balanced,
    the velocity field is not. *)
Theorem c123_hanging_refuted : exists G P e u c n, affine_cube G (cid c) n /\
  (forall f, In f (faces c) -> ~ periodic f /\ forall k, normal (vg_fv G) (cid c) f k = n (face_number G (cid c) f) k) /\
  (forall c f k, pb P 0 c f k = 0) /\ production (vg_fv G) P 0 u (cid c) + lsum (outflow (vg_fv G) P 0 u e (cid c)) (faces c) = 0 /\
  forall co l (x : face -> vec), (forall f, In f (faces c) -> on_face (x f) (face_number G (cid c) f)) ->
  lsum (fun f => area (vg_fv G) (cid c) f *
    dotn (gdim (vg_fv G)) (fst (evaluate G (cell_coefficients G P 0 u c) (cid c) (x f) (evaluations G co l))) (normal (vg_fv G) (cid c) f)) (faces c) <>
  (pf P 0 (cid c) - pc P 0 (cid c) * u (cid c)) * volume (vg_fv G) (cid c).
Proof.
  pose proof tiny_pos as TP.
  set (D := gap (vg_fv square) (center (vg_fv square) 0) (center (vg_fv square) 2)).
  assert (HD : 0 < D) by (unfold D, gap; cbn; apply sqrt_lt_R0; lra).
  set (P := square_param (/ 2 * (1 + tiny))). set (u := fun c : nat => match c with 2%nat => - D | _ => 0 end).
  set (c := mkcell 0 [wall 0; wall 2; wall 3; half 1; half 2]). set (c' := mkcell 0 [wall 0; wall 2; wall 3; half 2]).
  assert (HK : forall k, K (vg_fv square) P 0 k (TpModel.normalhat 1) = 1) by (intros; unfold K, unit_matrix, TpModel.normalhat; cbn; ring).
  assert (HE : cell_coefficients square P 0 u c = cell_coefficients square P 0 u c').
  { extensionality i. unfold cell_coefficients. cbn [faces c c' fold_left]. unfold set. cbn [face_number square half wall fid]. cbn. destruct i as [|[|]]; reflexivity. }
  assert (HC : conforming square c' TpModel.normalhat).
  { split; [change (map _ (faces c')) with [0;2;3;1]%nat; do 4 (apply NoDup_cons; [cbn; lia|]); apply NoDup_nil|]. intros f Hf. cbn in Hf. destruct Hf as [<-|[<-|[<-|[<-|[]]]]]; (split; [vm_compute; lia|reflexivity]). }
  assert (HA : affine_cube square 0 TpModel.normalhat) by apply square_affine.
  assert (NV2 : normal_velocity square P 0 u 0 (half 2) = 1 + tiny).
  { rewrite normal_velocity_flux.
    - unfold darcy_flux. cbn [boundary neighbor half outside]. change (normal (vg_fv square) 0 _) with (TpModel.normalhat 1). rewrite !HK. fold D. cbn [u]. unfold harmonic_mean. field. lra.
    - intros _ _. change (normal (vg_fv square) 0 _) with (TpModel.normalhat 1). rewrite !HK. lra.
    - intros [F1 F2]; discriminate. }
  exists square, P, (mkenv true (fun _ => false) (fun _ _ => false)), u, c, TpModel.normalhat.
  split; [exact HA|]. split.
  { intros f Hf. cbn in Hf. destruct Hf as [<-|[<-|[<-|[<-|[<-|[]]]]]]; (split; [intros [F1 F2]; discriminate|reflexivity]). }
  split; [reflexivity|]. split.
  - assert (I1 : interior_flux (vg_fv square) P 0 u 0 (half 1) = 0).
    { unfold interior_flux. replace (v_n (vg_fv square) P 0 0 (half 1)) with 0 by (unfold v_n; cbn; ring). rewrite Rmax_left, Rmin_left by lra.
      cbn [u outside half]. replace (0 - 0) with 0 by ring. unfold Rdiv. ring. }
    assert (I2 : interior_flux (vg_fv square) P 0 u 0 (half 2) = / 2 * (1 + tiny)).
    { unfold interior_flux. replace (v_n (vg_fv square) P 0 0 (half 2)) with 0 by (unfold v_n; cbn; ring). rewrite Rmax_left, Rmin_left by lra.
      change (normal (vg_fv square) 0 (half 2)) with (TpModel.normalhat 1). cbn [u outside half]. rewrite !HK. fold D. change (area (vg_fv square) 0 _) with (1 / 2). unfold harmonic_mean. field. lra. }
    change (lsum (outflow (vg_fv square) P 0 u (mkenv true (fun _ => false) (fun _ _ => false)) (cid c)) (faces c)) with
      (boundary_flux (vg_fv square) P 0 u 0 (wall 0) + (boundary_flux (vg_fv square) P 0 u 0 (wall 2) + (boundary_flux (vg_fv square) P 0 u 0 (wall 3) +
       (interior_flux (vg_fv square) P 0 u 0 (half 1) + (interior_flux (vg_fv square) P 0 u 0 (half 2) + 0))))).
    rewrite I1, I2. unfold production, boundary_flux. cbn. field.
  - intros co l x Hx. cbn [cid c]. rewrite HE. rewrite (lsum_ext _ (fun f => if (3 <? fid f)%nat then / 2 * (1 + tiny) else 0)).
    + change (lsum _ _) with (0 + (0 + (0 + (/ 2 * (1 + tiny) + (/ 2 * (1 + tiny) + 0))))). cbn. lra.
    + assert (W : forall i, In i [0;2;3]%nat -> In (wall i) (faces c') /\ In (wall i) (faces c)) by (intros i [<-|[<-|[<-|[]]]]; cbn; tauto).
      assert (H2 : In (half 2) (faces c') /\ In (half 2) (faces c)) by (cbn; tauto).
      assert (HW : forall i, In i [0;2;3]%nat -> area (vg_fv square) 0 (wall i) * dotn (gdim (vg_fv square)) (fst (evaluate square (cell_coefficients square P 0 u c') 0 (x (wall i)) (evaluations square co l))) (normal (vg_fv square) 0 (wall i)) = 0).
      { intros i Hi. change 0%nat with (cid c') at 2 3. rewrite (field_normal square P 0 u c' TpModel.normalhat HC HA co l (x (wall i)) (wall i)); [cbn; ring|now apply W|apply (Hx (wall i)); now apply W]. }
      assert (HH : forall x, on_face x 1 -> / 2 * dotn (gdim (vg_fv square)) (fst (evaluate square (cell_coefficients square P 0 u c') 0 x (evaluations square co l))) (TpModel.normalhat 1) = / 2 * (1 + tiny)).
      { intros y Hy. f_equal. rewrite <- NV2. apply (field_normal square P 0 u c' TpModel.normalhat HC HA co l y (half 2)); [apply H2|exact Hy]. }
      intros f Hf. cbn [faces c In] in Hf. destruct Hf as [<-|[<-|[<-|[<-|[<-|[]]]]]].
      * rewrite HW by (cbn; tauto). reflexivity.
      * rewrite HW by (cbn; tauto). reflexivity.
      * rewrite HW by (cbn; tauto). reflexivity.
      * cbn [fid half]. replace (3 <? 3 + 1)%nat with true by reflexivity. rewrite <- (HH (x (half 1))) by (apply (Hx (half 1)); cbn; tauto).
        change (area (vg_fv square) 0 (half 1)) with (1 / 2). change (normal (vg_fv square) 0 (half 1)) with (TpModel.normalhat 1). lra.
      * cbn [fid half]. replace (3 <? 3 + 2)%nat with true by reflexivity. rewrite <- (HH (x (half 2))) by (apply (Hx (half 2)); cbn; tauto).
        change (area (vg_fv square) 0 (half 2)) with (1 / 2). change (normal (vg_fv square) 0 (half 2)) with (TpModel.normalhat 1). lra.
Qed.
Print Assumptions c123_hanging_refuted.

(** FINDING: darcyccfv.hh 268-274: the transformation is kept from the previous evaluation in the same cell, so in a cell that is not affine (here the trapezoid
    (x (1 + y), y)) the value at a point depends on where the field was evaluated before. *)
Theorem c123_cache_refuted : exists G co c x x',
  fst (evaluate G (co c) c x (evaluations G co [])) 0%nat <> fst (evaluate G (co c) c x (evaluations G co [(c, x')])) 0%nat.
Proof.
  exists (mkvelgeo (vg_fv square) (fun _ => fid) (fun _ => unit_matrix) (fun _ => 1)
    (fun _ x k l => match k, l with 0%nat, 0%nat => 1 + x 1%nat | 0%nat, _ => 0 | _, 0%nat => x 0%nat | _, _ => 1 end) (fun _ x => 1 + x 1%nat)),
    (fun _ i => match i with 1%nat => 1 | _ => 0 end), 0%nat, (fun k => match k with 0%nat => / 2 | _ => 1 end), (fun k => match k with 0%nat => / 2 | _ => 0 end).
  unfold evaluate, evaluations, CdModel.dot, TpModel.rt0. cbn. unfold CdModel.dot. cbn. lra.
Qed.
Print Assumptions c123_cache_refuted.
