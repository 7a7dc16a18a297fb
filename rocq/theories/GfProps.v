(** C128 - C131: grid functions made of grid functions. *)
From Verif Require Import Common CommonFacts CdModel CdSpec CdProofs FlowProofs TpProofs GfModel GfSpec GfProofs.
From Coq Require Import Reals Lra Lia.
Open Scope R_scope.
Local Arguments rsum : simpl never.

Lemma fits_table y v : fits y v -> v = table (length v) y.
Proof.
  intros F. apply nth_ext with (d := 0) (d' := 0); [now rewrite table_length|]. intros k Hk. rewrite table_nth by easy. now rewrite F.
Qed.
Lemma last_set_det l c t t' : last_set l c t -> last_set l c t' -> t = t'.
Proof.
  intros (l1 & g & l2 & E & R & N) (m1 & h & m2 & E' & R' & N'). rewrite E in E'. clear E. revert m1 E'. induction l1 as [|p l1 IH]; intros [|q m1] E'.
  - cbn in E'. congruence.
  - cbn in E'. injection E' as <- E'. exfalso. apply (N h t'); [|easy]. rewrite E'. apply in_or_app. right. now left.
  - cbn in E'. injection E' as -> E'. exfalso. apply (N' g t); [|easy]. rewrite <- E'. apply in_or_app. right. now left.
  - cbn in E'. injection E' as _ E'. now apply (IH m1).
Qed.
Lemma evaluate_ext s s' e x g : (forall c, reads g c -> s c = s' c) -> evaluate s g e x = evaluate s' g e x.
Proof.
  assert (R1 : forall (p : gf -> gf), (forall q a, part_of q a -> part_of q (p a)) -> forall a, (forall c, reads (p a) c -> s c = s' c) -> forall c, reads a c -> s c = s' c).
  { intros p Hp a H c (d & f & Hc). apply H. exists d, f. now apply Hp. }
  induction g using gf_ind'; intros HS; cbn [evaluate].
  - destruct l; try easy. rewrite (HS c); [easy|]. exists d, f. constructor.
  - rewrite IHg1, IHg2; [easy|apply (R1 (fun b => GProduct g1 b)); [intros; now constructor|easy]|apply (R1 (fun b => GProduct b g2)); [intros; now constructor|easy]].
  - rewrite IHg1, IHg2; [easy|apply (R1 (fun b => GMinus g1 b)); [intros; now constructor|easy]|apply (R1 (fun b => GMinus b g2)); [intros; now constructor|easy]].
  - rewrite IHg1, IHg2; [easy|apply (R1 (fun b => GDivision g1 b)); [intros; now constructor|easy]|apply (R1 (fun b => GDivision b g2)); [intros; now constructor|easy]].
  - rewrite IHg; [easy|]. apply (R1 GSqr); [intros; now constructor|easy].
  - rewrite IHg; [easy|]. apply (R1 GSqrt); [intros; now constructor|easy].
  - rewrite IHg; [easy|]. apply (R1 GInverse); [intros; now constructor|easy].
  - rewrite IHg; [easy|]. apply (R1 (GScaled q)); [intros; now constructor|easy].
  - rewrite IHg; [easy|]. apply (R1 (GSelect r)); [intros; now constructor|easy].
  - change (evaluate s (GPointSum g l) e x = evaluate s' (GPointSum g l) e x). rewrite !evaluate_sum, IHg.
    + destruct (evaluate s' g e x); cbn [bind]; try easy. f_equal. assert (HL : forall b, In b l -> evaluate s b e x = evaluate s' b e x).
      { intros b Hb. rewrite Forall_forall in H. apply H; [easy|]. intros c (d & f & P). apply HS. exists d, f. now apply InSums with b. }
      clear - HL. induction l; cbn; [easy|]. rewrite (HL a) by now left. destruct (evaluate s' a e x); cbn; try easy. now rewrite IHl by (intros; apply HL; now right).
    + apply (R1 (fun b => GPointSum b l)); [intros; now constructor|easy].
  - rewrite IHg; [easy|]. apply (R1 (GPointScale q)); [intros; now constructor|easy].
Qed.

(** ** C128: composed functions are evaluated componentwise, at the time last set *)
(** Any composition of the adapters that compiles and selects existing components has exactly one meaning in every point, and evaluates to it. *)
Theorem c128_pointwise : forall g n clock s e x, dim g = Some n -> selections_fit g -> (forall c, reads g c -> s c = Some (clock c)) ->
  exists y, evaluate s g e x = Ok y /\ means clock e x g (table n y) /\ forall v, means clock e x g v -> v = table n y.
Proof.
  intros g n clock s e x D F S. destruct (means_exists clock e x g n D F) as (v & M & L). destruct (evaluate_means clock s e x g v M S) as (_ & y & E & Ft).
  exists y. split; [easy|]. assert (U : forall u, means clock e x g u -> u = table n y).
  { intros u Mu. destruct (evaluate_means clock s e x g u Mu S) as (Du & y' & E' & F'). rewrite E in E'. injection E' as <-. rewrite D in Du. injection Du as ->. now apply fits_table. }
  split; [|exact U]. now rewrite <- (U v M).
Qed.
Print Assumptions c128_pointwise.

(** After setTime on a function, all of it is at this time, whatever was set before, or not set. *)
Theorem c128_set_time : forall g n t s s' e x, dim g = Some n -> selections_fit g -> set_time g t s = Some s' ->
  exists y, evaluate s' g e x = Ok y /\ means (fun _ => t) e x g (table n y).
Proof.
  intros g n t s s' e x D F E. destruct (c128_pointwise g n (fun _ => t) s' e x D F) as (y & A & B & _); [|now exists y]. intros c. now apply (set_time_reads _ _ _ _ c E).
Qed.
Print Assumptions c128_set_time.

(** After any history of calls on functions that share time variables, every function is evaluated with, for each variable, the time of the last call on any
    function that depends on it. *)
Theorem c128_history : forall l s s' g n clock e x, calls l s = Some s' -> dim g = Some n -> selections_fit g -> (forall c, reads g c -> last_set l c (clock c)) ->
  exists y, evaluate s' g e x = Ok y /\ means clock e x g (table n y).
Proof.
  intros l s s' g n clock e x C D F H. destruct (c128_pointwise g n clock s' e x D F) as (y & A & B & _); [|now exists y]. intros c Hc. specialize (H c Hc).
  destruct (calls_last l s s' C c) as [(t & L & E)|[N _]]; [rewrite E; f_equal; now apply (last_set_det l c)|]. destruct H as (l1 & g' & l2 & -> & R & _). exfalso. apply (N g' (clock c)); [|easy]. apply in_or_app. right. now left.
Qed.
Print Assumptions c128_history.

(** Functions that share no time variable with g do not notice g's setTime. *)
Theorem c128_independent : forall g h t s s' e x, set_time g t s = Some s' -> (forall c, reads h c -> ~ reads g c) -> evaluate s' h e x = evaluate s h e x.
Proof. intros g h t s s' e x E H. apply evaluate_ext. intros c Hc. apply (set_time_reads _ _ _ _ c E). now apply H. Qed.
Print Assumptions c128_independent.

(** A function has a setTime unless it is made of a stationary function or of a pointwise adapter. *)
Theorem c128_settable : forall g t s, (exists s', set_time g t s = Some s') <->
  ~ exists p, part_of p g /\ match p with GLeaf _ (Stationary _) | GPointSum _ _ | GPointScale _ _ => True | _ => False end.
Proof.
  intros g t s. pose proof (set_time_none g t s) as H. unfold no_time in H. split.
  - intros [s' E] N. apply H in N. congruence.
  - intros N. destruct (set_time g t s) as [s'|]; [now exists s'|]. exfalso. now apply N, H.
Qed.
Print Assumptions c128_settable.

(** setTime on a tree of functions sets the time of all its leaves, and of nothing else. *)
Theorem c128_tree : forall f g n t s s' e x, set_time_tree f t s = Some s' -> dim g = Some n -> selections_fit g ->
  (leaf_of g f -> exists y, evaluate s' g e x = Ok y /\ means (fun _ => t) e x g (table n y)) /\
  ((forall h c, leaf_of h f -> reads h c -> ~ reads g c) -> evaluate s' g e x = evaluate s g e x).
Proof.
  intros f g n t s s' e x E D F. split.
  - intros L. destruct (c128_pointwise g n (fun _ => t) s' e x D F) as (y & A & B & _); [|now exists y]. intros c Hc. apply (set_time_tree_cells _ _ _ _ E c). now exists g.
  - intros N. apply evaluate_ext. intros c Hc. apply (set_time_tree_cells _ _ _ _ E c). intros (h & L & R). now apply (N h c).
Qed.
Print Assumptions c128_tree.

(** bindTime puts the time where the placeholder is. *)
Theorem c128_bind_time : forall c placeholder f t s s' e x, (placeholder = 1 \/ placeholder = 2)%nat -> set_time (GLeaf 1 (bind_time c placeholder f)) t s = Some s' ->
  exists y, evaluate s' (GLeaf 1 (bind_time c placeholder f)) e x = Ok y /\ y 0%nat = if (placeholder =? 1)%nat then f t (x 0%nat) else f (x 0%nat) t.
Proof.
  intros c p f t s s' e x Hp E. injection E as <-. eexists. split; [cbn; unfold set_cell; now rewrite Nat.eqb_refl|]. reflexivity.
Qed.
Print Assumptions c128_bind_time.
(** FINDING: bindtime.hh 29: the time of a function made by bindTime is not initialised: evaluating it, alone or in a composition, before setTime is undefined. *)
Theorem c128_unset_refuted : exists g, dim g = Some 1%nat /\ selections_fit g /\ (forall t s, exists s', set_time g t s = Some s') /\ forall e x, evaluate (fun _ => None) g e x = UB.
Proof.
  exists (GSqr (GLeaf 1 (bind_time 0 2 (fun d t => d + t)))). split; [reflexivity|]. split; [|split; [intros; eexists; reflexivity|reflexivity]].
  intros remap a n P. exfalso. inversion P; subst. inversion H0.
Qed.
Print Assumptions c128_unset_refuted.

(** Selections throw exactly if a component does not exist (or the map has the wrong size), and pick the components asked for. *)
Theorem c128_select : forall dimR n first l,
  (select_first dimR n first = if ((dimR =? 0) || (first + dimR <=? n))%nat then Ok (seq first dimR) else Throw) /\
  ((length l = dimR /\ Forall (fun c => (c < n)%nat) l) /\ select_map dimR n l = Ok l \/ ~ (length l = dimR /\ Forall (fun c => (c < n)%nat) l) /\ select_map dimR n l = Throw) /\
  (forall remap a, dim a = Some n -> selections_fit a -> select_map dimR n remap = Ok l -> selections_fit (GSelect l a) /\ dim (GSelect l a) = Some dimR).
Proof.
  intros dimR n first l. split; [|split].
  - unfold select_first, check_remap. assert (E : map (fun c => (first + c)%nat) (seq 0 dimR) = seq first dimR).
    { clear. replace (seq first dimR) with (seq (first + 0) dimR) by now rewrite Nat.add_0_r. generalize 0%nat. induction dimR; intros b; cbn; [easy|]. f_equal. rewrite IHdimR. f_equal. lia. }
    rewrite E. destruct (Nat.eqb_spec dimR 0) as [->|N]; [reflexivity|]. cbn [orb]. destruct (Nat.leb_spec (first + dimR) n).
    + destruct (forallb _ _) eqn:B; [easy|]. exfalso. apply not_true_iff_false in B. apply B, forallb_forall. intros c Hc. apply in_seq in Hc. apply Nat.ltb_lt. lia.
    + destruct (forallb _ _) eqn:B; [|easy]. exfalso. rewrite forallb_forall in B. specialize (B (first + dimR - 1)%nat). rewrite Nat.ltb_lt in B. assert (first + dimR - 1 < n)%nat; [apply B, in_seq; lia|lia].
  - unfold select_map, check_remap. destruct (Nat.eqb_spec (length l) dimR) as [E|E]; [|right; split; [intros [H _]; easy|easy]].
    destruct (forallb _ _) eqn:B; [left|right]; (split; [|easy]).
    + split; [easy|]. apply Forall_forall. intros c Hc. rewrite forallb_forall in B. apply Nat.ltb_lt. now apply B.
    + intros [_ H]. apply not_true_iff_false in B. apply B, forallb_forall. intros c Hc. apply Nat.ltb_lt. rewrite Forall_forall in H. now apply H.
  - intros remap a D F E. unfold select_map, check_remap in E. destruct (Nat.eqb_spec (length remap) dimR) as [E1|E1]; [|easy]. destruct (forallb _ _) eqn:B; [|easy]. injection E as <-. split.
    + intros r b m P Db. inversion P; subst.
      * rewrite D in Db. injection Db as <-. apply Forall_forall. intros c Hc. rewrite forallb_forall in B. apply Nat.ltb_lt. now apply B.
      * now apply (F r b m).
    + cbn. rewrite D. congruence.
Qed.
Print Assumptions c128_select.

(** A local function is the function in the element last bound, for every leaf of a tree; without bind it is undefined. *)
Theorem c128_local : forall s gs ops e i x g, nth_error gs i = Some g ->
  let start := map (fun _ => None) gs in
  let run := fold_left (fun els o => match o with Some e => lbind els e | None => lunbind els end) in
  lcall s gs (run (ops ++ [Some e]) start) i x = evaluate s g e x /\
  lcall s gs (run (ops ++ [Some e; None]) start) i x = evaluate s g e x /\
  (Forall (fun o => o = None) ops -> lcall s gs (run ops start) i x = UB).
Proof.
  intros s gs ops e i x g Hg start run.
  assert (L : forall ops, length (run ops start) = length gs).
  { intros o. unfold run. assert (E : forall els, length (fold_left (fun els o => match o with Some e => lbind els e | None => lunbind els end) o els) = length els).
    - induction o as [|[e'|] o IH]; intros els; cbn; [easy| |]; rewrite IH; [unfold lbind; now rewrite map_length|easy].
    - rewrite E. unfold start. now rewrite map_length. }
  assert (Hi : (i < length gs)%nat) by (apply nth_error_Some; congruence).
  assert (C : lcall s gs (run (ops ++ [Some e]) start) i x = evaluate s g e x).
  { unfold run. rewrite fold_left_app. cbn [fold_left]. fold (run ops start). unfold lcall, lbind. rewrite Hg, nth_error_map. specialize (L ops). destruct (nth_error (run ops start) i) eqn:E; [easy|].
    apply nth_error_None in E. lia. }
  split; [exact C|]. split.
  - replace (ops ++ [Some e; None]) with ((ops ++ [Some e]) ++ [None]) by now rewrite <- app_assoc. unfold run at 1. rewrite fold_left_app. exact C.
  - intros H. assert (E : run ops start = start) by (clear - H; unfold run; induction H; [easy|]; cbn; subst; exact IHForall). rewrite E. unfold lcall, start. rewrite Hg, nth_error_map. cbn. now rewrite Hg.
Qed.
Print Assumptions c128_local.

(** Two functions that share a parameter object, and their product and quotient. *)
Definition c128_f : gf := GLeaf 2 (Timed 7 (fun t e x k => t * (INR e + x k))).
Definition c128_g : gf := GLeaf 1 (bind_time 7 2 (fun d t => d + t)).
Example c128_example :
  let h := GMinus (GProduct c128_f c128_g) (GSelect [1; 0]%nat (GDivision c128_f c128_g)) in
  dim h = Some 2%nat /\ selections_fit h /\ (exists s', calls [(h, 5); (c128_g, 1); (c128_f, 3)] (fun _ => None) = Some s') /\
  last_set [(h, 5); (c128_g, 1); (c128_f, 3)] 7 3 /\
  means (fun _ => 3) 1 (fun k => INR k) c128_f [3 * (1 + 0); 3 * (1 + 1)] /\ (forall c, reads h c -> c = 7%nat).
Proof.
  intros h. split; [reflexivity|]. split; [|split; [|split; [|split]]].
  - intros remap a n P. inversion P; subst.
    + inversion H0; subst; [inversion H1|inversion H1].
    + inversion H0; subst; [cbn; intros D; injection D as <-; repeat constructor|]. inversion H1; subst; inversion H2.
  - eexists. reflexivity.
  - exists [(h, 5); (c128_g, 1)], c128_f, []. split; [reflexivity|]. split; [exists 2%nat; eexists; constructor|intros ? ? []].
  - exact (MTimed (fun _ => 3) 1 (fun k => INR k) 2 7 _).
  - intros c Hc. apply cells_reads in Hc. cbn in Hc. intuition.
Qed.

(** ** C129: normal fluxes and Piola transformations *)
(** On the edges of triangles whose corners are numbered counterclockwise, the flux is v.nu for the outward unit normal nu. *)
Theorem c129_flux_partial : forall corner x v i p q r nu, (i < 3)%nat -> 0 < orientation corner -> on_edge i x -> edge_ends i = (p, q, r) ->
  outward_normal (corner p) (corner q) (corner r) nu -> normal_flux true corner x v = Ok (v 0%nat * nu 0%nat + v 1%nat * nu 1%nat).
Proof.
  intros corner x v i p q r nu Hi HO HE EE HN. unfold normal_flux. cbn [negb]. unfold orientation in HO. destruct i as [|[|[|]]]; [| | |lia]; cbn in HE, EE; injection EE as <- <- <-.
  - rewrite below_true by easy. f_equal. apply (edge_flux_normal _ _ _ 1); [easy|nra].
  - destruct HE as [E1 E2]. rewrite below_false, below_true by easy. f_equal. apply (edge_flux_normal _ _ _ 2); [easy|nra].
  - destruct HE as (E1 & E2 & E3). rewrite below_false, below_false, below_true by (easy || lra). f_equal. apply (edge_flux_normal _ _ _ 0); [easy|nra].
Qed.
Print Assumptions c129_flux_partial.
(** FINDING: function.hh 716-770: with corners numbered clockwise, the normal points inward and every flux has the wrong sign. *)
Theorem c129_flux_refuted : exists corner x v i p q r nu, on_edge i x /\ edge_ends i = (p, q, r) /\ outward_normal (corner p) (corner q) (corner r) nu /\
  normal_flux true corner x v = Ok (- (v 0%nat * nu 0%nat + v 1%nat * nu 1%nat)) /\ v 0%nat * nu 0%nat + v 1%nat * nu 1%nat <> 0.
Proof.
  exists (fun c k => match c, k with 1%nat, 1%nat => 1 | 2%nat, 0%nat => 1 | _, _ => 0 end), (fun k => match k with 0%nat => 0 | _ => / 2 end), (fun k => match k with 0%nat => 0 | _ => 1 end), 0%nat, 2%nat, 0%nat, 1%nat,
    (fun k => match k with 0%nat => 0 | _ => -1 end).
  split; [reflexivity|]. split; [reflexivity|]. split; [unfold outward_normal; lra|]. split; [|lra].
  unfold normal_flux. cbn [negb]. rewrite below_true by reflexivity. f_equal. unfold edge_flux, dot, loop. replace (sqrt _) with (sqrt 1) by (f_equal; ring). rewrite sqrt_1. field.
Qed.
Print Assumptions c129_flux_refuted.
(** Away from the edges, and for elements that are not triangles, it throws. *)
Theorem c129_flux_throws : forall triangle corner x v,
  normal_flux triangle corner x v = Throw <-> triangle = false \/ tolerance <= Rabs (x 0%nat) /\ tolerance <= Rabs (x 1%nat) /\ tolerance <= Rabs (x 0%nat + x 1%nat - 1).
Proof.
  intros triangle corner x v. unfold normal_flux, below. destruct triangle; cbn [negb].
  - destruct (Rlt_dec (Rabs (x 0%nat)) tolerance); [split; [discriminate|intros [|]; [easy|lra]]|]. destruct (Rlt_dec (Rabs (x 1%nat)) tolerance); [split; [discriminate|intros [|]; [easy|lra]]|].
    destruct (Rlt_dec (Rabs (x 0%nat + x 1%nat - 1)) tolerance); [split; [discriminate|intros [|]; [easy|lra]]|]. split; [intros _; right; lra|easy].
  - split; auto.
Qed.
Print Assumptions c129_flux_throws.
(** The backward transformation takes back what the Piola transformation of a discrete function did, in elements with positive determinant. *)
Theorem c129_piola_partial : forall d J jit det yhat k, (k < d)%nat -> 0 < det ->
  (forall a b, (a < d)%nat -> (b < d)%nat -> rsum d (fun l => jit l a * J b l) = if (a =? b)%nat then 1 else 0) ->
  piola_backward d jit (Rabs det) (piola_forward d J det yhat) k = yhat k.
Proof.
  intros d J jit det yhat k Hk Hdet H. unfold piola_backward, piola_forward. rewrite Rabs_right by lra. rewrite dot_sum. unfold inner.
  rewrite (rsum_ext d _ (fun l => rsum d (fun b => jit l k * J b l * yhat b) * / det)).
  - rewrite rsum_scal_r, rsum_swap. rewrite (rsum_ext d _ (fun b => if (b =? k)%nat then yhat k else 0)).
    + rewrite rsum_pick by easy. field. lra.
    + intros b Hb. rewrite rsum_scal_r, H by easy. destruct (Nat.eqb_spec k b), (Nat.eqb_spec b k); subst; (lia || ring || easy).
  - intros l Hl. rewrite dot_sum. unfold inner, Rdiv. rewrite <- Rmult_assoc. f_equal. rewrite <- rsum_scal. apply rsum_ext. intros. ring.
Qed.
Print Assumptions c129_piola_partial.
(** FINDING: function.hh 813 multiplies with the absolute value of the determinant, gridfunctionspaceutilities.hh 658 divides by the determinant: in elements
    of negative orientation the backward transformation of a discrete function changes the sign. *)
Theorem c129_piola_refuted : exists d J jit det yhat k, (k < d)%nat /\ det <> 0 /\
  (forall a b, (a < d)%nat -> (b < d)%nat -> rsum d (fun l => jit l a * J b l) = if (a =? b)%nat then 1 else 0) /\
  piola_backward d jit (Rabs det) (piola_forward d J det yhat) k <> yhat k.
Proof.
  exists 1%nat, (fun _ _ => -2), (fun _ _ => - / 2), (-2), (fun _ => 1), 0%nat. split; [lia|]. split; [lra|]. split.
  - intros a b Ha Hb. assert (a = 0)%nat as -> by lia. assert (b = 0)%nat as -> by lia. unfold rsum. cbn. field.
  - unfold piola_backward, piola_forward, dot, loop. rewrite Rabs_left by lra. lra.
Qed.
Print Assumptions c129_piola_refuted.
(** The unit triangle, and an element twice as large. *)
Example c129_example : let corner : nat -> vec := fun c k => match c, k with 1%nat, 0%nat => 1 | 2%nat, 1%nat => 1 | _, _ => 0 end in
  let nu : vec := fun k => match k with 0%nat => -1 | _ => 0 end in
  0 < orientation corner /\ on_edge 0 (fun k => match k with 0%nat => 0 | _ => / 3 end) /\ outward_normal (corner 2%nat) (corner 0%nat) (corner 1%nat) nu /\
  (forall a b, (a < 2)%nat -> (b < 2)%nat -> rsum 2 (fun l => (if (l =? a)%nat then / 2 else 0) * (if (b =? l)%nat then 2 else 0)) = if (a =? b)%nat then 1 else 0).
Proof.
  intros corner nu. split; [unfold orientation, corner; lra|]. split; [reflexivity|]. split; [unfold outward_normal, corner, nu; lra|].
  intros a b Ha Hb. destruct a as [|[|]], b as [|[|]]; try lia; rewrite !rsum_S; unfold rsum; cbn; field.
Qed.

(** ** C130: integrals and probes *)
(** Summed over the processes, the integral is that over all cells, each counted once, if every cell is interior on one process. *)
Theorem c130_integral : forall f (procs : list (list gcell)) all k,
  Permutation (concat (map (filter g_interior) procs)) all -> comm_sum (map (integrate f) procs) k = lsum (cell_integral f k) all.
Proof.
  intros f procs all k P. rewrite comm_sum_at, lsum_map, <- (lsum_perm _ _ _ P), <- lsum_concat, lsum_map. apply lsum_ext. intros c _. apply integrate_at.
Qed.
Print Assumptions c130_integral.
(** It is linear, and additive in the cells of a process. *)
Theorem c130_linear : forall f g a b cells cells' k,
  integrate (fun e x k => a * f e x k + b * g e x k) cells k = a * integrate f cells k + b * integrate g cells k /\
  integrate f (cells ++ cells') k = integrate f cells k + integrate f cells' k.
Proof.
  intros f g a b cells cells' k. rewrite !integrate_at, filter_app, lsum_app. split; [|reflexivity].
  rewrite <- !lsum_scal, <- lsum_plus. apply lsum_ext. intros c _. unfold cell_integral. rewrite <- !lsum_scal, <- lsum_plus. apply lsum_ext. intros. ring.
Qed.
Print Assumptions c130_linear.

(** A probe has the same value on all processes: that of the function in the point on the process with the smallest rank that has the point in its interior;
    NaN on all if there is none. *)
Theorem c130_probe : forall loc found size f xg s, (0 < size)%nat ->
  let probes := fun p => make_probe loc found size p (Some f) xg in
  (forall p, (p < size)%nat -> eval_all s size probes p = Ok None) /\ (forall p e, (p < size)%nat -> found p <> Some (e, true)) \/
  exists r e, (r < size)%nat /\ found r = Some (e, true) /\ (forall p e', (p < r)%nat -> found p <> Some (e', true)) /\
    forall p, (p < size)%nat -> eval_all s size probes p = let* v := evaluate (s r) f e (loc e xg) in Ok (Some v).
Proof.
  intros loc found size f xg s Hs probes. assert (PR : forall p, p_fun (probes p) = Some f /\ p_rank (probes p) = eval_rank found size).
  { intros p. unfold probes, make_probe. destruct (p =? _)%nat; [|easy]. now destruct (found p) as [[]|]. }
  destruct (eval_rank_spec found size) as [[E N]|(L & [e E] & N)].
  - left. split; [|easy]. intros p Hp. unfold eval_all. destruct (PR p) as [-> ->]. now rewrite E, Nat.eqb_refl.
  - right. exists (eval_rank found size), e. split; [easy|]. split; [easy|]. split; [easy|]. intros p Hp. unfold eval_all. destruct (PR p) as [-> ->]. destruct (Nat.eqb_spec (eval_rank found size) size); [lia|].
    destruct (PR (eval_rank found size)) as [-> _]. unfold probes, make_probe. rewrite Nat.eqb_refl, E. reflexivity.
Qed.
Print Assumptions c130_probe.
(** For a function of global coordinates this is its value in the point, wherever it is found. *)
Theorem c130_probe_value : forall G found size f xg s d p, (p < size)%nat ->
  (forall q e, found q = Some (e, true) -> forall k, global G e (local G e xg) k = xg k) -> (forall x y, (forall k, x k = y k) -> forall k, f x k = f y k) ->
  (exists q e, (q < size)%nat /\ found q = Some (e, true)) ->
  exists v, eval_all s size (fun p => make_probe (local G) found size p (Some (GLeaf d (Stationary (from_global G f)))) xg) p = Ok (Some v) /\ forall k, v k = f xg k.
Proof.
  intros G found size f xg s d p Hp HG Hf (q & e & Hq & Eq). destruct (c130_probe (local G) found size (GLeaf d (Stationary (from_global G f))) xg s) as [[_ N]|(r & e' & Hr & Er & _ & V)]; [lia| |].
  - exfalso. now apply (N q e).
  - rewrite (V p Hp). eexists. split; [reflexivity|]. intros k. unfold from_global. apply Hf. now apply HG with r.
Qed.
Print Assumptions c130_probe_value.
(** A probe made of a grid view only must be given a function first; then it is like any other. *)
Theorem c130_probe_late : forall loc found size xg s f,
  (forall p, eval_all s size (fun p => make_probe loc found size p None xg) p = UB) /\
  forall p, set_grid_function f (make_probe loc found size p None xg) = make_probe loc found size p (Some f) xg.
Proof.
  intros loc found size xg s f. split; intros p.
  - unfold eval_all, make_probe. destruct (p =? _)%nat; [|easy]. now destruct (found p) as [[]|].
  - unfold set_grid_function, make_probe. destruct (p =? _)%nat; [|easy]. now destruct (found p) as [[]|].
Qed.
Print Assumptions c130_probe_late.
(** Two processes with one interior cell each and the other as overlap; the probe in the second cell. *)
Example c130_example : let c0 b := mkgcell 0 b [(fun _ => / 2, 1, 3)] in let c1 b := mkgcell 1 b [(fun _ => / 2, 1, 5)] in
  let procs := [[c0 true; c1 false]; [c0 false; c1 true]] in let found p := Some (1%nat, (p =? 1)%nat) in
  Permutation (concat (map (filter g_interior) procs)) [c1 true; c0 true] /\ comm_sum (map (integrate (fun e _ _ => INR e + 1)) procs) 0%nat = 13 /\
  eval_all (fun _ _ => None) 2 (fun p => make_probe (fun _ x => x) found 2 p (Some (GLeaf 1 (Stationary (fun e x k => INR e + x k)))) (fun _ => / 4)) 0%nat = Ok (Some (fun k => INR 1 + / 4)).
Proof.
  intros c0 c1 procs found. split; [cbn; apply perm_swap|]. split; [|reflexivity]. rewrite (c130_integral _ _ [c1 true; c0 true]) by (cbn; apply perm_swap). unfold cell_integral. cbn. ring.
Qed.

(** ** C131: conversions between functions keep the values *)
(** A function of global coordinates, made a grid function and back, is itself, in every point of the grid; elsewhere it throws. *)
Theorem c131_global : forall G f x, grid_ok G -> (forall x y, (forall k, x k = y k) -> forall k, f x k = f y k) ->
  (find G x <> None -> exists y, to_global G (from_global G f) x = Ok y /\ forall k, y k = f x k) /\ (find G x = None -> to_global G (from_global G f) x = Throw).
Proof.
  intros G f x HG Hf. unfold to_global. split.
  - intros N. destruct (find G x) as [e|] eqn:E; [|easy]. eexists. split; [reflexivity|]. intros k. unfold from_global. apply Hf. now apply HG.
  - now intros ->.
Qed.
Print Assumptions c131_global.
(** A continuous grid function (the same in all elements that contain a point), made a function and back, is itself. *)
Theorem c131_local : forall G f e x k, find G (global G e x) <> None ->
  (forall e e' x, find G (global G e x) = Some e' -> forall k, f e' (local G e' (global G e x)) k = f e x k) ->
  exists y, to_global G f (global G e x) = Ok y /\ from_global G (fun z => match to_global G f z with Ok y => y | _ => fun _ => 0 end) e x k = f e x k /\ y k = f e x k.
Proof.
  intros G f e x k N HC. unfold from_global, to_global. destruct (find G (global G e x)) as [e'|] eqn:E; [|easy]. eexists. split; [reflexivity|]. now rewrite (HC e e' x E).
Qed.
Print Assumptions c131_local.
(** Output: component c of the file is component remap[c] of the function; by default all components in order, and no others. *)
Theorem c131_output : forall remap f comp e x n,
  (vtk_evaluate remap f comp e x = UB <-> (length remap <= comp)%nat) /\
  ((comp < n)%nat -> vtk_evaluate (range_vector n) f comp e x = Ok (f e x comp)) /\ length (range_vector n) = n /\
  ((comp < length remap)%nat -> vtk_evaluate remap f comp e x = Ok (f e x (nth comp remap 0%nat))).
Proof.
  intros remap f comp e x n. unfold vtk_evaluate, range_vector. split; [|split; [|split]].
  - rewrite <- nth_error_None. destruct (nth_error remap comp); split; easy.
  - intros H. rewrite (nth_error_nth' _ 0%nat) by now rewrite seq_length. now rewrite seq_nth.
  - apply seq_length.
  - intros H. now rewrite (nth_error_nth' _ 0%nat).
Qed.
Print Assumptions c131_output.
(** Intervals [e, e+1], e < 3 *)
Definition c131_line : grid := mkgrid (fun e x k => INR e + x k) (fun e x k => x k - INR e)
  (fun x => if Rle_dec 0 (x 0%nat) then if Rle_dec (x 0%nat) 1 then Some 0%nat else if Rle_dec (x 0%nat) 2 then Some 1%nat else if Rle_dec (x 0%nat) 3 then Some 2%nat else None else None).
Example c131_example : grid_ok c131_line /\ find c131_line (fun _ => 3 / 2) = Some 1%nat /\ find c131_line (fun _ => 4) = None /\
  (forall e e' x, find c131_line (global c131_line e x) = Some e' -> forall k, from_global c131_line (fun z k => z k ^ 2) e' (local c131_line e' (global c131_line e x)) k = from_global c131_line (fun z k => z k ^ 2) e x k).
Proof.
  split; [intros x e _ k; cbn; ring|]. split; [|split].
  - cbn. destruct (Rle_dec 0 (3/2)), (Rle_dec (3/2) 1), (Rle_dec (3/2) 2); lra || reflexivity.
  - cbn. destruct (Rle_dec 0 4), (Rle_dec 4 1), (Rle_dec 4 2), (Rle_dec 4 3); lra || reflexivity.
  - intros. unfold from_global. cbn. ring.
Qed.
