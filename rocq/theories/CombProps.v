(** C54, C55: sums, weighted sums and multiples of local operators. *)
From Coq Require Import FunctionalExtensionality Lra.
From Verif Require Import CommonFacts CombModel EngineSpec EngineProofs EngineProofs2 EngineProofs3 DriverProofs CombSpec CombProofs CombProofs2.
Local Open Scope R_scope.

Ltac lits := repeat match goal with
  | |- context [(?a <? ?b)%nat] => let v := eval vm_compute in (a <? b)%nat in change (a <? b)%nat with v
  | |- context [(?a =? ?b)%nat] => let v := eval vm_compute in (a =? b)%nat in change (a =? b)%nat with v
  end; cbn [andb orb].

(** ** C54 *)
(** A method of the weighted sum, called with a view of weight [w] and contents [r], adds w times the weighted sum of
    what the summands with the switch set contribute, and leaves the weight of the view as it was. *)
Theorem c54_views : forall A (on : A -> bool) (v : A -> vec) (v2 : A -> vec * vec) ls w w' r r2,
  let total := fun (u : A -> vec) i => lsum (fun p => fst p * opt (on (snd p)) (u (snd p)) i) ls in
  apply_weighted (fun l => call1 (on l) (v l)) ls ([w], r) = ([w], vacc w r (total v)) /\
  apply_weighted (fun l => call2 (on l) (v2 l)) ls ([w; w'], r2) =
    ([w; w'], (vacc w (fst r2) (total (fun l => fst (v2 l))), vacc w' (snd r2) (total (fun l => snd (v2 l))))).
Proof.
  intros. split; [apply (adds1 _ _ _ (weighted_adds A ls))|apply (adds2 _ _ _ (weighted_adds A ls))].
Qed.
Print Assumptions c54_views.

(** The assembled residual of the weighted sum is the weighted sum of the assembled residuals, provided no summand has
    boundary terms alpha_boundary and all agree on the sidedness. *)
Theorem c54_residual_partial : forall X (x0 : X) post G e cells a s s' x r g ls,
  same_sides ls -> no_boundary ls ->
  assemble_residual x0 G (combine weighted_sum post ls) e cells a s x r g =
  r g + lsum (fun p => fst p * assemble_residual x0 G (snd p) e cells a s' x vzero g) ls.
Proof.
  intros. rewrite assembled_value. f_equal. unfold combine.
  rewrite operator_combined by (auto using weighted_adds). rewrite <- lsum_scal. apply lsum_ext. intros p _.
  rewrite assembled_value. unfold vzero. ring.
Qed.
Print Assumptions c54_residual_partial.

Theorem c54_plain_residual_partial : forall X (x0 : X) post G e cells a s s' x r g ls,
  same_sides (unit_weights ls) -> no_boundary (unit_weights ls) ->
  assemble_residual x0 G (combine plain_sum post (unit_weights ls)) e cells a s x r g =
  r g + lsum (fun l => assemble_residual x0 G l e cells a s' x vzero g) ls.
Proof.
  intros. rewrite assembled_value. f_equal. unfold combine.
  rewrite operator_combined by (auto using plain_adds). rewrite <- lsum_scal. unfold unit_weights.
  clear H H0. induction ls as [|l ls IH]; [reflexivity|]. cbn [map]. rewrite !lsum_cons, IH.
  rewrite assembled_value. cbn [fst snd]. unfold vzero. ring.
Qed.
Print Assumptions c54_plain_residual_partial.

(** Matrix and matrix-free application include the boundary terms. *)
Theorem c54_jacobian : forall G e cells a s s' x m g h post ls,
  same_sides (residual_parts ls) ->
  assemble_jacobian G (combine weighted_sum post (residual_parts ls)) (combine_jacobian weighted_sum ls) e cells a s x m g h =
  m g h + lsum (fun p => fst p * assemble_jacobian G (fst (snd p)) (snd (snd p)) e cells a s' x mzero g h) ls.
Proof.
  intros. rewrite assembled_jacobian. f_equal. rewrite jacobian_combined by (auto using weighted_adds).
  rewrite <- lsum_scal. apply lsum_ext. intros p _. rewrite assembled_jacobian. unfold mzero. ring.
Qed.
Print Assumptions c54_jacobian.

Theorem c54_apply : forall X (x0 : X) G e cells a s s' x r g ls,
  same_sides ls ->
  assemble_residual x0 G (combine_apply weighted_sum ls) e cells a s x r g =
  r g + lsum (fun p => fst p * assemble_residual x0 G (snd p) e cells a s' x vzero g) ls.
Proof.
  intros. rewrite assembled_value. f_equal. unfold combine_apply.
  rewrite operator_combined; auto using weighted_adds.
  - rewrite <- lsum_scal. apply lsum_ext. intros p _. rewrite assembled_value. unfold vzero. ring.
  - left. intros. apply run1_val. apply weighted_adds.
Qed.
Print Assumptions c54_apply.

(** Boundary terms of the summands never reach the residual. *)
Definition robin : terms R :=
  mkterms R false false false false true false false false false
    (fun _ _ _ => vzero) (fun _ _ => vzero) (fun _ _ _ _ _ _ => (vzero, vzero)) (fun _ _ _ _ => (vzero, vzero))
    (fun _ _ _ _ x => x) (fun _ _ _ _ => vzero) (fun _ _ _ => vzero) (fun _ _ => vzero).
Theorem c54_boundary_refuted : exists post G e cells a s x g,
  let ls := [(1, robin)] in
  same_sides ls /\ accepted ls = true /\
  assemble_residual 0 G (combine weighted_sum post ls) e cells a s x vzero g = 0 /\
  assemble_residual 0 G (combine plain_sum post ls) e cells a s x vzero g = 0 /\
  assemble_residual 0 G robin e cells a s x vzero g = 1.
Proof.
  exists (fun _ _ _ _ _ _ => vzero), one_dof, (fst (no_skip false)), strip, (mkla 1 0), blank, (fun _ => 1), 0%nat.
  cbv zeta. split; [intros p q Hp Hq; in_cases Hp; in_cases Hq; subst; reflexivity|].
  split; [reflexivity|].
  assert (Z : forall on (v : terms R -> vec), run1 weighted_sum on v [(1, robin)] = opt (on robin) (v robin)).
  { intros on v. rewrite run1_val by apply weighted_adds. fx. unfold wval. rewrite lsum_cons, lsum_nil. cbn [fst snd]. ring. }
  assert (Z' : forall on (v : terms R -> vec), run1 plain_sum on v [(1, robin)] = opt (on robin) (v robin)).
  { intros on v. rewrite run1_val by apply (plain_adds (terms R) [robin]). fx. unfold wval. rewrite lsum_cons, lsum_nil. cbn [fst snd]. ring. }
  split; [|split].
  - rewrite assembled_value. unfold operator_value, cell_value, face_value, combine, combine_with.
    cbn -[run1 run2]. rewrite !Z. cbn. lits. unfold vzero. ring.
  - rewrite assembled_value. unfold operator_value, cell_value, face_value, combine, combine_with.
    cbn -[run1 run2]. rewrite !Z'. cbn. lits. unfold vzero. ring.
  - rewrite assembled_value. unfold operator_value, cell_value, face_value. cbn. lits. unfold scatter, vzero. cbn. ring.
Qed.
Print Assumptions c54_boundary_refuted.

(** Mixing a one-sided and a two-sided summand is accepted, and the one-sided summand then sees every face twice. *)
Definition jumps (two : bool) : terms R :=
  mkterms R false false false true false false false false two
    (fun _ _ _ => vzero) (fun _ _ => vzero) (fun _ _ _ _ _ _ => (vzero, vzero)) (fun _ _ _ _ => (fun _ => 1, vzero))
    (fun _ _ _ _ _ => vzero) (fun _ _ _ _ => vzero) (fun _ _ _ => vzero) (fun _ _ => vzero).
Theorem c54_sides_refuted : exists post G e cells a s x g,
  let ls := [(1, jumps false); (1, jumps true)] in
  accepted ls = true /\ no_boundary ls /\
  assemble_residual 0 G (combine weighted_sum post ls) e cells a s x vzero g <>
  lsum (fun p => fst p * assemble_residual 0 G (snd p) e cells a s x vzero g) ls.
Proof.
  exists (fun _ _ _ _ _ _ => vzero), one_dof, (fst (no_skip false)), strip, (mkla 1 0), blank, (fun _ => 1), 1%nat.
  cbv zeta. split; [reflexivity|]. split; [intros p Hp; in_cases Hp; subst; reflexivity|].
  rewrite !lsum_cons, lsum_nil. cbn [fst snd]. rewrite !assembled_value.
  assert (Z : forall on (v : terms R -> vec * vec), run2 weighted_sum on v [(1, jumps false); (1, jumps true)] =
    (vadd (opt (on (jumps false)) (fst (v (jumps false)))) (opt (on (jumps true)) (fst (v (jumps true)))),
     vadd (opt (on (jumps false)) (snd (v (jumps false)))) (opt (on (jumps true)) (snd (v (jumps true)))))).
  { intros on v. rewrite run2_val by apply weighted_adds. f_equal; fx; unfold wval, vadd; rewrite !lsum_cons, lsum_nil; cbn [fst snd]; ring. }
  unfold operator_value, cell_value, face_value, combine, combine_with.
  cbn -[run1 run2]. rewrite !Z. cbn. lits. unfold vzero, vadd. cbn. lra.
Qed.
Print Assumptions c54_sides_refuted.
(** The static_assert can only fire for the empty sum: for at least one summand it always accepts. *)
Theorem c54_assertion_never_fires : forall X (ls : list (R * terms X)), ls <> [] -> accepted ls = true.
Proof.
  intros X [|p ls] H; [congruence|]. unfold accepted, one_sided_skeleton, two_sided_skeleton. cbn [forallb].
  destruct (has_skeleton (snd p)), (do_two_sided (snd p)); cbn; rewrite ?andb_false_r; reflexivity.
Qed.
Print Assumptions c54_assertion_never_fires.

(** With unchanged weights every nonzero entry of the combined local Jacobian lies in the combined local pattern. *)
Theorem c54_pattern : forall A (onp onj : A -> bool) (links : A -> list (nat * nat)) (jac : A -> mat) ls w i j,
  (forall l, onj l = true -> jac l i j <> 0 -> onp l = true /\ In (i, j) (links l)) ->
  snd (apply_weighted (fun l => mcall1 (onj l) (jac l)) ls ([w], mzero)) i j <> 0 ->
  In (i, j) (combine_pattern weighted_sum onp links ls).
Proof.
  intros A onp onj links jac ls w i j HL HN. rewrite pattern_val.
  pose proof (addsm1 _ _ _ (weighted_adds A ls) onj jac w mzero) as E. unfold weighted_sum in E. rewrite E in HN. cbn [snd] in HN.
  destruct (in_dec (fun p q : nat * nat => ltac:(decide equality; apply Nat.eq_dec)) (i, j)
    (flat_map (fun p => if Req_EM_T (fst p) 0 then [] else if onp (snd p) then links (snd p) else []) ls)) as [I|N]; [exact I|].
  exfalso. apply HN. unfold macc, mzero, wmval. rewrite lsum_zero; [ring|]. intros p Hp.
  destruct (Req_EM_T (fst p) 0) as [->|F]; [ring|]. destruct (onj (snd p)) eqn:O; [|cbn; unfold mzero; ring]. cbn [mopt].
  destruct (Req_EM_T (jac (snd p) i j) 0) as [->|D]; [ring|]. exfalso. apply N. apply in_flat_map. exists p. split; [exact Hp|].
  destruct (HL _ O D) as [P I]. destruct (Req_EM_T (fst p) 0); [contradiction|]. now rewrite P.
Qed.
Print Assumptions c54_pattern.

(** Changing a weight from zero after the matrix was built makes the Jacobian write outside the pattern. *)
Theorem c54_set_weight_refuted : exists (onp onj : unit -> bool) links (jac : unit -> mat) ls w k i j,
  (forall l, onj l = true -> jac l i j <> 0 -> onp l = true /\ In (i, j) (links l)) /\
  snd (apply_weighted (fun l => mcall1 (onj l) (jac l)) (set_weight w k ls) ([1], mzero)) i j <> 0 /\
  ~ In (i, j) (combine_pattern weighted_sum onp links ls).
Proof.
  exists (fun _ => true), (fun _ => true), (fun _ => [(0, 0)%nat]), (fun _ _ _ => 1), [(0, tt)], 1, 0%nat, 0%nat, 0%nat.
  split; [cbn; auto|]. split.
  - pose proof (addsm1 _ _ _ (weighted_adds unit (set_weight 1 0 [(0, tt)])) (fun _ => true) (fun _ _ _ => 1) 1 mzero) as E.
    unfold weighted_sum in E. rewrite E. cbn. unfold macc, mzero, wmval. cbn. lra.
  - rewrite pattern_val. cbn. destruct (Req_EM_T 0 0); [|lra]. cbn. auto.
Qed.
Print Assumptions c54_set_weight_refuted.

Lemma twice_thrice l G e cells a s x g : do_alpha_boundary l = false ->
  assemble_residual 0 G (combine weighted_sum (fun _ _ _ _ _ _ => vzero) [(2, l); (3, l)]) e cells a s x vzero g =
  5 * assemble_residual 0 G l e cells a s x vzero g.
Proof.
  intros H. rewrite (c54_residual_partial _ _ _ _ _ _ _ _ s).
  - rewrite !lsum_cons, lsum_nil. cbn [fst snd]. unfold vzero at 1. ring.
  - intros p q Hp Hq. in_cases Hp; in_cases Hq; subst; reflexivity.
  - intros p Hp. in_cases Hp; subst; exact H.
Qed.
Example c54_meets : same_sides [(2, reaction_jump); (0, robin); (3, reaction_jump)] /\ no_boundary [(2, reaction_jump); (3, reaction_jump)] /\
  assemble_residual 0 one_dof (combine weighted_sum (fun _ _ _ _ _ _ => vzero) [(2, reaction_jump); (3, reaction_jump)])
    (fst (no_skip false)) strip (mkla 1 0) blank (fun g => INR g) vzero 1%nat =
  5 * assemble_residual 0 one_dof reaction_jump (fst (no_skip false)) strip (mkla 1 0) blank (fun g => INR g) vzero 1%nat.
Proof.
  split; [|split].
  - intros p q Hp Hq. in_cases Hp; in_cases Hq; subst; reflexivity || discriminate.
  - intros p Hp. in_cases Hp; subst; reflexivity.
  - apply twice_thrice. reflexivity.
Qed.

(** ** C55 *)
Theorem c55_scaled_residual : forall X (x0 : X) k G l e cells a s s' x r g,
  assemble_residual x0 G (scaled k l) e cells a s x r g = r g + k * assemble_residual x0 G l e cells a s' x vzero g.
Proof. intros. rewrite !assembled_value, operator_scaled. unfold vzero. ring. Qed.
Print Assumptions c55_scaled_residual.
Theorem c55_scaled_jacobian : forall k G l j e cells a s s' x m g h,
  assemble_jacobian G (scaled k l) (scaled_jacobian k j) e cells a s x m g h =
  m g h + k * assemble_jacobian G l j e cells a s' x mzero g h.
Proof. intros. rewrite !assembled_jacobian, jacobian_scaled. unfold mzero. ring. Qed.
Print Assumptions c55_scaled_jacobian.
(** A method of the scaled operator, called with a view of weight w, adds w times k times the backend's contribution. *)
Theorem c55_views : forall k v w r i, scaled_view k (call1 true v) [w] r i = r i + w * (k * v i).
Proof. intros. rewrite scaled_one. reflexivity. Qed.
Print Assumptions c55_views.
Example c55_meets : assemble_residual 0 one_dof (scaled 3 reaction_jump) (fst (no_skip false)) strip (mkla 2 0) blank (fun g => INR g + 1) vzero 0%nat = 0.
Proof. rewrite c55_scaled_residual with (s' := blank). rewrite assembled_value. unfold operator_value, cell_value, face_value. cbn. lits. unfold gather, scatter, vzero; cbn. lra. Qed.
