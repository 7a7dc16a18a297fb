(** A stage with linear operators is a linear problem. *)
From Coq Require Import Lra FunctionalExtensionality.
From Verif Require Import LinStepModel LinStepSpec HangStepSpec EngineSpec EngineProofs3 OneStepSpec ConsProofs ConsProofs2 ConsProps HangStepProofs.
From Verif Require LinModel LinSpec.
Local Open Scope R_scope.

(** States that agree up to the coefficients they hold. *)
Definition alike (s s' : jest) : Prop :=
  al s = al s' /\ al_sn s = al_sn s' /\ al_ns s = al_ns s' /\ al_nn s = al_nn s' /\
  ss_dofs s = ss_dofs s' /\ sn_d s = sn_d s' /\ ns_d s = ns_d s' /\ nn_d s = nn_d s' /\ js_dofs s = js_dofs s' /\ jn_dofs s = jn_dofs s'.
Lemma alike_step G L J a y s s' : linear_terms J -> alike s s' -> alike (fst (jac_step G L J a y s)) (fst (jac_step G L J a y s')).
Proof.
  intros (LV & LP & LB & LS) (A & B & C & D & E & F & H & I & K & M).
  destruct y; cbn; unfold alike, jacc; cbn; rewrite ?(LV _ _ (jxl s) (jxl s')), ?(LP _ _ (jxl s) (jxl s')), ?(LB _ _ _ _ (jxl s) (jxl s'));
    try match goal with |- context[if ?b then _ else _] => destruct b end; cbn; try (repeat split; congruence).
  all: rewrite (LS _ _ _ _ (jxl s) (jxn s) (jxl s') (jxn s')).
  all: destruct (j_skeleton _ _ _ _ _ (jxl s') (jxn s')) as ((?, ?), (?, ?)); cbn; repeat split; congruence.
Qed.
Lemma alike_blocks y s s' : alike s s' -> jac_blocks y s = jac_blocks y s'.
Proof. intros (A & B & C & D & E & F & H & I & K & M). destruct y; cbn; try reflexivity; congruence. Qed.
Lemma alike_run G L0 L1 J0 J1 a0 a1 imp l : linear_terms J0 -> linear_terms J1 ->
  forall p p', alike (fst p) (fst p') -> alike (snd p) (snd p') -> twoj_blocks G L0 L1 J0 J1 a0 a1 imp l p = twoj_blocks G L0 L1 J0 J1 a0 a1 imp l p'.
Proof.
  intros H0 H1. induction l as [|y l IH]; intros [s0 s1] [s0' s1'] A B; [reflexivity|]. cbn [fst snd] in *.
  cbn [twoj_blocks fst snd]. rewrite (alike_blocks y s0 s0' A), (alike_blocks y s1 s1' B). do 2 f_equal. apply IH.
  all: pose proof (alike_step G L0 J0 a0 y s0 s0' H0 A) as A'; pose proof (alike_step G L1 J1 a1 y s1 s1' H1 B) as B'.
  all: unfold twoj_step; destruct (negb (is_asm y) || imp), (is_post y);
    destruct (jac_step G L0 J0 a0 y s0), (jac_step G L0 J0 a0 y s0'), (jac_step G L1 J1 a1 y s1), (jac_step G L1 J1 a1 y s1'); cbn in *; assumption.
Qed.
Lemma linear_jacobian tu tv sym G L0 L1 J0 J1 e cells o q x y : linear_terms J0 -> linear_terms J1 ->
  hanging_jacobian tu tv sym G L0 L1 J0 J1 e cells o q x mzero = hanging_jacobian tu tv sym G L0 L1 J0 J1 e cells o q y mzero.
Proof.
  intros H0 H1. unfold hanging_jacobian. f_equal. f_equal. unfold stage_blocks. apply alike_run; auto; repeat split.
Qed.
Lemma line_slope (f : R -> R) l : (forall s, derivable_pt_lim f s l) -> forall s, f s = f 0 + l * s.
Proof.
  intros D s.
  assert (D' : forall s, derivable_pt_lim (fun s => f s - l * s) s 0).
  { intros u. replace 0 with (l - l * 1) by ring. apply (derivable_pt_lim_minus f (fun s => l * s)); [apply D|].
    apply (derivable_pt_lim_scal (fun s => s)). apply derivable_pt_lim_id. }
  pose (pr := fun u => exist (fun v => derivable_pt_abs (fun s => f s - l * s) u v) 0 (D' u) : derivable_pt (fun s => f s - l * s) u).
  assert (C : constant (fun s => f s - l * s)) by (apply (null_derivative_1 _ pr); intros u; reflexivity).
  specialize (C s 0). cbn in C. lra.
Qed.
Lemma shifted_derivative (f : R -> R) s l : derivable_pt_lim (fun u => f (s + u)) 0 l -> derivable_pt_lim f s l.
Proof.
  intros D eps E. destruct (D eps E) as (d & H). exists d. intros h N B. specialize (H h N B). now rewrite Rplus_0_l, Rplus_0_r in H.
Qed.
Lemma correction_full cg z : LinSpec.correction true cg z = full cg z.
Proof. apply functional_extensionality. intros h. unfold LinSpec.correction, full. now destruct (ConsModel.find h cg) as [[|]|]. Qed.
Lemma correction_dirichlet cg z : only_dirichlet cg -> LinSpec.correction false cg z = full cg z.
Proof.
  intros O. apply functional_extensionality. intros h. unfold LinSpec.correction, full. destruct (ConsModel.find h cg) as [[|c r]|] eqn:F; try reflexivity.
  apply ConsProofs.find_in in F. now specialize (O _ _ F).
Qed.
Lemma stage_linear N os (hm : bool) sym G L0 L1 J0 J1 e cells m T t h r const p q norm mf solve :
  let tr := after_history os in
  dofs_below N G -> local_derivatives G L0 J0 -> local_derivatives G L1 J1 -> linear_terms J0 -> linear_terms J1 ->
  left_over N (fst q) -> left_over N (snd q) -> flat (entries tr) -> below N (entries tr) ->
  (hm = false -> only_dirichlet (entries tr)) ->
  let o := pre_step m T t h r in
  forall x0, LinSpec.linear_problem N hm (stage_problem tr sym G L0 L1 J0 J1 e cells o const p q norm mf solve)
    (hanging_jacobian tr tr sym G L0 L1 J0 J1 e cells o q x0 mzero).
Proof.
  cbn zeta. intros DB D0 D1 H0 H1 Q0 Q1 FL B OD x0. split; [intros x; now apply linear_jacobian|].
  intros x z g FP. cbn [LinModel.residual LinModel.trial stage_problem] in *.
  assert (E : LinSpec.correction hm (entries (after_history os)) z = full (entries (after_history os)) z)
    by (destruct hm; [apply correction_full|apply correction_dirichlet, OD; reflexivity]). rewrite E. clear E.
  set (tr := after_history os) in *. set (o := pre_step m T t h r).
  assert (Z : sym = true -> forall k, dirichlet (entries tr) k -> z k = 0).
  { intros _ k K. apply FP. unfold constrained, keys. apply in_map_iff. now exists (k, []). }
  destruct (in_dec Nat.eq_dec g (keys (entries tr))) as [C|C].
  - pose proof (proj2 (hanging_derivative N os os sym G L0 L1 J0 J1 e cells m T t h r const p q x0 z vzero g DB D0 D1 Q0 Q1 FL B Z) C) as (F & R).
    cbn zeta in *. fold tr o in F, R. rewrite !F, R, (FP g C); [lra|]. 
    unfold keys in C. apply in_map_iff in C as ((g', r') & <- & I). exact (proj1 (B g' r' I)).
  - set (w := full (entries tr) z). set (F := fun y => hanging_residual tr G L0 L1 e cells o const p y vzero g).
    change (F (LinModel.vsub x w) = F x - mv N (hanging_jacobian tr tr sym G L0 L1 J0 J1 e cells o q x0 mzero) z g).
    set (l := mv N _ z g).
    assert (S : forall s, derivable_pt_lim (fun s => F (along x w s)) s l).
    { intros s. apply shifted_derivative.
      pose proof (proj1 (hanging_derivative N os os sym G L0 L1 J0 J1 e cells m T t h r const p q (along x w s) z vzero g DB D0 D1 Q0 Q1 FL B Z) C) as D.
      cbn zeta in D. fold tr o w in D. rewrite (linear_jacobian tr tr sym G L0 L1 J0 J1 e cells o q _ x0 H0 H1) in D. fold l in D.
      eapply derivable_pt_lim_ext; [|exact D]. intros u. cbn beta. unfold F.
      replace (along (along x w s) w u) with (along x w (s + u)) by (apply functional_extensionality; intros k; unfold along, vadd, vscal; ring). reflexivity. }
    pose proof (line_slope _ l S (-1)) as E. cbn beta in E.
    replace (LinModel.vsub x w) with (along x w (-1)) by (apply functional_extensionality; intros k; unfold along, vadd, vscal, LinModel.vsub; ring).
    replace x with (along x w 0) at 2 by (apply functional_extensionality; intros k; unfold along, vadd, vscal; ring). lra.
Qed.
