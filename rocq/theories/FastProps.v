(** C60 and C61: the fast DG operator computes what the default operator computes, also in parallel. *)
From Coq Require Import Lra.
From Verif Require Import CommonFacts OrderingModel OrderingSpec EngineProofs EngineProofs2 EngineProofs3 DriverProofs DiagProofs DiagProofs2 DiagProps.
From Verif Require Import FastProofs3 FastProofs4.
Local Open Scope R_scope.

(** C60: without overlap or ghost cells, whatever the state of the views, no unbound view is used and the residual that
    the fast operator accumulates is that of the default operator. *)
Theorem c60_residual : forall F G L x e p cells a s s0 r, aliased F G -> all_interior p ->
  exists s' r', fast_residual 0 F L x e p cells a s r = Ok (s', r') /\
    forall g, r' g = assemble_residual 0 G L e cells a s0 x r g.
Proof.
  intros F G L x e p cells a s s0 r H I. destruct (fast_assembled 0 F G L x a H e p cells s r) as (s' & r' & E & V).
  exists s', r'. split; auto. intros g. rewrite V, assembled_value, fast_operator_value; auto.
Qed.
Print Assumptions c60_residual.
(** C60: the same for the application of the Jacobian (the operator sees pairs of coefficients and updates). *)
Theorem c60_apply : forall F G L x z e p cells a s s0 r, aliased F G -> all_interior p ->
  exists s' r', fast_residual (0, 0) F L (fun h => (x h, z h)) e p cells a s r = Ok (s', r') /\
    forall g, r' g = assemble_residual (0, 0) G L e cells a s0 (fun h => (x h, z h)) r g.
Proof.
  intros F G L x z e p cells a s s0 r H I. destruct (fast_assembled (0, 0) F G L (fun h => (x h, z h)) a H e p cells s r) as (s' & r' & E & V).
  exists s', r'. split; auto. intros g. rewrite V, assembled_value, fast_operator_value; auto.
Qed.
Print Assumptions c60_apply.
(** C60: the same for the matrix, if the blocks of the matrix have as many columns as a cell has DOFs. *)
Theorem c60_jacobian : forall F G L J x e p cells a s s0 m, aliased F G -> u_block F = u_size F -> all_interior p ->
  exists s' m', fast_jacobian F L J x e p cells a s m = Ok (s', m') /\
    forall g h, m' g h = assemble_jacobian G L J e cells a s0 x m g h.
Proof.
  intros F G L J x e p cells a s s0 m H B I. destruct (fast_jassembled F G L J x a H B e p cells s m) as (s' & r' & E & V).
  exists s', r'. split; auto. intros g h. rewrite V, assembled_jacobian, fast_jacobian_value; auto.
Qed.
Print Assumptions c60_jacobian.

Definition two_fast : fspace := mkfspace 2 2 2 2 (fun c => c).
Definition seq_part : part := mkpart true (fun _ => true).
Lemma two_fast_aliased : aliased two_fast two_dofs.
Proof.
  intros c. unfold u_data, v_data, two_fast, two_dofs. cbn [u_block v_block u_size v_size entity_index lfsu lfsv seq].
  replace (2 * c + 1)%nat with (S (2 * c)) by lia. auto.
Qed.
Example c60_meets : aliased two_fast two_dofs /\ u_block two_fast = u_size two_fast /\ all_interior seq_part /\
  exists s' r', fast_residual 0 two_fast jump_all (fun g => INR g) env0 seq_part strip (mkla 2 0) unbound vzero = Ok (s', r') /\ r' 11%nat = 360.
Proof.
  split; [exact two_fast_aliased|]. split; [reflexivity|]. split; [intros ?; reflexivity|].
  destruct (c60_residual two_fast two_dofs jump_all (fun g => INR g) env0 seq_part strip (mkla 2 0) unbound blank vzero two_fast_aliased (fun _ => eq_refl))
    as (s' & r' & E & V). exists s', r'. split; auto. rewrite V, assembled_value.
  unfold operator_value, cell_value; cbn -[scatter Nat.mul INR]; unfold scatter; cbn -[Nat.mul INR]; lits; cbn -[Nat.mul INR].
  unfold vzero. cbn -[INR]. repeat match goal with |- context [INR (S ?n)] => rewrite (S_INR n) end. cbn [INR]. lra.
Qed.

(** C60: the index the fast cache assumes for a cell, (block of the cell, 0), is right for container-blocked orderings that
    attach the same DOFs to all cells of one geometry type and none to other entities: the k-th DOF of the cell is
    entry k of that block. *)
Theorem c60_index : forall o gt e k p, cell_blocks o -> well_formed o ->
  (forall gt' e', gt' <> gt -> entity_dofs o (gt', e') = []) -> nth_error (entity_dofs o (gt, e)) k = Some p ->
  exists b z, fast_index (gt, e) = [b; z] /\ mapIndex o (gt, e) p = Ok [b; (z + k)%nat].
Proof. intros o gt e k p A B C D. exists e, 0%nat. split; [reflexivity|]. now apply (block_index o gt e k p). Qed.
Print Assumptions c60_index.
Definition two_fields : ord := OGV true [4; 3]%nat (LNode false [LLeaf (FixedSizes [(4, 0); (3, 2)]%nat); LLeaf (FixedSizes [(4, 0); (3, 1)]%nat)]).
Example c60_index_meets : cell_blocks two_fields /\ well_formed two_fields /\
  (forall gt' e', gt' <> 1%nat -> entity_dofs two_fields (gt', e') = []) /\
  nth_error (entity_dofs two_fields (1, 2)%nat) 2 = Some [1; 0]%nat /\ mapIndex two_fields (1, 2)%nat [1; 0]%nat = Ok [2; 2]%nat.
Proof.
  split; [reflexivity|]. split.
  { apply wf_gv; [|intros; reflexivity]. cbn [disable_blocking]. apply lok_node; [discriminate|]. repeat constructor. }
  split.
  { intros gt' e' N. cbn. unfold dofs_on. cbn [fst snd]. destruct gt' as [|[|gt']]; [|contradiction|].
    - cbn [nth_error]. destruct (e' <? 4)%nat; reflexivity.
    - destruct gt'; reflexivity. }
  split; reflexivity.
Qed.
(** C60 fails on grids with cells of two geometry types: the fast index cache uses the index of the cell among cells of its
    own type as the block number (lfsindexcache.hh 306-310), so cells of different types share a block. *)
Theorem c60_hybrid_refuted : exists o en en', well_formed o /\ cell_blocks o /\ en <> en' /\
  mapIndex o en [0%nat] = Ok [0; 0]%nat /\ mapIndex o en' [0%nat] = Ok [1; 0]%nat /\ fast_index en = fast_index en'.
Proof.
  exists (OLeaf true (FixedSizes [(1, 2); (1, 2)]%nat)), (0, 0)%nat, (1, 0)%nat.
  split; [constructor; intros; exact Logic.I|]. repeat split; try reflexivity. discriminate.
Qed.
Print Assumptions c60_hybrid_refuted.
(** C60 fails for matrix blocks that are wider than the number of local DOFs: the aliased matrix view steps by the number
    of local columns (aliasedmatrixview.hh 140-144), so entries are displaced. *)
Theorem c60_block_width_refuted : exists F G L J x e p cells a s s0 g h, aliased F G /\ (u_size F < u_block F)%nat /\ all_interior p /\
  exists s' m', fast_jacobian F L J x e p cells a s mzero = Ok (s', m') /\ m' g h <> assemble_jacobian G L J e cells a s0 x mzero g h.
Proof.
  exists (mkfspace 2 2 3 3 (fun c => c)), (mkspace (fun c => [3 * c; S (3 * c)]%nat) (fun c => [3 * c; S (3 * c)]%nat)), reaction_jump, reaction_jump_j,
    (fun _ => 3), env0, seq_part, [mkcell 0 []], (mkla 1 0), junbound, (mkjest mzero mzero mzero mzero vzero vzero ([],[]) ([],[]) ([],[]) ([],[]) [] [] vzero), 1%nat, 1%nat.
  split; [intros c; split; reflexivity|]. split; [cbn; lia|]. split; [intros ?; reflexivity|].
  eexists _, _. split; [reflexivity|]. rewrite assembled_jacobian. cbn -[mscatter INR]. unfold cell_jac, mscatter, scatter, mzero. cbn. unfold vzero, mzero. lra.
Qed.
Print Assumptions c60_block_width_refuted.

(** C60 fails for local operators that use rawAccumulate: for the views of the default engines accumulate(v) is
    rawAccumulate(weight * v) (localvector.hh 90-95), but the aliased vector applies the weight once more
    (aliasedvectorview.hh 174-178); L2VolumeFunctional (l2volumefunctional.hh 84) is such an operator. *)
Theorem c60_raw_refuted : exists w p n v r g, alias_raw w p n (vscal w v) r g = 4 /\ alias_acc w p n v r g = 2 /\ default_raw w (vscal w v) r g = 2.
Proof.
  exists 2, 0%nat, 1%nat, (fun _ => 1), vzero, 0%nat. unfold alias_raw, alias_acc, default_raw, vadd, vscal, vzero. cbn. repeat split; lra.
Qed.
Print Assumptions c60_raw_refuted.

(** C60: interpolate(xold, f, x) keeps the unconstrained entries of xold when x is another object ... *)
Theorem c60_interpolate : forall constrained xold f g, fast_interpolate constrained false xold f g = default_interpolate constrained false xold f g /\
  (constrained g = true -> fast_interpolate constrained false xold f g = f g) /\
  (constrained g = false -> fast_interpolate constrained false xold f g = xold g).
Proof. intros c xold f g. unfold fast_interpolate, default_interpolate, copy_free. repeat split; intros ->; reflexivity. Qed.
Print Assumptions c60_interpolate.
(** C60 fails for interpolate when x and xold are the same object: unlike the default operator (gridoperator.hh 152-165) the
    fast one (fastdg.hh 183-193) keeps no copy and loses the unconstrained entries. *)
Theorem c60_interpolate_refuted : exists constrained xold f g, constrained g = false /\
  default_interpolate constrained true xold f g = xold g /\ fast_interpolate constrained true xold f g <> xold g.
Proof. exists (fun _ => false), (fun _ => 1), (fun _ => 0), 0%nat. cbn. repeat split. lra. Qed.
Print Assumptions c60_interpolate_refuted.

(** C61: in a parallel run every process assembles its interior cells only.  Every entry of an interior cell is complete:
    it is the volume terms of the cell plus the inside part of the terms of all its faces, including faces to cells of
    other processes. *)
Theorem c61_residual : forall F G owner L x e p cells m c a s r g, aliased F G -> dg_space G owner -> distinct_cells cells ->
  interior_border p = true ->
  mirrored_in (inner_slots (own_cell p) e cells) m -> sides_fit 0 G L (time a) x (inner_slots (own_cell p) e cells) m ->
  In c cells -> skip_entity e c = false -> own_cell p (cid c) = true -> owner g = cid c ->
  exists s' r', fast_residual 0 F L x e p cells a s r = Ok (s', r') /\
    r' g = r g + weight a * complete_value 0 G e L (time a) x c g.
Proof.
  intros F G owner L x e p cells m c a s r g H D DC B M S I SE O E.
  assert (Q : forall b, counted p b = own_cell p b) by (intros b; unfold counted; now rewrite B).
  assert (Q' : inner_slots (counted p) e cells = inner_slots (own_cell p) e cells) by (unfold inner_slots; apply filter_ext; intros q; now rewrite !Q).
  destruct (fast_assembled 0 F G L x a H e p cells s r) as (s' & r' & E' & V). exists s', r'. split; auto. rewrite V. do 2 f_equal.
  apply (fast_complete 0 G owner e L (time a) x p cells m c g); rewrite ?Q'; auto. now rewrite Q.
Qed.
Print Assumptions c61_residual.
Theorem c61_jacobian : forall F G owner L J x e p cells m c a s r g h, aliased F G -> u_block F = u_size F -> dg_space G owner -> distinct_cells cells ->
  interior_border p = true ->
  mirrored_in (inner_slots (own_cell p) e cells) m -> sides_fit_jac G L J (time a) x (inner_slots (own_cell p) e cells) m ->
  In c cells -> skip_entity e c = false -> own_cell p (cid c) = true -> owner g = cid c ->
  exists s' r', fast_jacobian F L J x e p cells a s r = Ok (s', r') /\
    r' g h = r g h + weight a * complete_jac G e L J (time a) x c g h.
Proof.
  intros F G owner L J x e p cells m c a s r g h H HB D DC B M S I SE O E.
  assert (Q : forall b, counted p b = own_cell p b) by (intros b; unfold counted; now rewrite B).
  assert (Q' : inner_slots (counted p) e cells = inner_slots (own_cell p) e cells) by (unfold inner_slots; apply filter_ext; intros q; now rewrite !Q).
  destruct (fast_jassembled F G L J x a H HB e p cells s r) as (s' & r' & E' & V). exists s', r'. split; auto. rewrite V. do 2 f_equal.
  apply (fast_complete_jac G owner e L J (time a) x p cells m c g); rewrite ?Q'; auto. now rewrite Q.
Qed.
Print Assumptions c61_jacobian.
(** C61: the default operator, which assembles on all cells of the process, gives the same entries on a grid in which every
    interior face is seen from both sides. *)
Theorem c61_default : forall G owner L x e cells m c a s r g, dg_space G owner -> distinct_cells cells ->
  mirrored e cells m -> sides_fit 0 G L (time a) x (interior_slots e cells) m ->
  In c cells -> skip_entity e c = false -> owner g = cid c ->
  assemble_residual 0 G L e cells a s x r g = r g + weight a * complete_value 0 G e L (time a) x c g.
Proof.
  intros G owner L x e cells m c a s r g D DC M S I SE E. rewrite assembled_value. do 2 f_equal.
  rewrite <- (fast_operator_value 0 G e L (time a) x (mkpart false (fun _ => true))) by (now left).
  assert (Q : inner_slots (counted (mkpart false (fun _ => true))) e cells = interior_slots e cells) by (unfold inner_slots; now apply filter_true).
  apply (fast_complete 0 G owner e L (time a) x _ cells m c g); rewrite ?Q; auto.
Qed.
Print Assumptions c61_default.

Definition my_part : part := mkpart true (fun c => negb (c =? 9)%nat).
Lemma inner_of own e cells m : mirrored e cells m -> mirrored_in (inner_slots own e cells) m.
Proof.
  intros [ND M]. split; [now apply NoDup_filter|]. intros s H. apply filter_In in H as [H O]. destruct (M s H) as (A & B & C & D & E).
  split; [|auto]. apply filter_In. split; auto. rewrite C, D. now rewrite andb_comm.
Qed.
Example c61_meets : aliased two_fast two_dofs /\ dg_space two_dofs owner2 /\ distinct_cells strip /\
  mirrored_in (inner_slots (own_cell my_part) env0 strip) other_side /\ length (inner_slots (own_cell my_part) env0 strip) = 2%nat /\
  sides_fit 0 two_dofs jump_all 0 (fun g => INR g) (inner_slots (own_cell my_part) env0 strip) other_side /\
  sides_fit_jac two_dofs jump_all jump_all_j 0 (fun g => INR g) (inner_slots (own_cell my_part) env0 strip) other_side /\
  own_cell my_part 3 = true /\ owner2 6 = 3%nat /\
  complete_value 0 two_dofs env0 jump_all 0 (fun g => INR g) (nth 1 strip (mkcell 0 [])) 6%nat = 20.
Proof.
  split; [exact two_fast_aliased|]. split; [exact two_dofs_dg|].
  split. { unfold distinct_cells. cbn. repeat (constructor; [intros K; repeat (destruct K as [K|K]; [discriminate|]); destruct K|]). constructor. }
  split; [apply inner_of, strip_mirrored|]. split; [reflexivity|]. split.
  { unfold sides_fit. cbn [jump_all do_two_sided]. intros (c, (i, f)) _. destruct (other_side (c, (i, f))) as (c', (i', f')). split; [intros _ y z; reflexivity|discriminate]. }
  split. { unfold sides_fit_jac. cbn [jump_all do_two_sided]. intros (c, (i, f)) y z _. destruct (other_side (c, (i, f))) as (c', (i', f')). reflexivity. }
  split; [reflexivity|]. split; [reflexivity|].
  unfold complete_value, cell_value, complete_face, near_value; cbn -[scatter Nat.mul INR]; unfold scatter; cbn -[Nat.mul INR]; lits; cbn -[Nat.mul INR].
  unfold vzero. cbn -[INR]. repeat match goal with |- context [INR (S ?n)] => rewrite (S_INR n) end. cbn [INR]. lra.
Qed.
(** Out of range of C61: entries of cells that belong to other processes are not complete, the volume terms are missing. *)
Theorem c61_overlap_refuted : exists F G owner L x e p cells m c a s g, aliased F G /\ dg_space G owner /\ distinct_cells cells /\
  mirrored e cells m /\ sides_fit 0 G L (time a) x (interior_slots e cells) m /\ In c cells /\ owner g = cid c /\ own_cell p (cid c) = false /\
  exists s' r', fast_residual 0 F L x e p cells a s vzero = Ok (s', r') /\ r' g <> weight a * complete_value 0 G e L (time a) x c g.
Proof.
  exists two_fast, two_dofs, owner2, jump_all, (fun g => INR g), env0, my_part, strip, other_side, (nth 2 strip (mkcell 0 [])), (mkla 1 0), unbound, 18%nat.
  split; [exact two_fast_aliased|]. split; [exact two_dofs_dg|]. split; [exact (proj1 (proj2 (proj2 c61_meets)))|]. split; [exact strip_mirrored|].
  split. { unfold sides_fit. cbn [jump_all do_two_sided]. intros (c, (i, f)) _. destruct (other_side (c, (i, f))) as (c', (i', f')). split; [intros _ y z; reflexivity|discriminate]. }
  split; [right; right; left; reflexivity|]. split; [reflexivity|]. split; [reflexivity|].
  destruct (fast_assembled 0 two_fast two_dofs jump_all (fun g => INR g) (mkla 1 0) two_fast_aliased env0 my_part strip unbound vzero) as (s' & r' & E & V).
  exists s', r'. split; auto. rewrite V.
  unfold fast_value, complete_value, cell_value, complete_face, near_value; cbn -[scatter Nat.mul INR]; unfold fast_face_value, fast_visit, near_value, far_value; cbn -[scatter Nat.mul INR]; lits; cbn -[scatter Nat.mul INR]; unfold scatter; cbn -[Nat.mul INR]; lits; cbn -[Nat.mul INR].
  unfold vzero. cbn -[INR]. repeat match goal with |- context [INR (S ?n)] => rewrite (S_INR n) end. cbn [INR]. lra.
Qed.
Print Assumptions c61_overlap_refuted.
