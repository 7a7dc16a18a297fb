(** C56 and C57: extracting the block diagonal, the off-diagonal blocks and the point diagonal of an operator. *)
From Coq Require Import Lra.
From Verif Require Import CommonFacts DiagModel EngineSpec EngineProofs EngineProofs2 EngineProofs3 DriverProofs DiagSpec DiagProofs DiagProofs2.
Local Open Scope R_scope.

(** C56: for a one-sided operator on a discontinuous space, the matrix assembled with the block diagonal wrapper contains
    exactly the entries that couple DOFs of the same cell. *)
Theorem c56_block_diagonal : forall G owner e L J cells m a s s' x g h,
  mirrored e cells m -> side_independent e cells m J -> dg_space G owner -> do_two_sided L = false -> do_alpha_post L = false ->
  assemble_jacobian G (diag_terms L) (diag_jterms J) e cells a s x mzero g h =
  if (owner g =? owner h)%nat then assemble_jacobian G L J e cells a s' x mzero g h else 0.
Proof.
  intros. rewrite !assembled_jacobian, (diag_is_block G e (time a) x cells m J H H0 owner H1 L g h H2 H3). unfold mzero.
  destruct (_ =? _)%nat; ring.
Qed.
Print Assumptions c56_block_diagonal.

(** C56: the matrix assembled with the off-diagonal wrapper contains exactly the other entries. *)
Theorem c56_off_diagonal : forall G owner e L J cells m a s s' x g h,
  mirrored e cells m -> side_independent e cells m J -> dg_space G owner -> do_two_sided L = false -> do_alpha_post L = false ->
  assemble_jacobian G (off_terms L) (off_jterms J) e cells a s x mzero g h =
  if (owner g =? owner h)%nat then 0 else assemble_jacobian G L J e cells a s' x mzero g h.
Proof.
  intros. rewrite !assembled_jacobian, (off_is_block G e (time a) x cells m J H H0 owner H1 L g h H2 H3). unfold mzero.
  destruct (_ =? _)%nat; ring.
Qed.
Print Assumptions c56_off_diagonal.

(** C56: for any space, the two matrices add up to the matrix of the operator. *)
Theorem c56_split : forall G e L J cells m a s s' s'' x g h,
  mirrored e cells m -> side_independent e cells m J -> do_two_sided L = false -> do_alpha_post L = false ->
  assemble_jacobian G (diag_terms L) (diag_jterms J) e cells a s x mzero g h +
  assemble_jacobian G (off_terms L) (off_jterms J) e cells a s' x mzero g h =
  assemble_jacobian G L J e cells a s'' x mzero g h.
Proof.
  intros. rewrite !assembled_jacobian, (diag_value G e (time a) x cells m J H H0), (off_value G e (time a) x cells m J H H0), (full_value G e (time a) x cells J L g h H1 H2).
  unfold mzero, skel. destruct (do_alpha_skeleton L); [|ring]. rewrite !lsum_plus. ring.
Qed.
Print Assumptions c56_split.

(** C56: applying the block diagonal wrapper multiplies with the matrix it assembles. *)
Theorem c56_diag_apply : forall N G L J LA e cells a s s' x z g,
  dofs_below N G -> local_apply G L J LA ->
  assemble_residual (0, 0) G (diag_apply LA) e cells a s (fun h => (x h, z h)) vzero g =
  mv N (assemble_jacobian G (diag_terms L) (diag_jterms J) e cells a s' x mzero) z g.
Proof. intros. apply assembled_apply; [assumption|now apply diag_local_apply]. Qed.
Print Assumptions c56_diag_apply.

(** C56: applying the off-diagonal wrapper multiplies with the matrix it assembles (the application reads the outside
    coefficients and writes the inside rows, the assembly fills the outside rows; the two sides of a face make up for it). *)
Theorem c56_off_apply : forall N G L J LA e cells m a s s' x z g,
  mirrored e cells m -> side_independent e cells m J -> dofs_below N G -> local_apply G L J LA ->
  assemble_residual (0, 0) G (off_apply LA) e cells a s (fun h => (x h, z h)) vzero g =
  mv N (assemble_jacobian G (off_terms L) (off_jterms J) e cells a s' x mzero) z g.
Proof. exact off_applied. Qed.
Print Assumptions c56_off_apply.

(** C56: the block assembled for a single cell is that cell's block of the matrix. *)
Theorem c56_local_block : forall G owner e L J cells c a s x i j g h,
  dg_space G owner -> nothing_skipped e -> no_periodic e cells -> distinct_cells cells -> outside_free J ->
  do_alpha_volume L = true -> do_alpha_skeleton L = true -> do_alpha_boundary L = true ->
  In c cells -> NoDup (lfsv G (cid c)) -> NoDup (lfsu G (cid c)) ->
  nth_error (lfsv G (cid c)) i = Some g -> nth_error (lfsu G (cid c)) j = Some h ->
  assemble_jacobian G (diag_terms L) (diag_jterms J) e cells a s x mzero g h =
  weight a * local_block e J c (time a) (gather 0 x (lfsu G (cid c))) i j.
Proof.
  intros. rewrite assembled_jacobian. unfold mzero. rewrite Rplus_0_l. f_equal. eapply local_block_assembled; eassumption.
Qed.
Print Assumptions c56_local_block.

(** The hypotheses hold on a strip of three cells with two DOFs each. *)
Definition two_dofs : space := let ds := fun c => [2 * c; 2 * c + 1]%nat in mkspace ds ds.
Definition owner2 (g : nat) : nat := Nat.div2 g.
Definition env0 : env := fst (no_skip false).
Definition other_side (s : slot) : slot :=
  match find (fun s' => (cid (fst s') =? outside (snd (snd s)))%nat && (outside (snd (snd s')) =? cid (fst s))%nat && is_interior env0 s') (visited_slots env0 strip) with
  | Some s' => s' | None => s end.
Lemma strip_mirrored : mirrored env0 strip other_side.
Proof.
  split.
  - cbv. repeat (constructor; [intros K; repeat (destruct K as [K|K]; [discriminate|]); destruct K|]). constructor.
  - intros s H.
    assert (K : s = nth 0 (interior_slots env0 strip) s \/ s = nth 1 (interior_slots env0 strip) s \/ s = nth 2 (interior_slots env0 strip) s \/ s = nth 3 (interior_slots env0 strip) s).
    { vm_compute in H. vm_compute. destruct H as [H|[H|[H|[H|[]]]]]; auto. }
    vm_compute in K. clear H. destruct K as [-> | [-> | [-> | ->]]]; vm_compute; repeat split; auto; intros; discriminate.
Qed.
Lemma jump_side_independent e cells m : side_independent e cells m reaction_jump_j.
Proof. intros (c, (i, f)) t x y _. destruct (m (c, (i, f))) as (c', (i', f')). reflexivity. Qed.
Lemma two_dofs_dg : dg_space two_dofs owner2.
Proof.
  intros c g H. unfold owner2. destruct H as [[<-|[<-|[]]]|[<-|[<-|[]]]].
  all: try apply Nat.div2_double. all: rewrite Nat.add_1_r; apply Nat.div2_succ_double.
Qed.
Ltac lits := repeat match goal with |- context [(?a =? ?b)%nat] => let r := eval vm_compute in (a =? b)%nat in change (a =? b)%nat with r
  | |- context [(?a <? ?b)%nat] => let r := eval vm_compute in (a <? b)%nat in change (a <? b)%nat with r end.

Example c56_meets : mirrored env0 strip other_side /\ side_independent env0 strip other_side reaction_jump_j /\ dg_space two_dofs owner2 /\
  do_two_sided reaction_jump = false /\ do_alpha_post reaction_jump = false /\ dofs_below 3 one_dof /\
  local_apply one_dof reaction_jump reaction_jump_j reaction_jump_apply /\
  jacobian_value two_dofs env0 reaction_jump reaction_jump_j 0 (fun _ => 3) strip 6%nat 6%nat = 8 /\
  jacobian_value two_dofs env0 reaction_jump reaction_jump_j 0 (fun _ => 3) strip 6%nat 10%nat = -1.
Proof.
  split; [exact strip_mirrored|]. split; [apply jump_side_independent|]. split; [exact two_dofs_dg|]. split; [reflexivity|]. split; [reflexivity|].
  destruct engine_meets as (A & _ & B & _). split; [exact A|]. split; [exact B|].
  split; unfold jacobian_value, cell_jac; cbn -[mscatter Nat.mul]; unfold mscatter, scatter; cbn -[Nat.mul]; lits; cbn -[Nat.mul]; unfold vzero, mzero; lra.
Qed.

Definition jump_all : terms R :=
  mkterms R true false true false true false false false false
    (fun _ _ x i => x i * x i) (fun _ _ => vzero)
    (fun _ _ _ _ x y => (fun i => x i - y i, fun i => y i - x i)) (fun _ _ _ _ => (vzero, vzero))
    (fun _ _ _ _ x i => 5 * x i) (fun _ _ _ _ => vzero) (fun _ _ _ => vzero) (fun _ _ => vzero).
Definition jump_all_j : jterms :=
  mkjterms (j_volume reaction_jump_j) (j_skeleton reaction_jump_j) (fun _ _ _ _ _ i j => if (i =? j)%nat then 5 else 0) (fun _ _ _ => mzero).
Example c56_local_meets : nothing_skipped env0 /\ no_periodic env0 strip /\ distinct_cells strip /\ outside_free jump_all_j /\
  In (nth 0 strip (mkcell 0 [])) strip /\ NoDup (lfsv two_dofs 5) /\ nth_error (lfsv two_dofs 5) 1 = Some 11%nat /\
  local_block env0 jump_all_j (nth 0 strip (mkcell 0 [])) 0 (fun _ => 3) 1%nat 1%nat = 12.
Proof.
  split; [split; reflexivity|]. split.
  { intros c f Hc Hf. destruct Hc as [<-|[<-|[<-|[]]]]; destruct Hf as [<-|[<-|[]]]; discriminate. }
  split. { unfold distinct_cells. cbn. repeat (constructor; [intros K; repeat (destruct K as [K|K]; [discriminate|]); destruct K|]). constructor. }
  split; [intros ? ? ? ? ? ? ?; reflexivity|]. split; [left; reflexivity|].
  split. { cbn. repeat (constructor; [intros K; repeat (destruct K as [K|K]; [discriminate|]); destruct K|]). constructor. }
  split; [reflexivity|]. rewrite local_block_at. cbn. lra.
Qed.

(** Out of range: an operator that visits faces from both sides and fills the inside rows only.  Its off-diagonal matrix is
    empty although the operator couples the cells, and although the application of the wrapper does too. *)
Definition two_sided_jump : terms R :=
  mkterms R false false true false false false false false true
    (fun _ _ _ => vzero) (fun _ _ => vzero) (fun _ _ _ _ x y => (fun i => x i - y i, vzero)) (fun _ _ _ _ => (vzero, vzero))
    (fun _ _ _ _ _ => vzero) (fun _ _ _ _ => vzero) (fun _ _ _ => vzero) (fun _ _ => vzero).
Definition two_sided_jump_j : jterms :=
  let id := fun w i j => if (i =? j)%nat then w else 0 in
  mkjterms (fun _ _ _ => mzero) (fun _ _ _ _ _ _ => ((id 1, id (-1)), (mzero, mzero))) (fun _ _ _ _ _ => mzero) (fun _ _ _ => mzero).
Definition two_sided_jump_apply : terms (R * R) :=
  mkterms (R * R) false false true false false false false false true
    (fun _ _ _ => vzero) (fun _ _ => vzero) (fun _ _ _ _ p q => (fun i => snd (p i) - snd (q i), vzero)) (fun _ _ _ _ => (vzero, vzero))
    (fun _ _ _ _ _ => vzero) (fun _ _ _ _ => vzero) (fun _ _ _ => vzero) (fun _ _ => vzero).
Theorem c56_two_sided_refuted : exists G L J LA e cells a x z g h,
  local_apply G L J LA /\ dofs_below 3 G /\ mirrored e cells other_side /\ g <> h /\
  forall s s', assemble_jacobian G L J e cells a s x mzero g h <> 0 /\
  (forall g' h', assemble_jacobian G (off_terms L) (off_jterms J) e cells a s x mzero g' h' = 0) /\
  assemble_residual (0, 0) G (off_apply LA) e cells a s' (fun h => (x h, z h)) vzero g <> 0.
Proof.
  exists one_dof, two_sided_jump, two_sided_jump_j, two_sided_jump_apply, env0, strip, (mkla 1 0), (fun _ => 0), (fun _ => 1), 0%nat, 1%nat.
  split.
  { unfold local_apply. repeat (split; [reflexivity|]). intros c t p. cbn [length lfsu lfsv one_dof].
    split; [|split; [|split]]; try (intros; unfold mv; cbn; unfold vzero, mzero; lra).
    intros f k q i. cbn. unfold mv. cbn. split; intros I; assert (i = O) by lia; subst i; cbn; unfold vzero, mzero; lra. }
  split; [exact (proj1 engine_meets)|]. split; [exact strip_mirrored|]. split; [discriminate|]. intros s s'. split; [|split].
  - rewrite assembled_jacobian. unfold jacobian_value, cell_jac. cbn -[mscatter]. unfold mscatter, scatter. cbn. lits. cbn. unfold vzero, mzero. cbn. lra.
  - intros g' h'. rewrite assembled_jacobian. rewrite jacobian_slots. rewrite !lsum_zero.
    + unfold mzero. ring.
    + intros (c, (i, f)) _. unfold face_jac. cbn [fst snd off_terms off_flags do_alpha_boundary off_jterms j_skeleton two_sided_jump_j mopt]. rewrite !mscatter_zero.
      destruct (classify _ f); try reflexivity; destruct (_ && _); ring.
    + intros c _. unfold cell_jac. cbn [off_terms off_flags do_alpha_volume do_alpha_post mopt]. rewrite !mscatter_zero. ring.
  - rewrite assembled_value. unfold operator_value, cell_value. cbn -[scatter]. unfold scatter. cbn. lits. cbn. unfold no_update, vzero, no_terms_v, vzero; cbn. unfold vzero. lra.
Qed.
Print Assumptions c56_two_sided_refuted.

(** Out of range: the block of a single cell leaves out periodic faces. *)
Definition loop2 : list cell :=
  [mkcell 0 [mkface 7 true true 1 true; mkface 8 true false 1 true]; mkcell 1 [mkface 8 true false 0 true; mkface 7 true true 0 true]].
Theorem c56_periodic_refuted : exists G owner e L J cells c i g,
  dg_space G owner /\ nothing_skipped e /\ distinct_cells cells /\ outside_free J /\
  do_alpha_volume L = true /\ do_alpha_skeleton L = true /\ do_alpha_boundary L = true /\
  In c cells /\ NoDup (lfsv G (cid c)) /\ NoDup (lfsu G (cid c)) /\
  nth_error (lfsv G (cid c)) i = Some g /\ nth_error (lfsu G (cid c)) i = Some g /\
  forall a s x, weight a <> 0 ->
    assemble_jacobian G (diag_terms L) (diag_jterms J) e cells a s x mzero g g <>
    weight a * local_block e J c (time a) (gather 0 x (lfsu G (cid c))) i i.
Proof.
  exists two_dofs, owner2, env0, jump_all, jump_all_j, loop2, (nth 0 loop2 (mkcell 0 [])), 0%nat, 0%nat.
  split; [exact two_dofs_dg|]. split; [split; reflexivity|]. split.
  { unfold distinct_cells. cbn. repeat (constructor; [intros K; repeat (destruct K as [K|K]; [discriminate|]); destruct K|]). constructor. }
  split; [intros ? ? ? ? ? ? ?; reflexivity|]. do 3 (split; [reflexivity|]). split; [left; reflexivity|].
  do 2 (split; [cbn; repeat (constructor; [intros K; repeat (destruct K as [K|K]; [discriminate|]); destruct K|]); constructor|]).
  do 2 (split; [reflexivity|]). intros a s x W. rewrite assembled_jacobian, local_block_at.
  assert (K : jacobian_value two_dofs env0 (diag_terms jump_all) (diag_jterms jump_all_j) (time a) x loop2 0%nat 0%nat = 2 * x 0%nat + 2).
  { unfold jacobian_value, cell_jac. cbn -[mscatter Nat.mul]. rewrite !mscatter_zero. unfold mscatter, scatter. cbn -[Nat.mul]. lits. cbn -[Nat.mul].
    unfold vzero, mzero. change (2 * 0)%nat with 0%nat. lra. }
  rewrite K. cbn. unfold mzero. intros E. apply W. nra.
Qed.
Print Assumptions c56_periodic_refuted.

(** C57: for a space with a single leaf, the vector assembled with the point diagonal wrapper is the diagonal of the
    matrix of the block diagonal wrapper, and so of the matrix of a one-sided operator on a discontinuous space. *)
Theorem c57_point_diagonal : forall G owner e L J cells m a s s' x g,
  galerkin G -> dg_space G owner -> mirrored e cells m -> side_independent e cells m J -> do_two_sided L = false -> do_alpha_post L = false ->
  assemble_residual 0 G (point_terms L J) e cells a s x vzero g = assemble_jacobian G L J e cells a s' x mzero g g.
Proof.
  intros. rewrite assembled_value, assembled_jacobian, (point_value G e L J (time a) x cells g H).
  rewrite (diag_is_block G e (time a) x cells m J H1 H2 owner H0 L g g H3 H4), Nat.eqb_refl. reflexivity.
Qed.
Print Assumptions c57_point_diagonal.
Example c57_meets : galerkin two_dofs /\ dg_space two_dofs owner2 /\ mirrored env0 strip other_side /\
  side_independent env0 strip other_side jump_all_j /\ do_two_sided jump_all = false /\ do_alpha_post jump_all = false.
Proof.
  split. { intros c. split; [reflexivity|]. cbn -[Nat.mul]. constructor; [intros [K|[]]; lia|]. constructor; [intros []|constructor]. }
  split; [exact two_dofs_dg|]. split; [exact strip_mirrored|]. split; [|split; reflexivity].
  intros (c, (i, f)) t x y _. destruct (other_side (c, (i, f))) as (c', (i', f')). reflexivity.
Qed.

(** C57, what is asked of a space with several leaves: position k of the vector collects the entries whose test and trial
    function are both number k. *)
Definition point_spec (offset : nat -> nat) (l : list leaf_entry) (k : nat) : R :=
  lsum snd (filter (fun en : leaf_entry => let '(((lv, i), (lu, j)), _) := en in
    (offset lv + i =? k)%nat && (offset lu + j =? k)%nat) l).
Lemma point_view_at offset l k :
  point_view offset l k = lsum snd (filter (fun en : leaf_entry => let '(((lv, i), (_, j)), _) := en in (i =? j)%nat && (offset lv + i =? k)%nat) l).
Proof.
  unfold point_view. assert (K : forall r, fold_left (point_accumulate true offset) l r k = r k + lsum snd (filter (fun en : leaf_entry => let '(((lv, i), (_, j)), _) := en in (i =? j)%nat && (offset lv + i =? k)%nat) l)).
  { induction l as [|(((lv, i), (lu, j)), v) l IH]; intros r; cbn [fold_left filter]; [rewrite lsum_nil; ring|].
    rewrite IH. cbn [point_accumulate andb]. destruct (Nat.eqb_spec i j); cbn [andb]; [|reflexivity].
    unfold vadd. rewrite (Nat.eqb_sym k). destruct (Nat.eqb_spec (offset lv + i) k); [rewrite lsum_cons; cbn [snd]|]; ring. }
  rewrite K. unfold vzero. ring.
Qed.
(** It holds when all entries stay within one leaf ... *)
Theorem c57_one_leaf : forall offset l k, (forall lv i lu j v, In (((lv, i), (lu, j)), v) l -> lv = lu) ->
  point_view offset l k = point_spec offset l k.
Proof.
  intros offset l k H. rewrite point_view_at. unfold point_spec. f_equal. apply filter_ext_in. intros (((lv, i), (lu, j)), v) I.
  rewrite <- (H _ _ _ _ _ I). destruct (Nat.eqb_spec i j) as [->|N]; cbn [andb]; [now rewrite andb_diag|].
  destruct (Nat.eqb_spec (offset lv + i) k), (Nat.eqb_spec (offset lv + j) k); try reflexivity. lia.
Qed.
Print Assumptions c57_one_leaf.
Example c57_one_leaf_meets : point_view (fun l => 3 * l)%nat [(((1, 2), (1, 2))%nat, 7); (((1, 2), (1, 0))%nat, 5); (((0, 2), (0, 2))%nat, 1)] 5%nat = 7.
Proof. cbn. unfold vadd, vzero. cbn. lra. Qed.
(** ... and fails as soon as two leaves are coupled: the entry for function 0 of leaf 0 and function 0 of leaf 1 is off the
    diagonal but is added to it. *)
Theorem c57_coupled_leaves_refuted : exists offset l k, point_spec offset l k = 0 /\ point_view offset l k = 1.
Proof.
  exists (fun l => 2 * l)%nat, [(((0, 0), (1, 0))%nat, 1)], 0%nat. split; [reflexivity|]. rewrite point_view_at. cbn. lra.
Qed.
Print Assumptions c57_coupled_leaves_refuted.
