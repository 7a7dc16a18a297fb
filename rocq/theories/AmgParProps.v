(** Property C137: the parallel hybrid DG/AMG preconditioner. *)
From Coq Require Import Reals Lra ZArith.
From Verif Require Import Common CommonFacts ParModel ParSpec ParProofs ParProofs2 DdModel DdSpec DdProofs DdProofs2
  AmgModel AmgSpec AmgProofs2 AmgProps AmgParModel AmgParSpec AmgParProofs.
Local Arguments rsum : simpl never.

(** In every order of arrival of all messages the preconditioner succeeds, all copies agree, and the result is that of the
    sequential preconditioner for the global matrices, whose smoother is the sum of the smoothers of the ranks. *)
Theorem c137_refines W Wc only onlyc shape shapec all allc p porder o1 o2 o3 max_index owner G PG C fixed :
  grid_ok W only -> grid_ok Wc onlyc -> nranks W = nranks Wc -> containers W shape -> containers Wc shapec ->
  all_dofs W all -> all_dofs Wc allc ->
  Permutation porder (ib_all_messages W only) -> rank_partition W porder = Ok (dg_part p) ->
  (forall l, NoDup l -> (forall x, In x l -> is_shared Wc x) -> length l <= max_index) ->
  Permutation o1 (ib_all_messages Wc onlyc) -> Permutation o2 (all_all_messages Wc onlyc) -> Permutation o3 (ib_all_messages Wc onlyc) ->
  amg_index_sets Wc (fun q => flatten (shapec q)) max_index o1 o2 o3 = Ok (cg_sets p) ->
  (forall d, In d all -> smallest_ib W (fst d) (owner d)) ->
  foreign_constrained W (dg_cc p) -> own_rows W (dg_matrix p) G -> cells_complete W Wc (transfer p) PG ->
  local_smoother W (dg_smoother p) -> collective Wc (cg_amg p) C ->
  (forall q k, has_dof Wc q k -> smallest_ib Wc (fst k) q -> cg_cc p q k = fixed k) ->
  forall pre post middle x b X B,
    (forall i, Permutation (pre i) (all_all W)) -> (forall i, Permutation (post i) (all_all W)) -> Permutation middle (all_all Wc) ->
    consistent W x X -> (forall q d, has_dof W q d -> smallest_ib W (fst d) q -> val (b q) d = B d) ->
    exists x', par_hybrid W Wc shape shapec p pre post middle x b = Ok x' /\
      consistent W x' (hybrid_apply all allc (sequential W owner G PG (dg_smoother p) C fixed (steps1 p) (steps2 p)) X B).
Proof.
  intros. eapply (par_hybrid_refines W Wc only onlyc shape shapec all allc) with (o1 := o1) (o2 := o2) (o3 := o3); eauto.
Qed.
Print Assumptions c137_refines.

(** Smoothers of the ranks that are symmetric matrices on the degrees of freedom they own and vanish elsewhere form a
    symmetric smoother. *)
Theorem c137_block_smoother W all owner (S : seq_prec) (M : nat -> dof -> dof -> R) :
  all_dofs W all -> (forall d, In d all -> smallest_ib W (fst d) (owner d)) ->
  (forall q D i, has_dof W q i -> owner i = q ->
     val (S q (tabulate W (fun _ => 0%R)) (part_of W owner D q)) i = rsum (fun j => if owner j =? q then M q i j * D j else 0)%R all) ->
  (forall q D i, has_dof W q i -> owner i <> q -> val (S q (tabulate W (fun _ => 0%R)) (part_of W owner D q)) i = 0%R) ->
  (forall q i j, In i all -> In j all -> M q i j = M q j i) ->
  let T := fun i j => if owner i =? owner j then M (owner i) i j else 0%R in
  acts_as all (fun _ D => additive_smoother W owner S D) T /\ symmetric all T.
Proof.
  intros DW OW S1 S2 SM T. split.
  - intros D i I. pose proof (OW i I) as ((Q & H & _) & _). pose proof I as I'. apply DW in I' as (q0 & _ & _ & K).
    unfold additive_smoother. rewrite (rsum_one _ (owner i)).
    + assert (B : existsb (Nat.eqb (fst i)) (held W (owner i)) = true).
      { apply existsb_exists. exists (fst i). split; auto. apply Nat.eqb_refl. }
      rewrite B, S1; auto; [|repeat split; auto]. unfold lin. apply rsum_ext. intros j _. unfold T. rewrite Nat.eqb_sym. destruct (owner i =? owner j); lra.
    + apply seq_NoDup.
    + apply in_seq. lia.
    + intros s Hs N. apply in_seq in Hs. destruct (existsb (Nat.eqb (fst i)) (held W s)) eqn:B; auto.
      apply existsb_exists in B as (e & E1 & E2). apply Nat.eqb_eq in E2. subst e. apply S2; [|congruence]. repeat split; auto; lia.
  - intros i j I J. unfold T. rewrite (Nat.eqb_sym (owner j)). destruct (Nat.eqb_spec (owner i) (owner j)) as [E|E]; auto. rewrite E. auto.
Qed.
Print Assumptions c137_block_smoother.

(** For symmetric parts and equal numbers of steps the parallel preconditioner is symmetric in the parallel scalar
    product. *)
Theorem c137_symmetric W Wc only onlyc shape shapec all allc p porder o1 o2 o3 max_index owner G PG C fixed S Cm :
  grid_ok W only -> grid_ok Wc onlyc -> nranks W = nranks Wc -> containers W shape -> containers Wc shapec ->
  all_dofs W all -> all_dofs Wc allc ->
  Permutation porder (ib_all_messages W only) -> rank_partition W porder = Ok (dg_part p) ->
  (forall l, NoDup l -> (forall x, In x l -> is_shared Wc x) -> length l <= max_index) ->
  Permutation o1 (ib_all_messages Wc onlyc) -> Permutation o2 (all_all_messages Wc onlyc) -> Permutation o3 (ib_all_messages Wc onlyc) ->
  amg_index_sets Wc (fun q => flatten (shapec q)) max_index o1 o2 o3 = Ok (cg_sets p) ->
  (forall d, In d all -> smallest_ib W (fst d) (owner d)) ->
  foreign_constrained W (dg_cc p) -> own_rows W (dg_matrix p) G -> cells_complete W Wc (transfer p) PG ->
  local_smoother W (dg_smoother p) -> collective Wc (cg_amg p) C ->
  (forall q k, has_dof Wc q k -> smallest_ib Wc (fst k) q -> cg_cc p q k = fixed k) ->
  acts_as all (fun _ D => additive_smoother W owner (dg_smoother p) D) S -> symmetric all S ->
  acts_as allc (fun _ D => C (fun k => if fixed k then 0%R else D k)) Cm -> symmetric allc Cm ->
  symmetric all G -> steps1 p = steps2 p ->
  forall pre post middle a b,
    (forall i, Permutation (pre i) (all_all W)) -> (forall i, Permutation (post i) (all_all W)) -> Permutation middle (all_all Wc) ->
    exists za zb, par_hybrid W Wc shape shapec p pre post middle (fun q => tabulate W (fun _ => 0%R)) a = Ok za /\
      par_hybrid W Wc shape shapec p pre post middle (fun q => tabulate W (fun _ => 0%R)) b = Ok zb /\
      par_dot W shape (dg_part p) za b = par_dot W shape (dg_part p) zb a.
Proof.
  intros GW GC RK CW CC DW DC PO EP MX P1 P2 P3 ES OW FC OR CO LS CA CX AS SS AC SC SG ST pre post middle a b PA PB PM.
  set (h := sequential W owner G PG (dg_smoother p) C fixed (steps1 p) (steps2 p)).
  assert (OV : forall (v : dvec R) q d, has_dof W q d -> smallest_ib W (fst d) q -> val (v q) d = val (v (owner d)) d).
  { intros v q d H Q. assert (I : In d all) by (apply DW; eauto). now rewrite (smallest_unique W (fst d) q (owner d) Q (OW d I)). }
  assert (ZC : consistent W (fun q => tabulate W (fun _ => 0%R)) (fun _ => 0%R)).
  { intros q d H. now rewrite (tabulate_val W _ q d H). }
  destruct (c137_refines W Wc only onlyc shape shapec all allc p porder o1 o2 o3 max_index owner G PG C fixed GW GC RK CW CC DW DC PO EP MX P1 P2 P3 ES OW FC OR CO LS CA CX
    pre post middle _ a _ (fun d => val (a (owner d)) d) PA PB PM ZC (OV a)) as (za & Ea & Fa).
  destruct (c137_refines W Wc only onlyc shape shapec all allc p porder o1 o2 o3 max_index owner G PG C fixed GW GC RK CW CC DW DC PO EP MX P1 P2 P3 ES OW FC OR CO LS CA CX
    pre post middle _ b _ (fun d => val (b (owner d)) d) PA PB PM ZC (OV b)) as (zb & Eb & Fb).
  fold h in Fa, Fb. exists za, zb. split; [exact Ea|split; [exact Eb|]].
  assert (DOT : forall z y Z, consistent W z Z -> par_dot W shape (dg_part p) z y = inner all Z (fun d => val (y (owner d)) d)).
  { intros z y Z HZ. rewrite (dot_owner W only porder (dg_part p) shape all GW PO EP CW DW). unfold inner. apply rsum_ext. intros d I.
    destruct (owner_spec W only porder (dg_part p) all GW PO EP DW d I) as (O1 & (O2 & _)).
    rewrite (smallest_unique W (fst d) _ (owner d) O1 (OW d I)) in *. now rewrite (HZ _ d O2). }
  rewrite (DOT za b _ Fa), (DOT zb a _ Fb).
  rewrite (proj1 (c135_symmetric all allc h S Cm AS AC ST SG SS SC) (fun d => val (a (owner d)) d) (fun d => val (b (owner d)) d)).
  unfold inner. apply rsum_ext. intros; lra.
Qed.
Print Assumptions c137_symmetric.

(** Two cells with overlap: both ranks store both, with constant DG functions and three vertices. Vertex 0 is on the
    Dirichlet boundary; rank 0 also constrains vertex 2, at the end of its overlap. *)
Definition w137 : world := World 2 (fun _ => [0; 1]) (fun q e => e =? q) (fun _ => 1).
Definition wc137 : world := World 2 (fun _ => [0; 1; 2]) (fun q e => (e =? 1) || (e =? 2 * q)) (fun _ => 1).
Definition shape137 (W : world) : nat -> blocks dof := fun q => Block (map (fun e => Field [(e, 0)]) (held W q)).
Definition owner137 (d : dof) : nat := fst d.
Definition ownerc137 (k : dof) : nat := if fst k =? 2 then 1 else 0.
Definition g137 (i j : dof) : R := if fst i =? fst j then 2%R else (-1)%R.
Definition pg137 (i k : dof) : R := if (fst k =? fst i) || (fst k =? S (fst i)) then (1 / 2)%R else 0%R.
Definition p137 (part : dvec nat) (sets : nat -> list (nat * nat * bool)) : ovlp_prec :=
  {| dg_matrix := fun q i j => if fst i =? q then g137 i j else if fst i =? fst j then 1%R else 0%R;
     dg_smoother := fun q _ d => tabulate w137 (fun i => val d i / 2)%R;
     dg_cc := fun q d => negb (fst d =? q);
     cg_amg := fun _ d q => tabulate wc137 (fun k => val (d (ownerc137 k)) k / 2)%R;
     cg_cc := fun q k => (fst k =? 0) || ((q =? 0) && (fst k =? 2));
     transfer := fun _ => pg137; dg_part := part; cg_sets := sets; steps1 := 1; steps2 := 1 |}.

Lemma has137 q d : has_dof w137 q d <-> q < 2 /\ (d = (0, 0) \/ d = (1, 0)).
Proof.
  destruct d as (e & k). unfold has_dof. cbn. split.
  - intros (Q & H & K). split; auto. destruct H as [<-|[<-|[]]]; [left|right]; f_equal; lia.
  - intros (Q & [X|X]); injection X as -> ->; auto.
Qed.
Lemma hasc137 q d : has_dof wc137 q d <-> q < 2 /\ (d = (0, 0) \/ d = (1, 0) \/ d = (2, 0)).
Proof.
  destruct d as (e & k). unfold has_dof. cbn. split.
  - intros (Q & H & K). split; auto. destruct H as [<-|[<-|[<-|[]]]]; [left|right; left|right; right]; f_equal; lia.
  - intros (Q & [X|[X|X]]); injection X as -> ->; cbn; auto 6.
Qed.
Lemma small137 d : d = (0, 0) \/ d = (1, 0) -> smallest_ib w137 (fst d) (owner137 d).
Proof.
  intros [-> | ->]; (split; [cbn; auto|]); intros r R _ B; cbn in *; [lia|]; destruct r as [|[|r]]; try discriminate; lia.
Qed.
Lemma smallc137 d : d = (0, 0) \/ d = (1, 0) \/ d = (2, 0) -> smallest_ib wc137 (fst d) (ownerc137 d).
Proof.
  intros [-> | [-> | ->]]; (split; [cbn; repeat split; auto 8|]); intros r R _ B; cbn in *; try lia.
  destruct r; [discriminate|lia].
Qed.

Example c137_case : exists part sets, rank_partition w137 (ib_all_messages w137 false) = Ok part /\
  amg_index_sets wc137 (fun q => flatten (shape137 wc137 q)) 9 (ib_all_messages wc137 false) (all_all_messages wc137 false) (ib_all_messages wc137 false) = Ok sets /\
  grid_ok w137 false /\ grid_ok wc137 false /\ containers w137 (shape137 w137) /\ containers wc137 (shape137 wc137) /\
  all_dofs w137 [(0, 0); (1, 0)] /\ all_dofs wc137 [(0, 0); (1, 0); (2, 0)] /\
  (forall l, NoDup l -> (forall x, In x l -> is_shared wc137 x) -> length l <= 9) /\
  foreign_constrained w137 (dg_cc (p137 part sets)) /\ own_rows w137 (dg_matrix (p137 part sets)) g137 /\
  cells_complete w137 wc137 (transfer (p137 part sets)) pg137 /\ local_smoother w137 (dg_smoother (p137 part sets)) /\
  collective wc137 (cg_amg (p137 part sets)) (fun D k => D k / 2)%R /\
  (forall q k, has_dof wc137 q k -> smallest_ib wc137 (fst k) q -> cg_cc (p137 part sets) q k = (fst k =? 0)).
Proof.
  assert (GW : grid_ok w137 false).
  { split; [|split; [|discriminate]].
    - intros q _. cbn. repeat constructor; cbn; intuition lia.
    - intros q e _ [<-|[<-|[]]]; [exists 0|exists 1]; cbn; auto. }
  assert (GC : grid_ok wc137 false).
  { split; [|split; [|discriminate]].
    - intros q _. cbn. repeat constructor; cbn; intuition lia.
    - intros q e _ [<-|[<-|[<-|[]]]]; [exists 0|exists 0|exists 1]; cbn; repeat split; auto 8. }
  assert (CW : containers w137 (shape137 w137)).
  { intros q Q. split; [cbn; repeat constructor; cbn; intuition congruence|]. intros d. rewrite has137. cbn. intuition. }
  assert (CC : containers wc137 (shape137 wc137)).
  { intros q Q. split; [cbn; repeat constructor; cbn; intuition congruence|]. intros d. rewrite hasc137. cbn. intuition. }
  assert (DC : all_dofs wc137 [(0, 0); (1, 0); (2, 0)]).
  { split; [repeat constructor; cbn; intuition congruence|]. intros d. split.
    - cbn. intros H. exists 0. apply hasc137. split; [lia|]. intuition.
    - intros (q & H). apply hasc137 in H. cbn. intuition. }
  assert (MX : forall l, NoDup l -> (forall x, In x l -> is_shared wc137 x) -> length l <= 9).
  { intros l N H. apply Nat.le_trans with (length [(0, 0); (1, 0); (2, 0)]); [|cbn; lia]. apply NoDup_incl_length; auto.
    intros x X. apply DC. destruct (H x X) as (q & _ & _ & Y & _). eauto. }
  destruct (partition_spec w137 false _ GW (Permutation_refl _)) as (part & EP & _).
  destruct (ParProofs3.amg_spec wc137 false (fun q => flatten (shape137 wc137 q)) 9 _ _ _ GC CC MX (Permutation_refl _) (Permutation_refl _) (Permutation_refl _)) as (sets & _ & ES & _).
  exists part, sets. split; [exact EP|split; [exact ES|]].
  split; [exact GW|split; [exact GC|split; [exact CW|split; [exact CC|split; [|split; [exact DC|split; [exact MX|]]]]]]].
  { split; [repeat constructor; cbn; intuition congruence|]. intros d. split.
    - cbn. intros H. exists 0. apply has137. split; [lia|]. intuition.
    - intros (q & H). apply has137 in H. cbn. intuition. }
  assert (OQ : forall q d, has_dof w137 q d -> (smallest_ib w137 (fst d) q <-> fst d = q)).
  { intros q d H. apply has137 in H as (Q & H). split; [|intros <-; now apply small137].
    intros S. symmetry. eapply smallest_unique; [exact S|]. now apply (small137 d). }
  split; [|split; [|split; [|split; [|split]]]].
  - intros q d H. rewrite OQ by auto. cbn. destruct (Nat.eqb_spec (fst d) q); cbn; intuition congruence.
  - intros q d H S. apply OQ in S; auto. split.
    + intros j _. cbn. now rewrite S, Nat.eqb_refl.
    + intros j (s & X) N. apply has137 in X. destruct N. apply has137. split; [apply has137 in H; tauto|tauto].
  - split; [reflexivity|]. intros q i k H (s & X) N. destruct N. apply hasc137. apply hasc137 in X. split; [apply has137 in H; tauto|tauto].
  - split; [intros; apply tabulate_length|]. intros q v v' d d' _ E x H. cbn [p137 dg_smoother]. rewrite !(tabulate_val w137 _ q x H). now rewrite E.
  - intros d D E1 E2 q k H. cbn [p137 cg_amg]. rewrite (tabulate_val wc137 _ q k H). apply hasc137 in H as (Q & H).
    rewrite E1; auto; [|now apply smallc137]. apply hasc137. split; auto. unfold ownerc137. destruct (fst k =? 2); lia.
  - intros q k H S. pose proof H as H'. apply hasc137 in H' as (Q & H'). assert (q = ownerc137 k) as -> by (eapply smallest_unique; [exact S|now apply smallc137]).
    destruct H' as [-> | [-> | ->]]; reflexivity.
Qed.
