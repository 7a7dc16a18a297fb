(** C62: which DOFs the construction of constraints constrains. *)
From Verif Require Import OrderingModel OrderingProofs CommonFacts DirModel DirSpec ConsSpec ConsProofs DirProofs DirProofs2.
Local Open Scope nat_scope.

(** C62: constraints(p, gfs, cg) succeeds and constrains exactly the DOFs the constraint classes and parameters ask for,
    all of them with Dirichlet constraints, whatever the container held before, in whatever order local maps are
    traversed. *)
Theorem c62_constrained : forall e G ci hash grid cells p t cg,
  proper_grid G grid -> (forall c, In c cells -> In c grid) -> fits p t ->
  (forall l, below_node t l -> proper_leaf G grid l /\ prepared G grid l) -> (forall cl, Permutation cl (hash cl)) ->
  exists cg', build e G ci hash cells p t cg = Ok cg' /\
    (forall g, constrained (entries cg') g <-> to_be_constrained e G ci grid cells p t g) /\
    only_dirichlet (entries cg') /\ nd cg' = false.
Proof.
  intros e G ci hash grid cells p t cg PG HC FT HL HP.
  destruct (assembled e G grid PG p t FT (fun l B => proj1 (HL l B)) (fun l B => proj2 (HL l B)) ci hash HP cells HC [] cleared cleared_merged)
    as (cg' & new & E & M & R & K). cbn [app] in M.
  exists cg'. split; [exact E|]. destruct (all_empty_dirichlet new cg' M R) as [A B]. split; [|split; [exact B|]].
  - intros g. rewrite A. apply K.
  - destruct (nd cg') eqn:ND; [|reflexivity]. destruct (mg_source _ _ M ND) as (g & r & I & NE). elim NE. eapply R, I.
Qed.
Print Assumptions c62_constrained.

(** C62: the order in which cells are visited does not matter. *)
Theorem c62_order : forall e G ci hash hash' grid cells cells' p t cg0 cg1 cg cg',
  proper_grid G grid -> (forall c, In c cells -> In c grid) -> fits p t ->
  (forall l, below_node t l -> proper_leaf G grid l /\ prepared G grid l) ->
  (forall cl, Permutation cl (hash cl)) -> (forall cl, Permutation cl (hash' cl)) -> Permutation cells cells' ->
  build e G ci hash cells p t cg0 = Ok cg -> build e G ci hash' cells' p t cg1 = Ok cg' ->
  forall g, constrained (entries cg) g <-> constrained (entries cg') g.
Proof.
  intros e G ci hash hash' grid cells cells' p t cg0 cg1 cg cg' PG HC FT HL HP HP' P E E' g.
  destruct (c62_constrained e G ci hash grid cells p t cg0 PG HC FT HL HP) as (x & EX & KX & _).
  destruct (c62_constrained e G ci hash' grid cells' p t cg1 PG
    (fun c I => HC c (Permutation_in c (Permutation_sym P) I)) FT HL HP') as (y & EY & KY & _).
  rewrite E in EX. injection EX as ->. rewrite E' in EY. injection EY as ->. rewrite KX, KY.
  unfold to_be_constrained. split; intros (c & q & l & d & I & R); exists c, q, l, d; (split; [|exact R]);
    [eapply Permutation_in; eassumption|eapply Permutation_in; [symmetry; eassumption|exact I]].
Qed.
Print Assumptions c62_order.

(** C62: constraints(gfs, cg) adds to what the container holds: everything constrained before stays constrained, and what
    is new is what the classes ask for. *)
Theorem c62_added : forall e G ci hash grid cells t os,
  proper_grid G grid -> (forall c, In c cells -> In c grid) ->
  (forall l, below_node t l -> proper_leaf G grid l /\ prepared G grid l) -> (forall cl, Permutation cl (hash cl)) ->
  exists cg', build_without_parameters e G ci hash cells t (after_history os) = Ok cg' /\
    forall g, constrained (entries cg') g <-> constrained (entries (after_history os)) g \/
      to_be_constrained e G ci grid cells (PLeaf (mkparam (fun _ _ => false) (fun _ _ => false))) t g.
Proof.
  intros e G ci hash grid cells t os PG HC HL HP.
  destruct (assembled e G grid PG _ t (fits_leaf (mkparam (fun _ _ => false) (fun _ _ => false)) t) (fun l B => proj1 (HL l B)) (fun l B => proj2 (HL l B)) ci hash HP cells HC _ _ (history_merged os))
    as (cg' & new & E & M & R & K).
  exists cg'. split; [exact E|]. intros g. rewrite <- K.
  assert (CK : forall cs tr, merged cs tr -> (constrained (entries tr) g <-> In g (keys cs))).
  { intros cs tr MM. unfold constrained. split.
    - intros I. destruct (rows_for g cs) as [|r rs] eqn:ER.
      + apply (mg_none _ _ MM) in ER. apply find_none in ER. contradiction.
      + assert (J : In r (rows_for g cs)) by (rewrite ER; left; reflexivity). unfold rows_for in J. apply in_map_iff in J.
        destruct J as ((g', r') & _ & J). apply filter_In in J. destruct J as [J EQ]. cbn [fst] in EQ. apply Nat.eqb_eq in EQ. subst g'.
        eapply in_keys, J.
    - intros I. apply keys_in in I. destruct I as (r & I). destruct (ConsModel.find g (entries tr)) as [r'|] eqn:EF.
      + eapply in_keys, find_in, EF.
      + apply (mg_none _ _ MM) in EF. assert (J : In r (rows_for g cs)); [|rewrite EF in J; destruct J].
        unfold rows_for. apply in_map_iff. exists (g, r). split; [reflexivity|]. apply filter_In. cbn [fst]. rewrite Nat.eqb_refl. tauto. }
  rewrite (CK _ _ M), (CK _ _ (history_merged os)). unfold keys. rewrite map_app, in_app_iff. reflexivity.
Qed.
Print Assumptions c62_added.

(** Two quadrilaterals side by side, Q1 twice and P0 once; the Dirichlet boundary for the first component is the left side;
    seen from a process for which the second cell is a ghost. *)
Definition square : ref := mkref (fun cd => nth cd [1; 4; 4] 0) (fun cd _ => nth cd [3; 1; 0] 0)
  (fun f cd => match cd with 1 => [f] | 2 => nth f [[0; 2]; [1; 3]; [0; 1]; [2; 3]] [] | _ => [] end).
Definition two_squares : geo := mkgeo 2 (fun _ => square) (fun _ f => fid f)
  (fun c i cd => match cd with 0 => c | 1 => nth i (nth c [[0; 1; 2; 3]; [1; 4; 5; 6]] []) 0 | _ => nth i (nth c [[0; 1; 3; 4]; [1; 2; 4; 5]] []) 0 end)
  (fun c => if c =? 0 then Interior else Ghost) 4 (fun cd => nth cd [[3]; [1]; [0]] []) (fun gt => nth gt [6; 7; 0; 2] 0).
Definition bface i := mkface i false true 0 false.
Definition left_cell := mkcell 0 [bface 0; mkface 1 true false 1 true; bface 2; bface 3].
Definition right_cell := mkcell 1 [mkface 0 true false 0 true; mkface 1 false false 0 false; bface 2; bface 3].
Definition q1_dofs (shift c : nat) : list ldof :=
  map (fun i => mkldof 2 i 0 (shift + nth i (nth c [[0; 1; 3; 4]; [1; 2; 4; 5]] []) 0)) (seq 0 4).
Definition p0_dofs (c : nat) : list ldof := [mkldof 0 0 0 (12 + c)].
Definition left_side : param := mkparam (fun c f => (c =? 0) && (fid f =? 0)) (fun _ _ => false).
Definition nowhere : param := mkparam (fun _ _ => false) (fun _ _ => true).
Definition ghost_flags : ghost_table := match compute_ghosts two_squares (fun cd => cd =? 2) [0; 1] with Ok g => g | _ => mkghosts [] [] end.
Definition three_components : stree :=
  SNode [SNode [SLeaf (mkleaf Overlapping (q1_dofs 0)); SLeaf (mkleaf (Nonoverlapping ghost_flags) (q1_dofs 6))]; SLeaf (mkleaf P0Ghosts p0_dofs)].
Definition three_params : ptree := PNode [PNode [PLeaf left_side; PLeaf nowhere]; PLeaf nowhere].
Definition two_cells := [left_cell; right_cell].
Definition everywhere := mkenv true (fun _ => false) (fun _ _ => false).
Lemma two_squares_proper : proper_grid two_squares two_cells.
Proof.
  split.
  - intros [|[|[|cd]]] gt I; cbn in I; [| | |destruct cd; destruct I]; destruct I as [<-|[]]; cbn; lia.
  - intros [|[|[|cd]]] [|[|[|cd']]] gt I I'; cbn in I, I'; try reflexivity; try (destruct cd; contradiction); try (destruct cd'; contradiction);
      destruct I as [<-|[]], I' as [E|[]]; discriminate E.
  - intros c [|[|[|cd]]] i IC H L; cbn in H; try lia; destruct IC as [<-|[<-|[]]]; cbn in L;
      do 4 (destruct i as [|i]; [cbn; split; [auto|lia]|]); lia.
  - intros c f [|[|[|cd]]] i IC IF H L; cbn in H; try lia; destruct IC as [<-|[<-|[]]]; cbn in IF;
      repeat (destruct IF as [<-|IF]; [cbn in L; cbn; repeat (destruct L as [<-|L]; [lia|]); destruct L|]); destruct IF.
Qed.
Lemma three_leaves l : below_node three_components l -> proper_leaf two_squares two_cells l /\ prepared two_squares two_cells l.
Proof.
  intros B. apply leaves_below in B. cbn in B.
  assert (Q : forall k s, proper_leaf two_squares two_cells (mkleaf k (q1_dofs s))).
  { intros k s c d IC I. destruct IC as [<-|[<-|[]]]; cbn in I; repeat (destruct I as [<-|I]; [cbn; lia|]); destruct I. }
  destruct B as [<-|[<-|[<-|[]]]]; split; try apply Q; try exact Logic.I.
  - exists (fun cd => cd =? 2). split; [reflexivity|]. intros c d IC I.
    destruct IC as [<-|[<-|[]]]; cbn in I; repeat (destruct I as [<-|I]; [reflexivity|]); destruct I.
  - intros c d IC I. destruct IC as [<-|[<-|[]]]; cbn in I; destruct I as [<-|[]]; cbn; lia.
Qed.
Example c62_meets : proper_grid two_squares two_cells /\ fits three_params three_components /\
  (forall l, below_node three_components l -> proper_leaf two_squares two_cells l /\ prepared two_squares two_cells l) /\
  build everywhere two_squares (fun i => i) (@rev _) two_cells three_params three_components (mktr [(7, [])] false)
    = Ok (mktr [(3, []); (0, []); (5, []); (2, []); (13, []); (11, []); (8, [])] false).
Proof.
  split; [exact two_squares_proper|]. split; [repeat constructor|]. split; [exact three_leaves|]. reflexivity.
Qed.
(** Raviart-Thomas spaces and interior nodes. *)
Definition rt0_dofs (c : nat) : list ldof := map (fun i => mkldof 1 i 0 (nth i (nth c [[0; 1; 2; 3]; [1; 4; 5; 6]] []) 0)) (seq 0 4).
Definition inner_nodes : list bool := match interior_nodes two_squares 6 two_cells with Ok l => l | _ => [] end.
Definition rt_and_nodes : stree := SNode [SLeaf (mkleaf RT0 rt0_dofs); SLeaf (mkleaf (InteriorNodes inner_nodes) (q1_dofs 7))].
Example c62_meets_rt : (forall l, below_node rt_and_nodes l -> proper_leaf two_squares two_cells l /\ prepared two_squares two_cells l) /\
  build everywhere two_squares (fun i => i) (fun l => l) [left_cell] (PLeaf nowhere) rt_and_nodes cleared
    = Ok (mktr [(0, []); (2, []); (3, [])] false).
Proof.
  split; [|reflexivity]. intros l B. apply leaves_below in B. cbn in B. destruct B as [<-|[<-|[]]]; split.
  - intros c d IC I. destruct IC as [<-|[<-|[]]]; cbn in I; repeat (destruct I as [<-|I]; [cbn; lia|]); destruct I.
  - intros c f IC IF _. destruct IC as [<-|[<-|[]]]; cbn in IF; repeat (destruct IF as [<-|IF]; [cbn; lia|]); destruct IF.
  - intros c d IC I. destruct IC as [<-|[<-|[]]]; cbn in I; repeat (destruct I as [<-|I]; [cbn; lia|]); destruct I.
  - exists 6. split; [reflexivity|]. split.
    + intros c i IC L. destruct IC as [<-|[<-|[]]]; cbn in L; do 4 (destruct i as [|i]; [cbn; lia|]); lia.
    + intros c d IC I. destruct IC as [<-|[<-|[]]]; cbn in I; repeat (destruct I as [<-|I]; [cbn; auto|]); destruct I.
Qed.

(** C62 fails for constraints(gfs, cg) on a container that was used before: it is not cleared, so DOFs of an earlier call stay
    constrained although nothing asks for it. *)
Theorem c62_not_cleared_refuted : exists e G ci hash cells t os cg', proper_grid G cells /\
  (forall l, below_node t l -> proper_leaf G cells l /\ prepared G cells l) /\ (forall cl, Permutation cl (hash cl)) /\
  build_without_parameters e G ci hash cells t (after_history os) = Ok cg' /\
  exists g, constrained (entries cg') g /\
    ~ to_be_constrained e G ci cells cells (PLeaf (mkparam (fun _ _ => false) (fun _ _ => false))) t g.
Proof.
  exists everywhere, two_squares, (fun i => i), (fun l => l), two_cells, (SLeaf (mkleaf Unconstrained (q1_dofs 0))),
    [Import (fun i => i) [(2, [])]], (mktr [(2, [])] false).
  split; [exact two_squares_proper|]. split.
  { intros l B. apply leaves_below in B. destruct B as [<-|[]]. split; [|exact Logic.I].
    intros c d IC I. destruct IC as [<-|[<-|[]]]; cbn in I; repeat (destruct I as [<-|I]; [cbn; lia|]); destruct I. }
  split; [intros cl; apply Permutation_refl|]. split; [reflexivity|]. exists 2. split; [cbn; auto|].
  intros (c & q & l & d & _ & GV & _ & F & _). apply governs_below in GV. inversion GV; subst. exact F.
Qed.
Print Assumptions c62_not_cleared_refuted.
(** C62 needs the precomputed tables: constraints for nonoverlapping grids built before compute_ghosts was called read
    beyond an empty table. *)
Theorem c62_unprepared_refuted : exists e G ci hash cells p t cg, proper_grid G cells /\ fits p t /\
  (forall l, below_node t l -> proper_leaf G cells l) /\ (forall cl, Permutation cl (hash cl)) /\
  build e G ci hash cells p t cg = UB.
Proof.
  exists everywhere, two_squares, (fun i => i), (fun l => l), two_cells, (PLeaf nowhere),
    (SLeaf (mkleaf (Nonoverlapping (mkghosts (repeat 0 5) [])) (q1_dofs 0))), cleared.
  split; [exact two_squares_proper|]. split; [constructor|]. split.
  { intros l B. apply leaves_below in B. destruct B as [<-|[]].
    intros c d IC I. destruct IC as [<-|[<-|[]]]; cbn in I; repeat (destruct I as [<-|I]; [cbn; lia|]); destruct I. }
  split; [intros cl; apply Permutation_refl|]. reflexivity.
Qed.
Print Assumptions c62_unprepared_refuted.
