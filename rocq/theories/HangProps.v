(** C63: hanging nodes. *)
From Coq Require Import Lra.
From Verif Require Import OrderingModel OrderingProofs CommonFacts ConsSpec ConsProofs HangModel HangSpec HangProofs DirProps.
Local Open Scope nat_scope.

(** C63: on sequential grids of nested refinement the manager finds exactly the hanging nodes, whatever the order of cells and
    faces. *)
Theorem c63_detected : forall H dir cells, refined H cells -> exists t, analyze H dir cells = Ok t /\
  forall c i, In c cells -> i < rsize (refel (hg H) (cid c)) (dim (hg H)) ->
    exists b, nth_error (hanging_nodes H t (cid c)) i = Some b /\
      (b = true <-> hangs H cells (sub_index (hg H) (cid c) i (dim (hg H)))).
Proof.
  intros H dir cells R. destruct (analyze_ok H dir cells R) as (t & E & M). exists t. split; [exact E|].
  intros c i I L. exists (is_hanging (t (sub_index (hg H) (cid c) i (dim (hg H))))). split.
  - unfold hanging_nodes, cell_vertices. rewrite map_map. rewrite nth_error_map_seq by exact L. reflexivity.
  - apply hanging_detected; assumption.
Qed.
Print Assumptions c63_detected.

(** C63: when adaptToIsolatedHangingNodes returns (for cells that are not simplices), the levels of cells that share a vertex
    differ at most by one. *)
Theorem c63_isolated : forall dir refine H cells t H' cells' t',
  analyze H dir cells = Ok t -> isolates dir refine (H, cells) t (H', cells') t' -> refined H' cells' ->
  forall c c' v, In c cells' -> In c' cells' -> has_vertex H' (cid c) v -> has_vertex H' (cid c') v ->
    level H' (cid c') <= S (level H' (cid c)).
Proof.
  intros dir refine H cells t H' cells' t' E I.
  remember (H, cells) as g eqn:EG. remember (H', cells') as g' eqn:EG'. revert H cells E EG.
  induction I as [H0 cells0 t0 N|H0 cells0 t0 H1 cells1 t1 g2 t2 Y RF A I IH]; intros H cells E EG R c c' v Ic Ic' V V'.
  - injection EG' as -> ->. injection EG as -> ->.
    assert (M : tab (levels_of H cells) (touching H cells) t0).
    { apply (analyze_table H dir cells t0); [|exact E]. intros a f J K. split; [eapply (rf_faces _ _ R); eassumption|].
      intros. eapply (rf_levels _ _ R); eassumption. }
    assert (T : to_refine H t0 c = false).
    { destruct (to_refine H t0 c) eqn:TR; [|reflexivity]. exfalso.
      assert (existsb (to_refine H t0) cells = true) by (apply existsb_exists; eauto). congruence. }
    assert (B : level H (cid c') <= maximum_level (t0 v)) by (apply (tb_max _ _ _ M v); exists c'; auto).
    assert (D : (1 <? maximum_level (t0 v) - level H (cid c)) = false).
    { destruct (1 <? maximum_level (t0 v) - level H (cid c)) eqn:Q; [|reflexivity]. exfalso.
      assert (to_refine H t0 c = true); [|congruence]. apply existsb_exists. exists v. split; [apply in_cell_vertices, V|exact Q]. }
    apply Nat.ltb_ge in D. lia.
  - injection EG as -> ->. eapply IH; try eassumption; reflexivity.
Qed.
Print Assumptions c63_isolated.

(** C63: the assemblers, called with the dimension of the grid: in two dimensions a hanging node on an edge receives half of
    the value of the other end. *)
Theorem c63_edge : forall s H t dof c fc i j tr,
  dim (hg H) = 2 -> rsize (refel (hg H) c) 2 = (match s with Cubes => 4 | Simplices => 3 end) ->
  closure (refel (hg H) c) fc 2 = [i; j] -> i < rsize (refel (hg H) c) 2 -> j < rsize (refel (hg H) c) 2 ->
  (is_hanging (t (vertex H c i)) = true -> is_hanging (t (vertex H c j)) = false ->
   run s 2 H t dof c fc tr = Ok (put (dof (vertex H c i)) [(dof (vertex H c j), (/ 2)%R)] tr)) /\
  (is_hanging (t (vertex H c i)) = false -> is_hanging (t (vertex H c j)) = true ->
   run s 2 H t dof c fc tr = Ok (put (dof (vertex H c j)) [(dof (vertex H c i), (/ 2)%R)] tr)).
Proof.
  intros s H t dof c fc i j tr D S C Li Lj.
  assert (ST : forall k, k < rsize (refel (hg H) c) 2 -> at_ (hanging_nodes H t c) k = Ok (is_hanging (t (vertex H c k)))).
  { intros k L. apply at_ok. unfold hanging_nodes, cell_vertices. rewrite map_map, D. rewrite nth_error_map_seq by exact L. reflexivity. }
  assert (LS : length (hanging_nodes H t c) = match s with Cubes => 4 | Simplices => 3 end).
  { unfold hanging_nodes, cell_vertices. rewrite !map_length, seq_length, D. exact S. }
  pose proof (ST i Li) as Si. pose proof (ST j Lj) as Sj.
  assert (Vi : sub_index (hg H) c i 2 = vertex H c i) by (unfold vertex; rewrite D; reflexivity).
  assert (Vj : sub_index (hg H) c j 2 = vertex H c j) by (unfold vertex; rewrite D; reflexivity).
  assert (F0 : forall st, hang st [i; j] 0 = at_ st i) by reflexivity.
  assert (F1 : forall st, hang st [i; j] 1 = at_ st j) by reflexivity.
  unfold run. rewrite C. cbn [map]. rewrite Vi, Vj.
  split; intros Hi Hj; rewrite Hi in Si; rewrite Hj in Sj; destruct s; cbn [assembler]; unfold cube_assembler, simplex_assembler;
    cbn [length seq foldM]; unfold flat_2; rewrite LS; cbn [Nat.eqb negb]; rewrite ?F0, ?F1, Si, ?Sj; cbn [bind negb Nat.ltb Nat.leb Nat.sub];
    rewrite ?F0, ?F1, ?Si, ?Sj; cbn; reflexivity.
Qed.
Print Assumptions c63_edge.

(** A coarse cell (level 0) on the left, two fine cells (level 1) on the right; vertex 5 hangs. *)
Definition hquad (c : nat) : list nat := nth c [[0; 1; 2; 3]; [1; 4; 5; 6]; [5; 6; 3; 7]] [].
Definition hang_geo : hgeo := mkhgeo
  (mkgeo 2 (fun _ => square) (fun _ f => fid f) (fun c i cd => match cd with 2 => nth i (hquad c) 0 | _ => 0 end) (fun _ => Interior) 4
     (fun cd => nth cd [[3]; [1]; [0]] []) (fun gt => nth gt [8; 10; 0; 3] 0))
  (fun c f => nth (fid f) [1; 0; 3; 2] 0) (fun c => match c with 0 => 0 | _ => 1 end)
  (fun c f => negb ((c =? 0) || (outside f =? 0))).
Definition iface i o := mkface i true false o true.
Definition hang_cells : list cell :=
  [mkcell 0 [bface 0; iface 1 1; iface 1 2; bface 2; bface 3];
   mkcell 1 [iface 0 0; bface 1; bface 2; iface 3 2];
   mkcell 2 [iface 0 0; bface 1; iface 2 1; bface 3]].
Lemma hang_refined : refined hang_geo hang_cells.
Proof.
  split.
  - intros c f [<-|[<-|[<-|[]]]] I; cbn in I; repeat (destruct I as [<-|I]; [cbn; tauto|]); destruct I.
  - intros c f [<-|[<-|[<-|[]]]] I; cbn in I; repeat (destruct I as [<-|I]; [cbn; congruence|]); destruct I.
  - intros c f v [<-|[<-|[<-|[]]]] I (i & J & ->); cbn in I;
      repeat (destruct I as [<-|I]; [cbn in J; repeat (destruct J as [<-|J]; [eexists; split; [|reflexivity]; cbn; lia|]); destruct J|]); destruct I.
  - intros c f [<-|[<-|[<-|[]]]] I N; cbn in I;
      repeat (destruct I as [<-|I]; [try discriminate N; cbn [outside iface];
        first [exists (nth 0 hang_cells left_cell); split; [cbn; tauto|reflexivity]
              |exists (nth 1 hang_cells left_cell); split; [cbn; tauto|reflexivity]
              |exists (nth 2 hang_cells left_cell); split; [cbn; tauto|reflexivity]]|]); destruct I.
  - exists (fun v => nth v [0; 0; 0; 0; 1; 1; 1; 1] 0). split.
    + intros c v [<-|[<-|[<-|[]]]] (i & L & ->); cbn in L; do 4 (destruct i as [|i]; [cbn; lia|]); lia.
    + intros c f v [<-|[<-|[<-|[]]]] I (N1 & N2 & N3 & N4) (i & J & ->) NV; cbn in I;
      repeat (destruct I as [<-|I]; [try discriminate N1; try discriminate N2; try discriminate N3; try (cbn in N4; lia);
        cbn in J; repeat (destruct J as [<-|J]; [cbn; try lia; elim NV; solve [exists 1; cbn; split; [lia|reflexivity]|exists 3; cbn; split; [lia|reflexivity]]|]); destruct J|]); destruct I.
Qed.
Definition hang_table : table := match analyze hang_geo (fun _ _ _ => true) hang_cells with Ok t => t | _ => fun _ => fresh_node end.
Example c63_meets : refined hang_geo hang_cells /\ hangs hang_geo hang_cells 5 /\
  isolates (fun _ _ _ => true) (fun g _ => g) (hang_geo, hang_cells) hang_table (hang_geo, hang_cells) hang_table /\
  skeleton_with 2 Cubes hang_geo hang_table (fun v => v) 1 (iface 0 0) ([], []) = Ok ([(5, [(1, (/ 2)%R)])], []).
Proof.
  split; [exact hang_refined|]. split.
  - exists (nth 1 hang_cells left_cell), (iface 0 0). split; [cbn; tauto|]. split; [cbn; tauto|]. split; [repeat split; cbn; lia|]. split.
    + exists 2. cbn. auto.
    + intros (i & L & E). cbn in L, E. do 4 (destruct i as [|i]; [discriminate E|]). lia.
  - split; [apply isolated; reflexivity|]. reflexivity.
Qed.

(** An assembler for the other shape refuses the cell. *)
Theorem c63_wrong_shape : forall s d H t dof c fc tr, d = 2 \/ d = 3 -> closure (refel (hg H) c) fc d <> [] ->
  rsize (refel (hg H) c) (dim (hg H)) <>
    match s, d with Cubes, 2 => 4 | Cubes, _ => 8 | Simplices, 2 => 3 | Simplices, _ => 4 end ->
  run s d H t dof c fc tr = Throw.
Proof.
  intros s d H t dof c fc tr D N S. unfold run. destruct (closure (refel (hg H) c) fc d) as [|m ms]; [congruence|].
  assert (LS : length (hanging_nodes H t c) = rsize (refel (hg H) c) (dim (hg H))).
  { unfold hanging_nodes, cell_vertices. now rewrite !map_length, seq_length. }
  destruct D as [-> | ->], s; cbn [assembler]; unfold cube_assembler, simplex_assembler; cbn [length seq foldM];
    unfold flat_2, cube_3, simplex_3; rewrite LS; apply Nat.eqb_neq in S; rewrite S; reflexivity.
Qed.
Print Assumptions c63_wrong_shape.
Example c63_wrong_shape_meets : forall t dof tr, run Simplices 2 hang_geo t dof 0 0 tr = Throw.
Proof. intros. apply c63_wrong_shape; [auto|discriminate|discriminate]. Qed.

(** C63 fails: the assemblers are called with the dimension of the intersection instead of that of the grid, so in two
    dimensions no hanging node is ever constrained, for any grid. *)
Theorem c63_plane_unchanged : forall s H t dof c f st, dim (hg H) = 2 -> skeleton s H t dof c f st = Ok st.
Proof.
  intros s H t dof c f [a b] D. unfold skeleton, skeleton_with, mydimension. rewrite D. cbn [Nat.sub].
  assert (R : forall c fc tr, run s 1 H t dof c fc tr = Ok tr).
  { intros c0 fc tr. unfold run. destruct s; cbn [assembler]; unfold cube_assembler, simplex_assembler;
      generalize (seq 0 (length (closure (refel (hg H) c0) fc 1))); intros l; induction l as [|j l IH]; cbn [foldM bind]; auto. }
  rewrite !R. cbn [bind fst snd].
  destruct (face_hangs H t c (inside_face (hg H) c f)), (face_hangs H t (outside f) (outside_face H c f)); reflexivity.
Qed.
Print Assumptions c63_plane_unchanged.
(** C63 fails: a hanging node that is left unconstrained on a two-dimensional grid. *)
Theorem c63_plane_refuted : exists s H dir cells t ci e q ds cg v, refined H cells /\ analyze H dir cells = Ok t /\
  hangs H cells v /\ hang_build s H t (fun v => v) ci e q ds cells = Ok cg /\ ~ constrained (entries cg) (ci v).
Proof.
  exists Cubes, hang_geo, (fun _ _ _ => true), hang_cells, hang_table, (fun i => i), everywhere, nowhere,
    (fun c => map (fun i => mkldof 2 i 0 (nth i (hquad c) 0)) (seq 0 4)), cleared, 5.
  split; [exact hang_refined|]. split; [reflexivity|]. split; [apply c63_meets|]. split; [reflexivity|]. intros [].
Qed.
Print Assumptions c63_plane_refuted.
(** C63 fails: in three dimensions, for the same reason, every face with hanging nodes on exactly one side violates an
    assertion, for any grid of cubes or simplices. *)
Theorem c63_space_abort : forall s H t dof c f st, dim (hg H) = 3 ->
  (forall c, rsize (refel (hg H) c) 3 = match s with Cubes => 8 | Simplices => 4 end) ->
  (forall c fc, closure (refel (hg H) c) fc 2 <> []) ->
  face_hangs H t c (inside_face (hg H) c f) <> face_hangs H t (outside f) (outside_face H c f) ->
  skeleton s H t dof c f st = Throw.
Proof.
  intros s H t dof c f [a b] D S N X. unfold skeleton, skeleton_with, mydimension. rewrite D. cbn [Nat.sub].
  assert (R : forall c fc tr, run s 2 H t dof c fc tr = Throw).
  { intros c0 fc tr. unfold run. specialize (N c0 fc). destruct (closure (refel (hg H) c0) fc 2) as [|m ms]; [congruence|].
    assert (LS : length (hanging_nodes H t c0) = match s with Cubes => 8 | Simplices => 4 end).
    { unfold hanging_nodes, cell_vertices. rewrite !map_length, seq_length, D. apply S. }
    destruct s; cbn [assembler]; unfold cube_assembler, simplex_assembler; cbn [length seq foldM]; unfold flat_2; rewrite LS; reflexivity. }
  rewrite !R. cbn [bind].
  destruct (face_hangs H t c (inside_face (hg H) c f)), (face_hangs H t (outside f) (outside_face H c f)); try reflexivity; elim X; reflexivity.
Qed.
Print Assumptions c63_space_abort.
(** A table where vertex 1 hangs, on face 0 of cell 1 (with vertices 0 to 3 out of 8, edges 0 to 3) but not on that of cell 0. *)
Definition cube_ref : ref := mkref (fun cd => nth cd [1; 6; 12; 8] 0) (fun cd _ => cd) (fun _ _ => [0; 1; 2; 3]).
Definition space_geo : hgeo := mkhgeo
  (mkgeo 3 (fun _ => cube_ref) (fun _ f => fid f) (fun c i _ => nth i (nth c [[0; 4; 5; 6]; [0; 1; 2; 3]] []) 0) (fun _ => Interior) 8 (fun _ => []) (fun _ => 0))
  (fun _ _ => 1) (fun c => c) (fun _ _ => false).
Definition space_table : table := fun v => if v =? 1 then mknode (Some 1) 1 (Some 0) false else fresh_node.
Example c63_meets_space : dim (hg space_geo) = 3 /\ (forall c, rsize (refel (hg space_geo) c) 3 = 8) /\
  (forall c fc, closure (refel (hg space_geo) c) fc 2 <> []) /\
  face_hangs space_geo space_table 1 0 <> face_hangs space_geo space_table 0 1.
Proof. split; [reflexivity|]. split; [reflexivity|]. split; [discriminate|]. vm_compute. discriminate. Qed.
(** C63 fails on distributed grids: outside() is asked of intersections without neighbor. *)
Theorem c63_processor_refuted : exists H dir cells, analyze H dir cells = UB.
Proof. exists hang_geo, (fun _ _ _ => true), [mkcell 0 [mkface 0 false false 0 false]]. reflexivity. Qed.
Print Assumptions c63_processor_refuted.
(** Whether the manager reports a node as Dirichlet boundary node depends on the order of faces where Dirichlet and other
    boundaries meet. *)
Theorem c63_boundary_flag_refuted : exists H dir c c' t t' v, Permutation (faces c) (faces c') /\ cid c = cid c' /\
  analyze H dir [c] = Ok t /\ analyze H dir [c'] = Ok t' /\ node_dirichlet (t v) <> node_dirichlet (t' v).
Proof.
  set (dir := fun (_ : nat) f (_ : nat) => fid f =? 0).
  exists hang_geo, dir, (mkcell 0 [bface 0; bface 2]), (mkcell 0 [bface 2; bface 0]),
    (match analyze hang_geo dir [mkcell 0 [bface 0; bface 2]] with Ok t => t | _ => fun _ => fresh_node end),
    (match analyze hang_geo dir [mkcell 0 [bface 2; bface 0]] with Ok t => t | _ => fun _ => fresh_node end), 0.
  split; [apply perm_swap|]. repeat split; try reflexivity. vm_compute. discriminate.
Qed.
Print Assumptions c63_boundary_flag_refuted.
