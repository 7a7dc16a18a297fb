(** C147-C150: finite element maps. *)
From Verif Require Import Common CommonFacts FemModel FemSpec FemProofs FemProofs2.

(** ** C147: the sizes a finite element map announces are those of its elements *)

(** Pk on simplices, for every order for which maxLocalSize() does not overflow. *)
Theorem c147_pk k :
  ((N.of_nat k + 1 < 2 ^ 32)%N -> describes Simplex 1 (pk1 (N.of_nat k)) (length (monomials 1 k))) /\
  ((N.of_nat ((k + 1) * (k + 2)) < 2 ^ 32)%N -> describes Simplex 2 (pk2 (N.of_nat k)) (length (monomials 2 k))) /\
  ((N.of_nat ((k + 1) * (k + 2) * (k + 3)) < 2 ^ 32)%N -> describes Simplex 3 (pk3 (N.of_nat k)) (length (monomials 3 k))) /\
  describes Simplex 1 (pk1d (N.of_nat k)) (length (monomials 1 k)).
Proof. split; [apply describes_pk1|]. split; [apply describes_pk2|]. split; [apply describes_pk3|apply describes_pk1d]. Qed.
Print Assumptions c147_pk.

(** Q1 and Q2 on cubes of every dimension. *)
Theorem c147_qk d : describes Cube d (qk (N.of_nat d) 1) (length (tensor d 1)) /\ describes Cube d (qk (N.of_nat d) 2) (length (tensor d 2)).
Proof. split; [apply describes_q1|apply describes_q2]. Qed.
Print Assumptions c147_qk.

(** Discontinuous elements, Raviart-Thomas and Brezzi-Douglas-Marini elements (with the dimensions of these
    spaces in terms of their order) and edge elements. *)
Theorem c147_others :
  (forall sh d n, 0 < n -> describes sh d (in_cells (N.of_nat d) (type_of sh d) (N.of_nat n)) n) /\
  (describes Cube 2 rt0_cube2 (2 * (0 + 1) * (0 + 2)) /\ describes Cube 2 rt1_cube2 (2 * (1 + 1) * (1 + 2)) /\ describes Cube 2 rt2_cube2 (2 * (2 + 1) * (2 + 2))) /\
  (describes Simplex 2 rt0_simplex2 ((0 + 1) * (0 + 3)) /\ describes Simplex 2 rt1_simplex2 ((1 + 1) * (1 + 3))) /\
  (describes Cube 3 rt0_cube3 (3 * (0 + 1) ^ 2 * (0 + 2)) /\ describes Cube 3 rt1_cube3 (3 * (1 + 1) ^ 2 * (1 + 2)) /\ describes Simplex 3 rt0_simplex3 4) /\
  (describes Simplex 2 (bdm1 6) (2 * length (monomials 2 1)) /\ describes Cube 2 (bdm1 8) (2 * length (monomials 2 1) + 2)) /\
  (describes Simplex 2 (edge05 2) (binom 3 2) /\ describes Simplex 3 (edge05 3) (binom 4 2)) /\ describes Cube 2 (rannacher_turek 2) (2 * 2).
Proof.
  split; [exact describes_in_cells|].
  repeat split; try reflexivity; try (vm_compute; congruence); intros;
    repeat match goal with H : ?c <= _ |- _ => destruct c as [|c]; [clear H|apply le_S_n in H || lia] end; try lia;
    vm_compute in *; try congruence; try reflexivity.
Qed.
Print Assumptions c147_others.

(** Power finite element maps. *)
Theorem c147_power sh d m n p : 0 < p -> describes sh d m n -> describes sh d (power (N.of_nat p) m) (p * n).
Proof. apply describes_power. Qed.
Print Assumptions c147_power.

Example c147_example : describes Simplex 3 (pk3 5) 56 /\ describes Cube 3 (power 2 (qk 3 2)) 54.
Proof.
  split.
  - destruct (c147_pk 5) as (_ & _ & H & _). apply H. vm_compute. reflexivity.
  - apply (c147_power Cube 3 (qk 3 2) 27 2); [lia|]. apply (c147_qk 3).
Qed.

(** PkQk maps: the order is the requested one or the constructor throws; cubes and simplices get an element, and
    hasDOFs() covers every face that carries nodes. *)
Theorem c147_pkqk maxP order d gt :
  (pkqk_init maxP order = if (order <=? N.of_nat maxP)%N then Some order else None) /\
  (forall e, e <= d -> 1 <= d -> inner_tensor d (N.to_nat order) e + inner_simplex d (N.to_nat order) e > 0 ->
     pkqk_has (N.of_nat d) order (N.of_nat (d - e)) = true) /\
  (pkqk_find order gt = Throw <-> is_cube gt = false /\ is_simplex gt = false).
Proof.
  split; [|split].
  - induction maxP as [|p IH]; cbn [pkqk_init].
    + destruct (N.eqb_spec order (N.of_nat 0)); destruct (N.leb_spec order (N.of_nat 0)); try lia; reflexivity.
    + rewrite IH. destruct (N.eqb_spec order (N.of_nat (S p))); destruct (N.leb_spec order (N.of_nat p)); destruct (N.leb_spec order (N.of_nat (S p))); try lia; reflexivity.
  - intros e He Hd H. unfold pkqk_has. unfold inner_tensor, inner_simplex in H. destruct (Nat.eqb_spec (N.to_nat order) 0) as [Z|Z].
    + assert (order = 0%N) as -> by lia. destruct (Nat.eqb_spec e d) as [->|Hn]; [|cbn in H; lia]. rewrite Nat.sub_diag. reflexivity.
    + destruct (N.eqb_spec (N.of_nat (d - e)) 0) as [E|E].
      * assert (e = d) by lia. subst e. destruct (N.eqb_spec order 0); [lia|]. cbn. apply N.ltb_lt. destruct (N.eq_dec order 1) as [->|]; [|lia].
        change (N.to_nat 1) with 1 in H. cbn [Nat.sub] in H. rewrite Nat.pow_0_l in H by lia. destruct (Nat.ltb_spec d 1); lia.
      * destruct (N.eqb_spec (N.of_nat (d - e)) (N.of_nat d)) as [E'|E']; [apply N.ltb_lt; lia|]. apply N.ltb_lt. destruct (N.eq_dec order 1) as [->|]; [|lia].
        change (N.to_nat 1) with 1 in H. cbn [Nat.sub] in H. rewrite Nat.pow_0_l in H by lia. destruct (Nat.ltb_spec e 1); lia.
  - unfold pkqk_find. destruct (is_cube gt); destruct (is_simplex gt); split; intros; try discriminate; try tauto; destruct H; discriminate.
Qed.
Print Assumptions c147_pkqk.
Example c147_pkqk_example : pkqk_init 6 3 = Some 3%N /\ pkqk_init 2 3 = None /\ inner_tensor 2 3 1 = 2 /\ pkqk_find 3 (cube 2) = Ok (QkElement 3).
Proof. vm_compute. repeat split; reflexivity. Qed.

(** Their maxLocalSize() is 2^d: no upper bound as soon as the order is 2 or more. *)
Theorem c147_pkqk_max_refuted d order : 1 <= d -> ((N.of_nat (length (tensor d order)) <= pkqk_max (N.of_nat d))%N <-> order <= 1).
Proof.
  intros Hd. rewrite count_tensor. unfold pkqk_max. replace (2 ^ N.of_nat d)%N with (N.of_nat (2 ^ d)) by (rewrite Nat2N.inj_pow; reflexivity).
  split; intros H.
  - destruct (Nat.le_gt_cases order 1) as [L|L]; [exact L|]. exfalso. assert (2 ^ d < (order + 1) ^ d) by (apply Nat.pow_lt_mono_l; lia). lia.
  - assert ((order + 1) ^ d <= 2 ^ d) by (apply Nat.pow_le_mono_l; lia). lia.
Qed.
Print Assumptions c147_pkqk_max_refuted.

(** Rannacher-Turek elements in three dimensions have 6 shape functions, one per face.  The map attaches
    dofs to the edges instead: a cell collects 12, hasDOFs() names a codimension without dofs, and
    maxLocalSize() is 4. *)
Theorem c147_rannacher_turek_refuted :
  collected Cube 3 (rannacher_turek 3) <> N.of_nat (2 * 3) /\ (fm_max (rannacher_turek 3) < N.of_nat (2 * 3))%N /\
  fm_has (rannacher_turek 3) 1 = true /\ fm_size (rannacher_turek 3) (type_of Cube 2) = 0%N.
Proof. vm_compute. repeat split; congruence. Qed.
Print Assumptions c147_rannacher_turek_refuted.

(** The block size of a map: positive iff some entity carries dofs and all that do carry the same number. *)
Theorem c147_block_size dim size :
  ((0 < block_size dim size)%N ->
     forall id d, (id < 2 ^ N.of_nat d)%N -> d <= dim -> size (mkgt false id (N.of_nat d)) = 0%N \/ size (mkgt false id (N.of_nat d)) = block_size dim size) /\
  ((0 < block_size dim size)%N -> exists gt, size gt = block_size dim size) /\
  (block_size dim size = 0%N ->
     (forall id d, (id < 2 ^ N.of_nat d)%N -> d <= dim -> size (mkgt false id (N.of_nat d)) = 0%N) \/
     exists g g', (0 < size g)%N /\ (0 < size g')%N /\ size g <> size g').
Proof.
  unfold block_size. pose proof (block_visit_spec size (block_types dim)) as U. destruct (fold_left _ _ _) as [s|].
  - destruct U as [[-> Z]|(P & (g & _ & G) & U)].
    + split; [lia|]. split; [lia|]. intros _. left. intros id d Hi Hd. apply Z, block_types_all; assumption.
    + split; [intros _ id d Hi Hd; apply U, block_types_all; assumption|]. split; [intros _; exists g; exact G|]. lia.
  - split; [lia|]. split; [lia|]. intros _. right. destruct U as (g & g' & _ & _ & H1 & H2 & H3). exists g, g'. auto.
Qed.
Print Assumptions c147_block_size.
Example c147_block_size_example : block_size 2 (fm_size (pk2 1)) = 1%N /\ block_size 2 (fm_size (pk2 3)) = 0%N /\ block_size 2 (fm_size (bdm1 8)) = 2%N /\ block_size 3 (fm_size rt1_cube3) = 0%N.
Proof. vm_compute. repeat split; reflexivity. Qed.

(** ** C148: Pk elements of neighbouring cells fit together *)

(** The element returned for a cell is the one whose vertex map sorts the vertices of the cell by their index,
    for every numbering of the grid. *)
Theorem c148_vertex_map :
  (forall n0 n1 n2, NoDup [n0; n1; n2] -> pk2_find n0 n1 n2 = Ok (ranks [n0; n1; n2])) /\
  (forall n0 n1 n2 n3, NoDup [n0; n1; n2; n3] -> pk3_find n0 n1 n2 n3 = Ok (ranks [n0; n1; n2; n3])) /\
  (forall l i j, i < length l -> j < length l ->
     (nth i (ranks l) 0 < nth j (ranks l) 0 <-> nth i l 0 < nth j l 0) /\ nth i (ranks l) 0 < length l).
Proof.
  split; [exact pk2_find_ranks|]. split; [exact pk3_find_ranks|]. intros l i j Hi Hj. split; [apply ranks_order; assumption|].
  rewrite nth_ranks by exact Hi. apply rank_bound, nth_In, Hi.
Qed.
Print Assumptions c148_vertex_map.

(** Two triangles or two tetrahedra that share an edge give the nodes on the edge the same numbers, however
    their vertices are numbered locally. *)
Theorem c148_edges_match k l l' p p' a b a' b' s :
  (exists n0 n1 n2 m0 m1 m2, l = [n0; n1; n2] /\ l' = [m0; m1; m2] /\ pk2_find n0 n1 n2 = Ok p /\ pk2_find m0 m1 m2 = Ok p') \/
  (exists n0 n1 n2 n3 m0 m1 m2 m3, l = [n0; n1; n2; n3] /\ l' = [m0; m1; m2; m3] /\ pk3_find n0 n1 n2 n3 = Ok p /\ pk3_find m0 m1 m2 m3 = Ok p') ->
  NoDup l -> NoDup l' -> a < length l -> b < length l -> a' < length l' -> b' < length l' -> a <> b ->
  nth a l 0 = nth a' l' 0 -> nth b l 0 = nth b' l' 0 -> 1 <= s -> s < k ->
  edge_dof k p a b s = edge_dof k p' a' b' s.
Proof.
  intros H N N' Ha Hb Ha' Hb' Hn E1 E2 Hs Hk.
  assert (P : p = ranks l /\ p' = ranks l').
  { destruct H as [(n0 & n1 & n2 & m0 & m1 & m2 & -> & -> & F & F')|(n0 & n1 & n2 & n3 & m0 & m1 & m2 & m3 & -> & -> & F & F')].
    - rewrite pk2_find_ranks in F, F' by assumption. split; congruence.
    - rewrite pk3_find_ranks in F, F' by assumption. split; congruence. }
  destruct P as [-> ->]. assert (Hn' : a' <> b').
  { intros ->. apply Hn. rewrite <- E2 in E1. exact (proj1 (NoDup_nth l 0) N a b Ha Hb E1). }
  rewrite !edge_dof_ranks by assumption. rewrite E1, E2. reflexivity.
Qed.
Print Assumptions c148_edges_match.

(** Two triangles with the vertices 7, 3, 9 and 3, 7, 1: the nodes of a P4 edge, counted from vertex 7. *)
Example c148_example :
  pk2_find 7 3 9 = Ok [1; 0; 2] /\ pk2_find 3 7 1 = Ok [1; 2; 0] /\ pk3_find 8 2 5 4 = Ok [3; 0; 2; 1] /\
  map (edge_dof 4 [1; 0; 2] 0 1) [1; 2; 3] = [2; 1; 0] /\ map (edge_dof 4 [1; 2; 0] 1 0) [1; 2; 3] = [2; 1; 0].
Proof. vm_compute. repeat split; reflexivity. Qed.

(** PkQk elements have the identity map whatever the numbers of the vertices: from order 3 on the elements of
    neighbouring triangles do not fit. *)
Theorem c148_pkqk_refuted : exists k l l' a b a' b' s,
  NoDup l /\ NoDup l' /\ nth a l 0 = nth a' l' 0 /\ nth b l 0 = nth b' l' 0 /\ 1 <= s < k /\
  edge_dof k (pkqk_vertex_map l) a b s <> edge_dof k (pkqk_vertex_map l') a' b' s.
Proof.
  exists 3, [7; 3; 9], [3; 7; 1], 0, 1, 1, 0, 1. repeat split; try lia; try (vm_compute; discriminate).
  all: repeat constructor; cbn; intuition discriminate.
Qed.
Print Assumptions c148_pkqk_refuted.

(** The numbers are those of the index set of the process.  Two processes that share a cell number its vertices
    independently, and then give the nodes of an edge different numbers (from order 3 on), although the
    exchange of data pairs the dofs of an entity by their number. *)
Theorem c148_processes_refuted : exists k l l' p p' a b s,
  NoDup l /\ NoDup l' /\ length l = 3 /\ length l' = 3 /\
  pk2_find (nth 0 l 0) (nth 1 l 0) (nth 2 l 0) = Ok p /\ pk2_find (nth 0 l' 0) (nth 1 l' 0) (nth 2 l' 0) = Ok p' /\ 1 <= s < k /\
  edge_dof k p a b s <> edge_dof k p' a b s.
Proof.
  exists 3, [4; 5; 6], [5; 4; 6], [0; 1; 2], [1; 0; 2], 0, 1, 1. repeat split; try lia; try reflexivity; try (vm_compute; discriminate).
  all: repeat constructor; cbn; intuition discriminate.
Qed.
Print Assumptions c148_processes_refuted.

(** ** C149: normal and tangential components are continuous *)

(** Raviart-Thomas and Brezzi-Douglas-Marini maps: on every grid without hanging nodes the two cells at an
    inner face get elements whose functions for this face have opposite outer normals, so that the normal
    component is the same; at the boundary the normal points outward. *)
Theorem c149_faces faces variants cells i j f f' :
  faces <= 8 -> (2 ^ N.of_nat faces <= N.of_nat variants)%N -> conforming faces cells -> i < length cells ->
  (In (f, None) (nth i cells []) -> exists o, rt_find variants (rt_new cells) i = Ok o /\ sign o f = 1%Z) /\
  (j < length cells -> i <> j -> In (f, Some j) (nth i cells []) -> In (f', Some i) (nth j cells []) ->
   exists o o', rt_find variants (rt_new cells) i = Ok o /\ rt_find variants (rt_new cells) j = Ok o' /\ (sign o f + sign o' f' = 0)%Z).
Proof.
  intros Hf Hv C Hi. split.
  - intros H. eexists. split; [eapply rt_find_ok; eassumption|]. unfold sign. rewrite (rt_sign faces cells i f None) by assumption. reflexivity.
  - intros Hj Hn H H'. do 2 eexists. split; [eapply rt_find_ok; eassumption|]. split; [eapply rt_find_ok; eassumption|].
    unfold sign. rewrite (rt_sign faces cells i f (Some j)), (rt_sign faces cells j f' (Some i)) by assumption.
    destruct (Nat.ltb_spec i j); destruct (Nat.ltb_spec j i); try lia; reflexivity.
Qed.
Print Assumptions c149_faces.

(** Three quadrilaterals in a row. *)
Definition row : list (list inter) := [[(0, Some 2); (1, None); (2, None); (3, None)]; [(0, None); (1, Some 2); (2, None); (3, None)]; [(0, Some 1); (1, Some 0); (2, None); (3, None)]].
Example c149_faces_example :
  conforming 4 row /\ rt_new row = [1; 2; 0]%N /\ rt_find 16 (rt_new row) 0 = Ok 1%N /\ sign 1 0 = (-1)%Z /\ sign 0 1 = 1%Z.
Proof.
  split; [|vm_compute; repeat split; reflexivity]. intros cell H. cbn in H. repeat destruct H as [<-|H]; try destruct H.
  all: split; [cbn; repeat constructor; cbn; intuition discriminate|]; intros f o Hin; cbn in Hin; repeat destruct Hin as [Hin|Hin]; try contradiction; injection Hin as <- <-; lia.
Qed.

(** With hanging nodes a coarse cell has two neighbours at one face; both sides may then point the same way. *)
Theorem c149_hanging_refuted : exists cells i j f f' o o',
  In (f, Some j) (nth i cells []) /\ In (f', Some i) (nth j cells []) /\ i <> j /\
  rt_find 16 (rt_new cells) i = Ok o /\ rt_find 16 (rt_new cells) j = Ok o' /\ (sign o f + sign o' f' <> 0)%Z.
Proof.
  exists [[(0, Some 1)]; [(1, Some 0); (1, Some 2)]; [(0, Some 1)]], 0, 1, 0, 1, 1%N, 2%N. vm_compute. repeat split; auto; discriminate.
Qed.
Print Assumptions c149_hanging_refuted.

(** On a decomposed grid without overlap the two sides of a process boundary both see no neighbour, and both
    point outward: the dof they share belongs to opposite functions. *)
Theorem c149_processes_refuted : exists cells1 cells2 i1 i2 f1 f2 o1 o2,
  conforming 4 cells1 /\ conforming 4 cells2 /\ In (f1, None) (nth i1 cells1 []) /\ In (f2, None) (nth i2 cells2 []) /\
  rt_find 16 (rt_new cells1) i1 = Ok o1 /\ rt_find 16 (rt_new cells2) i2 = Ok o2 /\ (sign o1 f1 + sign o2 f2 <> 0)%Z.
Proof.
  exists [[(0, None); (1, None)]], [[(0, None); (1, None)]], 0, 0, 1, 0, 0%N, 0%N.
  assert (C : conforming 4 [[(0, None); (1, None)]]).
  { intros cell [<-|[]]. split; [cbn; repeat constructor; cbn; intuition discriminate|]. intros f o [H|[H|[]]]; injection H as <- <-; lia. }
  split; [exact C|]. split; [exact C|]. vm_compute. repeat split; auto; discriminate.
Qed.
Print Assumptions c149_processes_refuted.

(** The orientations are computed once, in the constructor.  After the grid was refined find() reads beyond the
    stored ones, or uses the one of another cell. *)
Theorem c149_refined_refuted : exists cells cells',
  conforming 4 cells /\ conforming 4 cells' /\ length cells < length cells' /\
  (exists i, i < length cells' /\ rt_find 16 (rt_new cells) i = UB) /\
  (exists i j f f' o o', In (f, Some j) (nth i cells' []) /\ In (f', Some i) (nth j cells' []) /\ i <> j /\
     rt_find 16 (rt_new cells) i = Ok o /\ rt_find 16 (rt_new cells) j = Ok o' /\ (sign o f + sign o' f' <> 0)%Z).
Proof.
  exists [[(0, None); (1, Some 1)]; [(0, Some 0); (1, None)]], [[(0, Some 1); (1, None)]; [(0, Some 2); (1, Some 0)]; [(0, None); (1, Some 1)]].
  split; [|split; [|split; [cbn; lia|split]]].
  - intros cell H. cbn in H. repeat destruct H as [<-|H]; try destruct H.
    all: split; [cbn; repeat constructor; cbn; intuition discriminate|]; intros f o Hin; cbn in Hin; repeat destruct Hin as [Hin|Hin]; try contradiction; injection Hin as <- <-; lia.
  - intros cell H. cbn in H. repeat destruct H as [<-|H]; try destruct H.
    all: split; [cbn; repeat constructor; cbn; intuition discriminate|]; intros f o Hin; cbn in Hin; repeat destruct Hin as [Hin|Hin]; try contradiction; injection Hin as <- <-; lia.
  - exists 2. split; [cbn; lia|reflexivity].
  - exists 0, 1, 0, 1, 2%N, 0%N. vm_compute. repeat split; auto; discriminate.
Qed.
Print Assumptions c149_refined_refuted.

(** Edge maps: on every cell with at most eight edges the function of an edge points from the vertex with the
    smaller to the one with the larger global id, hence the same way in all cells and on all processes. *)
Theorem c149_edges edges vid i e :
  length edges <= 8 -> nth_error edges i = Some e -> fst e <> snd e -> vid (fst e) <> vid (snd e) ->
  let t := tangent (edge_orient edges vid) i e in
  vid (fst t) < vid (snd t) /\ (t = e \/ t = (snd e, fst e)).
Proof.
  intros HL Hi H1 H2. cbv zeta. split; [eapply tangent_flipped; [exact H1|exact H2|apply edge_orient_bits; assumption]|].
  unfold tangent. destruct e as [v0 v1]. cbn [fst snd]. destruct (Nat.le_ge_cases v0 v1) as [L|L];
    [rewrite Nat.min_l, Nat.max_r by exact L|rewrite Nat.min_r, Nat.max_l by exact L]; destruct (N.testbit _ _); auto.
Qed.
Print Assumptions c149_edges.
Example c149_edges_example :
  let tetra := [(0,1);(0,2);(1,2);(0,3);(1,3);(2,3)] in
  edge_orient tetra (fun v => nth v [30; 10; 40; 20] 0) = 41%N /\
  tangent 41 0 (0, 1) = (1, 0) /\ tangent 41 1 (0, 2) = (0, 2) /\ tangent 41 5 (2, 3) = (3, 2).
Proof. vm_compute. repeat split; reflexivity. Qed.

(** The orientations are stored in an unsigned char: the edges 8 to 11 of a hexahedron are never inverted. *)
Theorem c149_hexahedra_refuted : exists vid i e,
  nth_error hexahedron i = Some e /\ (forall v w, v < 8 -> w < 8 -> vid v = vid w -> v = w) /\
  let t := tangent (edge_orient hexahedron vid) i e in vid (snd t) < vid (fst t).
Proof.
  exists (fun v => 7 - v), 8, (4, 6). split; [reflexivity|]. split; [intros; lia|]. vm_compute. lia.
Qed.
Print Assumptions c149_hexahedra_refuted.

(** ** C150: maps of variable order, and the elements find() refers to *)

(** getOrder() and find() give what was last set for a cell, or the default order; the calls are defined as
    long as the cells and orders exist. *)
Theorem c150_orders cells default maxP sets :
  (default <= maxP)%N -> (maxP < 256)%N -> (forall i p, In (i, p) sets -> i < cells /\ (p <= maxP)%N) ->
  exists m, v_run sets (v_new cells default maxP) = Ok m /\
    v_fem_default m = Ok default /\
    forall i, i < cells -> v_get m i = Ok (last_order default sets i) /\ v_find m i = Ok (last_order default sets i).
Proof.
  intros Hd Hm Hs. destruct (v_run_ok sets (v_new cells default maxP)) as [m R].
  { intros i p Hp. cbn [v_new v_orders v_maxP]. rewrite repeat_length. apply Hs, Hp. }
  exists m. split; [exact R|]. destruct (v_run_spec sets (v_new cells default maxP) m Hm R) as (M & D & _ & N). cbn [v_new v_maxP v_default v_orders] in *.
  split; [unfold v_fem_default, v_fem; rewrite D, M; destruct (N.ltb_spec maxP default); [lia|reflexivity]|].
  intros i Hi. assert (G : v_get m i = Ok (last_order default sets i)).
  { unfold v_get. rewrite N, M. rewrite nth_error_repeat by exact Hi. rewrite byte_small by lia.
    assert (B : (last_order default sets i <= maxP)%N).
    { clear -Hd Hs. revert default Hd. induction sets as [|[j p] sets IH]; intros default Hd; cbn; [exact Hd|]. apply IH.
      - intros i' p' H. apply Hs. right. exact H.
      - destruct (j =? i); [apply (Hs j p); left; reflexivity|exact Hd]. }
    destruct (N.ltb_spec maxP (last_order default sets i)); [lia|reflexivity]. }
  split; [exact G|]. unfold v_find, v_fem. rewrite G. cbn [bind]. rewrite M.
  unfold v_get in G. destruct (nth_error (v_orders m) i); [|discriminate]. rewrite M in G. destruct (N.ltb_spec maxP n); [discriminate|]. injection G as ->.
  destruct (N.ltb_spec maxP (last_order default sets i)); [lia|reflexivity].
Qed.
Print Assumptions c150_orders.
Example c150_orders_example : exists m, v_run [(1, 3%N); (0, 2%N); (1, 5%N)] (v_new 3 1 6) = Ok m /\ map (v_find m) [0; 1; 2] = [Ok 2%N; Ok 5%N; Ok 1%N].
Proof. eexists. split; vm_compute; reflexivity. Qed.

(** The mapper follows the grid, the stored orders do not: after refinement the orders of the new cells are read
    beyond the end. *)
Theorem c150_refined_refuted cells default maxP sets m i : v_run sets (v_new cells default maxP) = Ok m -> (maxP < 256)%N -> cells <= i -> v_find m i = UB /\ forall p, v_set m i p = UB.
Proof.
  intros R Hm Hi. destruct (v_run_spec sets (v_new cells default maxP) m Hm R) as (_ & _ & L & _). cbn in L. rewrite repeat_length in L. split.
  - unfold v_find, v_get. rewrite (proj2 (nth_error_None _ _)) by lia. reflexivity.
  - intros p. unfold v_set. destruct (_ <? p)%N; [reflexivity|]. destruct (Nat.ltb_spec i (length (v_orders m))); [lia|reflexivity].
Qed.
Print Assumptions c150_refined_refuted.

(** Mimetic maps: find() returns the element for the number of faces, for every history of calls, and as long
    as no cell has 20 faces or more all references stay valid. *)
Definition mi_run (ns : list nat) (m : mimetic) : mimetic := fold_left (fun m n => fst (mi_find m n)) ns m.
Theorem c150_mimetic ns n ns' :
  let '(m, r) := mi_find (mi_run ns mi_new) n in
  mi_use m r = Ok n /\ ((forall k, In k (ns ++ n :: ns') -> k < 20) -> mi_use (mi_run ns' m) r = Ok n).
Proof.
  destruct (mi_find (mi_run ns mi_new) n) as [m r] eqn:E. split.
  - unfold mi_find in E. destruct (n <? _); injection E as <- <-; unfold mi_use; cbn; rewrite Nat.eqb_refl; reflexivity.
  - intros H. assert (Q : forall l m0, mi_size m0 = 20 -> (forall k, In k l -> k < 20) -> mi_run l m0 = m0).
    { induction l as [|k l IH]; intros m0 Hm Hl; [reflexivity|]. cbn [mi_run fold_left]. assert (F : fst (mi_find m0 k) = m0).
      { unfold mi_find. rewrite Hm. destruct (Nat.ltb_spec k 20) as [L|L]; [reflexivity|]. specialize (Hl k (or_introl eq_refl)). lia. }
      rewrite F. apply IH; [exact Hm|]. intros j Hj. apply Hl. right. exact Hj. }
    rewrite Q in E; [|reflexivity|intros k Hk; apply H, in_or_app; left; exact Hk]. unfold mi_find, mi_new in E. cbn [mi_size] in E.
    destruct (Nat.ltb_spec n 20) as [L|L]; [|specialize (H n ltac:(apply in_or_app; right; left; reflexivity)); lia]. injection E as <- <-.
    rewrite Q; [reflexivity|reflexivity|]. intros k Hk. apply H, in_or_app. right. right. exact Hk.
Qed.
Print Assumptions c150_mimetic.
Example c150_mimetic_example : mi_use (mi_run [3; 19] mi_new) (snd (mi_find mi_new 4)) = Ok 4.
Proof. reflexivity. Qed.

(** A cell with 20 faces or more invalidates the references handed out before: the element of the inside cell is
    gone when the one of the outside cell is looked up. *)
Theorem c150_mimetic_refuted : exists n n', let '(m, r) := mi_find mi_new n in let '(m', r') := mi_find m n' in mi_use m' r = UB.
Proof. exists 6, 20. reflexivity. Qed.
Print Assumptions c150_mimetic_refuted.

(** Orders are stored in an unsigned char: beyond 255 another order is used without notice. *)
Theorem c150_byte_refuted : exists cells default maxP, (default <= maxP)%N /\ exists p, p <> default /\ v_find (v_new cells default maxP) 0 = Ok p.
Proof. exists 1, 257%N, 300%N. split; [vm_compute; discriminate|]. exists 1%N. split; [discriminate|reflexivity]. Qed.
Print Assumptions c150_byte_refuted.
