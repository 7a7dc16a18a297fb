(** C165: isolation of hanging nodes. *)
From Coq Require Import Reals Lra Permutation.
From Verif Require Import OrderingModel OrderingProofs CommonFacts ConsSpec ConsProofs HangModel HangSpec HangProofs HangTriModel HangTriSpec.
Local Open Scope nat_scope.

(** ** The sweep *)
Lemma sweep_cell_fst T t st c : fst (sweep_cell T t st c) =
  fst st || to_refine (th T) t c || (simplex T (cid c) && extra_check T t c).
Proof.
  unfold sweep_cell. destruct st as ([|] & l), (to_refine (th T) t c), (simplex T (cid c)), (extra_check T t c); reflexivity.
Qed.
Lemma sweep_fst T t cells : fst (sweep T t cells) =
  existsb (fun c => to_refine (th T) t c || (simplex T (cid c) && extra_check T t c)) cells.
Proof.
  unfold sweep. assert (G : forall st, fst (fold_left (sweep_cell T t) cells st) =
    fst st || existsb (fun c => to_refine (th T) t c || (simplex T (cid c) && extra_check T t c)) cells).
  { induction cells as [|c cells IH]; intros st; cbn [fold_left existsb]; [now rewrite Bool.orb_false_r|].
    rewrite IH, sweep_cell_fst. now rewrite !Bool.orb_assoc. }
  apply G.
Qed.
(** Marked cells are cells of the grid with a vertex two levels finer nearby; if the sweep is to be repeated, at least
    one is marked. *)
Lemma sweep_marked T t cells c : In c (snd (sweep T t cells)) ->
  In c cells /\ (to_refine (th T) t c = true \/ extra_check T t c = true).
Proof.
  unfold sweep. assert (G : forall st, In c (snd (fold_left (sweep_cell T t) cells st)) ->
    In c (snd st) \/ (In c cells /\ (to_refine (th T) t c = true \/ extra_check T t c = true))).
  { induction cells as [|a cells IH]; intros st; cbn [fold_left]; [auto|]. intros I. apply IH in I as [I|(I & K)]; [|right; split; [now right|auto]].
    unfold sweep_cell in I. destruct (to_refine (th T) t a) eqn:R.
    - cbn in I. rewrite Bool.andb_false_r in I. cbn in I. apply in_app_iff in I as [I|[<-|[]]]; auto. right. split; [now left|auto].
    - destruct (simplex T (cid a) && negb (fst st) && extra_check T t a) eqn:X; auto.
      apply Bool.andb_true_iff in X as (_ & X). apply in_app_iff in I as [I|[<-|[]]]; auto. right. split; [now left|auto]. }
  intros I. apply G in I as [[]|I]; auto.
Qed.
Lemma sweep_some T t cells : fst (sweep T t cells) = true -> exists c, In c (snd (sweep T t cells)).
Proof.
  unfold sweep. assert (G : forall st, (fst st = true -> exists c, In c (snd st)) ->
    fst (fold_left (sweep_cell T t) cells st) = true -> exists c, In c (snd (fold_left (sweep_cell T t) cells st))).
  { induction cells as [|a cells IH]; intros st K; cbn [fold_left]; [auto|]. apply IH. unfold sweep_cell.
    destruct (to_refine (th T) t a).
    - cbn. rewrite Bool.andb_false_r. cbn. intros _. exists a. apply in_app_iff. right. now left.
    - destruct (simplex T (cid a) && negb (fst st) && extra_check T t a); auto.
      cbn. intros _. exists a. apply in_app_iff. right. now left. }
  apply G. discriminate.
Qed.

(** ** Midpoints *)
Lemma vadd_spec a : forall b, length a = length b -> vadd a b = map (fun i => (nth i a 0 + nth i b 0)%R) (seq 0 (length a)).
Proof.
  induction a as [|x a IH]; intros [|y b] L; cbn in L; try discriminate; auto. cbn [vadd length seq map nth]. f_equal.
  rewrite IH by lia. rewrite <- seq_shift, map_map. apply map_ext. reflexivity.
Qed.
Lemma midpoint_center T v w1 w2 : placed T -> midpoint T (position T v) w1 w2 ->
  position T v = vscale (/ 2) (vadd (position T w1) (position T w2)).
Proof.
  intros P M. rewrite M. unfold vscale. rewrite vadd_spec by now rewrite !P. rewrite map_map, P. apply map_ext. intros i. lra.
Qed.
Lemma midpoint_sym T p v w : midpoint T p v w -> midpoint T p w v.
Proof. unfold midpoint. intros ->. apply map_ext. intros i. lra. Qed.
Lemma near_refl p : near p p = true.
Proof.
  unfold near. destruct (Rlt_dec _ _) as [|N]; auto. exfalso. apply N.
  replace (norm2 (vadd p (vscale (-1) p))) with 0%R; [lra|]. unfold norm2, vscale.
  induction p as [|x p IH]; auto. cbn in *. rewrite <- IH; [ring|]. intros C. apply N. clear N.
  replace ((x + -1 * x) * (x + -1 * x) + fold_right (fun x s => x * x + s) 0 (vadd p (map (fun x => -1 * x) p)))%R
    with (fold_right (fun x s => x * x + s) 0 (vadd p (map (fun x => -1 * x) p)))%R by ring. exact C.
Qed.

(** ** C165 *)

Local Ltac mods := try change (0 mod 2) with 0; try change (1 mod 2) with 1; try change (0 mod 3) with 0;
  try change (1 mod 3) with 1; try change (2 mod 3) with 2; try change (3 mod 3) with 0.

(** The node table holds the greatest level of the cells at a vertex. *)
Lemma table_max H dir cells t : refined H cells -> analyze H dir cells = Ok t ->
  forall v, (forall c, In c cells -> has_vertex H (cid c) v -> level H (cid c) <= maximum_level (t v)) /\
    (maximum_level (t v) = 0 \/ exists c, In c cells /\ has_vertex H (cid c) v /\ maximum_level (t v) = level H (cid c)).
Proof.
  intros R E v.
  assert (M : HangProofs.tab (levels_of H cells) (touching H cells) t).
  { apply (analyze_table H dir cells t); [|exact E]. intros a f J K. split; [eapply (rf_faces _ _ R); eassumption|].
    intros. eapply (rf_levels _ _ R); eassumption. }
  pose proof (tb_max _ _ _ M v) as G. split.
  - intros c I V. apply G. exists c. auto.
  - destruct G as ([Z|(c & I & V & Z)] & _); eauto.
Qed.

(** When adaptToIsolatedHangingNodes returns, on grids of cubes and simplices in two and three dimensions: cells that
    share a vertex differ at most by one level, and so do a simplex and any cell at a node that hangs in the middle of
    one of its edges, even if the two cells have no other point in common. *)
Theorem c165_isolated : forall dir refine T cells t T' cells' t',
  analyze (th T) dir cells = Ok t -> isolates_all dir refine (T, cells) t (T', cells') t' ->
  refined (th T') cells' -> placed T' -> simplex_faces T' cells' -> (dim (hg (th T')) = 2 \/ dim (hg (th T')) = 3) ->
  forall c c' v, In c cells' -> In c' cells' -> has_vertex (th T') (cid c') v ->
    has_vertex (th T') (cid c) v \/ (simplex T' (cid c) = true /\ hangs_on_edge T' c v) ->
    level (th T') (cid c') <= S (level (th T') (cid c)).
Proof.
  intros dir refine T cells t T' cells' t' E I.
  remember (T, cells) as g eqn:EG. remember (T', cells') as g' eqn:EG'. revert T cells E EG.
  induction I as [T0 cells0 t0 N|T0 cells0 t0 T1 cells1 t1 g2 t2 Y RF A I IH]; intros T cells E EG R PL SF DIM c c' v Ic Ic' V' V.
  2: { eapply (IH EG' T1 cells1); eauto. }
  injection EG' as -> ->. injection EG as -> ->. rewrite sweep_fst in N.
  assert (N1 : to_refine (th T) t0 c || (simplex T (cid c) && extra_check T t0 c) = false).
  { destruct (to_refine (th T) t0 c || (simplex T (cid c) && extra_check T t0 c)) eqn:X; auto. exfalso.
    apply Bool.not_true_iff_false in N. apply N. apply existsb_exists. eauto. }
  apply Bool.orb_false_iff in N1 as (N1 & N2).
  destruct (table_max (th T) dir cells t0 R E v) as (B & _). specialize (B c' Ic' V').
  enough (D : (1 <? maximum_level (t0 v) - level (th T) (cid c)) = false) by (apply Nat.ltb_ge in D; lia).
  destruct V as [V|(SI & f & w1 & w2 & If & Bf & Lf & Vf & W & W1 & W2 & M)].
  - destruct (1 <? maximum_level (t0 v) - level (th T) (cid c)) eqn:X; auto. exfalso.
    apply Bool.not_true_iff_false in N1. apply N1. unfold to_refine. apply existsb_exists. exists v. split; auto. now apply in_cell_vertices.
  - rewrite SI in N2. cbn [andb] in N2. destruct (1 <? maximum_level (t0 v) - level (th T) (cid c)) eqn:X; auto. exfalso.
    apply Bool.not_true_iff_false in N2. apply N2. unfold extra_check. apply existsb_exists. exists f. split; auto.
    unfold extra_face. rewrite Bf. replace (level (th T) (cid c) <? level (th T) (outside f)) with true by (symmetry; now apply Nat.ltb_lt). cbn [negb].
    apply existsb_exists. exists (position T v). split.
    + unfold edge_centers. apply in_map_iff.
      apply in_face_vertices in W1, W2. apply In_nth with (d := 0) in W1 as (i1 & L1 & E1). apply In_nth with (d := 0) in W2 as (i2 & L2 & E2).
      assert (LF : length (face_vertices (th T) (cid c) f) = dim (hg (th T))).
      { unfold face_vertices. rewrite map_length. now apply SF. }
      rewrite LF in L1, L2. assert (i1 <> i2) by congruence.
      assert (K : forall k, midpoint T (position T v) (nth (k mod dim (hg (th T))) (face_vertices (th T) (cid c) f) 0)
                                    (nth (S k mod dim (hg (th T))) (face_vertices (th T) (cid c) f) 0) ->
                   edge_center T (cid c) f k = position T v).
      { intros k Mk. unfold edge_center. symmetry. now apply midpoint_center. }
      destruct DIM as [D2|D3].
      * rewrite D2 in *. cbn [Nat.eqb]. exists 0. split; [|cbn; auto]. apply K. mods.
        assert ((i1 = 0 /\ i2 = 1) \/ (i1 = 1 /\ i2 = 0)) as [(-> & ->)|(-> & ->)] by lia; rewrite E1, E2; auto using midpoint_sym.
      * rewrite D3 in *. cbn [Nat.eqb].
        assert ((i1 = 0 /\ i2 = 1) \/ (i1 = 1 /\ i2 = 2) \/ (i1 = 2 /\ i2 = 0) \/ (i1 = 1 /\ i2 = 0) \/ (i1 = 2 /\ i2 = 1) \/ (i1 = 0 /\ i2 = 2))
          as [(-> & ->)|[(-> & ->)|[(-> & ->)|[(-> & ->)|[(-> & ->)|(-> & ->)]]]]] by lia;
          [exists 0|exists 1|exists 2|exists 0|exists 1|exists 2]; (split; [|cbn; auto]); apply K;
          mods; rewrite E1, E2; auto using midpoint_sym.
    + apply existsb_exists. exists v. split; [now apply in_cell_vertices|]. now rewrite near_refl.
Qed.
Print Assumptions c165_isolated.

(** The loop ends: on a grid manager that replaces marked cells by at most B cells of the next level, adaptation to
    isolated hanging nodes returns, and no cell is finer than the finest one before. *)
Definition weight (B M : nat) (ls : list nat) : nat := list_sum (map (fun l => (S B) ^ (M - l)) ls).
Lemma weight_perm B M l l' : Permutation l l' -> weight B M l = weight B M l'.
Proof. unfold weight, list_sum. induction 1; cbn [map fold_right] in *; lia. Qed.
Lemma weight_app B M l l' : weight B M (l ++ l') = weight B M l + weight B M l'.
Proof. unfold weight. now rewrite map_app, list_sum_app. Qed.
Lemma weight_repeat B M l k : weight B M (repeat l k) = k * (S B) ^ (M - l).
Proof. unfold weight. induction k as [|k IH]; auto. cbn [repeat map list_sum fold_right Nat.mul] in *. unfold list_sum in IH. rewrite IH. reflexivity. Qed.

Theorem c165_terminates : forall B good dir refine T cells t M,
  refines_marked B good dir refine -> (forall T cells, good T cells -> refined (th T) cells) ->
  good T cells -> analyze (th T) dir cells = Ok t ->
  (forall c, In c cells -> level (th T) (cid c) <= M) ->
  exists T' cells' t', isolates_all dir refine (T, cells) t (T', cells') t' /\ good T' cells' /\
    forall c, In c cells' -> level (th T') (cid c) <= M.
Proof.
  intros B good dir refine T cells t M RM RR. remember (weight B M (cell_levels T cells)) as n eqn:EN.
  revert T cells t EN. induction n as [n IH] using lt_wf_ind. intros T cells t EN GD A LM.
  assert (R : refined (th T) cells) by auto.
  destruct (fst (sweep T t cells)) eqn:F.
  2: { exists T, cells, t. split; [now constructor|]. auto. }
  destruct (RM T cells t GD A F) as (T' & cells' & kids & RF & GD' & KB & PM).
  set (marked := snd (sweep T t cells)) in *.
  assert (R' : refined (th T') cells') by auto.
  destruct (analyze_ok (th T') dir cells' R') as (t' & A' & _).
  assert (FINE : forall v c, 1 < maximum_level (t v) - level (th T) (cid c) -> S (S (level (th T) (cid c))) <= M).
  { intros v c X. destruct (table_max (th T) dir cells t R A v) as (_ & [Z|(a & Ia & _ & Z)]); [lia|]. specialize (LM a Ia). lia. }
  assert (LOW : forall c, In c marked -> In c cells /\ S (S (level (th T) (cid c))) <= M).
  { intros c I. apply sweep_marked in I as (I & K). split; auto. destruct K as [K|K].
    - unfold to_refine in K. apply existsb_exists in K as (v & _ & K). apply Nat.ltb_lt in K. eauto.
    - unfold extra_check in K. apply existsb_exists in K as (f & _ & K). unfold extra_face in K. destruct (boundary f); [discriminate|].
      destruct (negb _); [discriminate|]. apply existsb_exists in K as (p & _ & K). apply existsb_exists in K as (v & _ & K).
      apply Bool.andb_true_iff in K as (_ & K). unfold too_fine in K. apply Nat.ltb_lt in K. eauto. }
  assert (LOWc : forall c, existsb (fun m => cid m =? cid c) marked = true -> S (S (level (th T) (cid c))) <= M).
  { intros c X. apply existsb_exists in X as (m & I & X). apply Nat.eqb_eq in X. rewrite <- X. now apply LOW. }
  set (images := fun c => if existsb (fun m => cid m =? cid c) marked then repeat (S (level (th T) (cid c))) (kids c) else [level (th T) (cid c)]) in *.
  assert (ONE : forall c, weight B M (images c) <= (S B) ^ (M - level (th T) (cid c)) /\
    (existsb (fun m => cid m =? cid c) marked = true -> weight B M (images c) < (S B) ^ (M - level (th T) (cid c)))).
  { intros c. unfold images. destruct (existsb _ _) eqn:X.
    - assert (weight B M (repeat (S (level (th T) (cid c))) (kids c)) < S B ^ (M - level (th T) (cid c))).
      { rewrite weight_repeat. specialize (LOWc c X). specialize (KB c).
        replace (M - level (th T) (cid c)) with (S (M - S (level (th T) (cid c)))) by lia. cbn [Nat.pow].
        assert (0 < S B ^ (M - S (level (th T) (cid c)))) by (apply Nat.neq_0_lt_0, Nat.pow_nonzero; lia). nia. }
      split; auto; lia.
    - split; [|discriminate]. unfold weight. cbn [map list_sum fold_right]. lia. }
  assert (ALL : forall cs, weight B M (flat_map images cs) <= weight B M (cell_levels T cs)).
  { induction cs as [|c cs IHc]; [auto|]. cbn [flat_map]. rewrite weight_app. unfold cell_levels in *. cbn [map].
    change (level (th T) (cid c) :: map (fun c => level (th T) (cid c)) cs) with ([level (th T) (cid c)] ++ map (fun c => level (th T) (cid c)) cs).
    rewrite weight_app. destruct (ONE c) as (O & _). unfold weight at 3. cbn [map list_sum fold_right]. lia. }
  assert (LESS : weight B M (flat_map images cells) < weight B M (cell_levels T cells)).
  { destruct (sweep_some T t cells F) as (m & Im). destruct (LOW m Im) as (Ic & _).
    apply in_split in Ic as (l1 & l2 & ->). unfold cell_levels. rewrite flat_map_app, map_app, !weight_app. cbn [flat_map map]. rewrite weight_app.
    change (level (th T) (cid m) :: map (fun c => level (th T) (cid c)) l2) with ([level (th T) (cid m)] ++ map (fun c => level (th T) (cid c)) l2).
    rewrite weight_app. pose proof (ALL l1) as A1. pose proof (ALL l2) as A2. unfold cell_levels in A1, A2.
    destruct (ONE m) as (_ & O). specialize (O ltac:(apply existsb_exists; exists m; split; [exact Im|apply Nat.eqb_refl])).
    unfold weight at 5. cbn [map list_sum fold_right]. lia. }
  assert (LM' : forall c, In c cells' -> level (th T') (cid c) <= M).
  { intros c I. assert (J : In (level (th T') (cid c)) (flat_map images cells)).
    { apply (Permutation_in _ PM). unfold cell_levels. apply in_map_iff. eauto. }
    apply in_flat_map in J as (a & Ia & J). unfold images in J. destruct (existsb _ _) eqn:X.
    - apply repeat_spec in J. specialize (LOWc a X). lia.
    - destruct J as [<-|[]]. auto. }
  destruct (IH (weight B M (cell_levels T' cells'))) with (T := T') (cells := cells') (t := t') as (T2 & cells2 & t2 & I2 & R2 & L2); auto.
  { subst n. rewrite (weight_perm B M _ _ PM). exact LESS. }
  exists T2, cells2, t2. split; auto. eapply all_more; eauto.
Qed.
Print Assumptions c165_terminates.

(** A simplex grid with a hanging node (vertex 3 in the middle of an edge of cell 0); [s] is the size of the domain. *)
Definition tri_ref : ref := mkref (fun cd => nth cd [1; 3; 3] 0) (fun cd _ => cd) (fun f _ => nth f [[0; 1]; [0; 2]; [1; 2]] []).
Definition tri_vertices (c : nat) : list nat := nth c [[0; 1; 2]; [1; 3; 4]; [4; 5; 6]] [].
Definition tri_geo (s : R) : tgeo := mktgeo
  (mkhgeo (mkgeo 2 (fun _ => tri_ref) (fun _ f => DriverModel.fid f) (fun c i cd => match cd with 2 => nth i (tri_vertices c) 0 | _ => 0 end)
             (fun _ => Interior) 3 (fun cd => nth cd [[2]; [1]; [0]] []) (fun gt => nth gt [7; 8; 3] 0))
     (fun c f => 0) (fun c => c) (fun c f => false))
  (fun v => vscale s (nth v [[0; 0]; [1; 0]; [0; 1]; [/ 2; / 2]; [1; / 2]; [1; 3 / 4]; [3 / 4; / 2]]%R [0; 0]%R))
  (fun _ => true).
Definition tbound i := mkface i false true 0 false.
Definition tri_cells : list cell :=
  [mkcell 0 [tbound 0; tbound 1; mkface 2 true false 1 true]; mkcell 1 [mkface 0 true false 0 true; tbound 1; tbound 2];
   mkcell 2 [tbound 0; tbound 1; tbound 2]].
Definition tri_table : table := match analyze (th (tri_geo 1)) (fun _ _ _ => true) tri_cells with Ok t => t | _ => fun _ => fresh_node end.

Lemma tri_refined s : refined (th (tri_geo s)) tri_cells.
Proof.
  split.
  - intros c f [<-|[<-|[<-|[]]]] I; cbn in I; repeat (destruct I as [<-|I]; [cbn; tauto|]); destruct I.
  - intros c f [<-|[<-|[<-|[]]]] I; cbn in I; repeat (destruct I as [<-|I]; [cbn; congruence|]); destruct I.
  - intros c f v [<-|[<-|[<-|[]]]] I (i & J & ->); cbn in I;
      repeat (destruct I as [<-|I]; [cbn in J; repeat (destruct J as [<-|J]; [eexists; split; [|reflexivity]; cbn; lia|]); destruct J|]); destruct I.
  - intros c f [<-|[<-|[<-|[]]]] I N; cbn in I;
      repeat (destruct I as [<-|I]; [try discriminate N; cbn [outside];
        first [exists (nth 0 tri_cells (mkcell 0 [])); split; [cbn; tauto|reflexivity]
              |exists (nth 1 tri_cells (mkcell 0 [])); split; [cbn; tauto|reflexivity]]|]); destruct I.
  - exists (fun v => nth v [0; 0; 0; 1; 1; 2; 2] 0). split.
    + intros c v [<-|[<-|[<-|[]]]] (i & L & ->); cbn in L; do 3 (destruct i as [|i]; [cbn; lia|]); lia.
    + intros c f v [<-|[<-|[<-|[]]]] I (N1 & N2 & N3 & N4) (i & J & ->) NV; cbn in I;
      repeat (destruct I as [<-|I]; [try discriminate N1; try discriminate N2; try discriminate N3; try (cbn in N4; lia);
        cbn in J; repeat (destruct J as [<-|J]; [cbn; try lia; elim NV; solve [exists 1; cbn; split; [lia|reflexivity]]|]); destruct J|]); destruct I.
Qed.

Lemma tri_extra s : (0 < s)%R -> extra_check (tri_geo s) tri_table (mkcell 0 [tbound 0; tbound 1; mkface 2 true false 1 true]) =
  if Rlt_dec (s * s / 4) (5 / 10 ^ 12) then true else false.
Proof.
  intros P. unfold extra_check. cbn [existsb faces cid].
  change (extra_face (tri_geo s) tri_table 0 (tbound 0)) with false. change (extra_face (tri_geo s) tri_table 0 (tbound 1)) with false.
  change (extra_face (tri_geo s) tri_table 0 (mkface 2 true false 1 true)) with
    (existsb (fun p => existsb (fun v => near p (position (tri_geo s) v) && too_fine (tri_geo s) tri_table 0 v) [1; 3; 4])
       [edge_center (tri_geo s) 0 (mkface 2 true false 1 true) 0]).
  cbn [existsb orb]. change (too_fine (tri_geo s) tri_table 0 1) with false. change (too_fine (tri_geo s) tri_table 0 3) with false.
  change (too_fine (tri_geo s) tri_table 0 4) with true. rewrite !Bool.andb_false_r, Bool.andb_true_r. cbn [orb]. rewrite !Bool.orb_false_r.
  change (edge_center (tri_geo s) 0 (mkface 2 true false 1 true) 0) with
    (vscale (/ 2) (vadd (vscale s [1; 0]%R) (vscale s [0; 1]%R))).
  change (position (tri_geo s) 4) with (vscale s [1; / 2]%R).
  unfold near, norm2, vscale. cbn [map vadd fold_right].
  match goal with |- (if Rlt_dec ?a _ then _ else _) = _ => replace a with (s * s / 4)%R by field end. reflexivity.
Qed.

Lemma tri_sweep s : (0 < s)%R -> fst (sweep (tri_geo s) tri_table tri_cells) = if Rlt_dec (s * s / 4) (5 / 10 ^ 12) then true else false.
Proof.
  intros P. rewrite sweep_fst. unfold tri_cells. cbn [existsb]. rewrite tri_extra by auto.
  change (simplex (tri_geo s) _) with true. cbn [andb].
  replace (to_refine (th (tri_geo s)) tri_table (mkcell 0 [tbound 0; tbound 1; mkface 2 true false 1 true])) with false by reflexivity.
  replace (to_refine (th (tri_geo s)) tri_table (mkcell 1 [mkface 0 true false 0 true; tbound 1; tbound 2])) with false by reflexivity.
  replace (to_refine (th (tri_geo s)) tri_table (mkcell 2 [tbound 0; tbound 1; tbound 2])) with false by reflexivity.
  replace (extra_check (tri_geo s) tri_table (mkcell 1 [mkface 0 true false 0 true; tbound 1; tbound 2])) with false by reflexivity.
  replace (extra_check (tri_geo s) tri_table (mkcell 2 [tbound 0; tbound 1; tbound 2])) with false by reflexivity.
  destruct (Rlt_dec _ _); reflexivity.
Qed.

Example c165_meets : analyze (th (tri_geo 1)) (fun _ _ _ => true) tri_cells = Ok tri_table /\
  isolates_all (fun _ _ _ => true) (fun g _ => g) (tri_geo 1, tri_cells) tri_table (tri_geo 1, tri_cells) tri_table /\
  refined (th (tri_geo 1)) tri_cells /\ placed (tri_geo 1) /\ simplex_faces (tri_geo 1) tri_cells /\
  hangs_on_edge (tri_geo 1) (mkcell 0 [tbound 0; tbound 1; mkface 2 true false 1 true]) 3.
Proof.
  split; [reflexivity|]. split; [|split; [apply tri_refined|split; [|split]]].
  - constructor. rewrite tri_sweep by lra. destruct (Rlt_dec _ _); [exfalso; lra|reflexivity].
  - intros v. do 7 (destruct v as [|v]; [reflexivity|]). cbn. destruct v; reflexivity.
  - intros c f [<-|[<-|[<-|[]]]] _ I; cbn in I; repeat (destruct I as [<-|I]; [reflexivity|]); destruct I.
  - exists (mkface 2 true false 1 true), 1, 2. split; [cbn; tauto|]. split; [reflexivity|]. split; [cbn; lia|].
    split; [exists 1; cbn; split; [lia|reflexivity]|]. split; [lia|]. split; [exists 1; cbn; auto|]. split; [exists 2; cbn; auto|].
    unfold midpoint. cbn. f_equal; [lra|f_equal; lra].
Qed.

(** The distance by which a vertex is recognised is absolute.  On a small domain vertices that are not in the middle of an
    edge are taken for hanging nodes: the same grid, scaled down, is refined although all its hanging nodes are isolated. *)
Theorem c165_scale_refuted : exists (T : R -> tgeo) cells dir t, (forall s, analyze (th (T s)) dir cells = Ok t) /\
  (forall s, th (T s) = th (T 1%R) /\ simplex (T s) = simplex (T 1%R) /\ forall v, position (T s) v = map (fun x => s * x)%R (position (T 1%R) v)) /\
  fst (sweep (T 1%R) t cells) = false /\ fst (sweep (T (/ 1000000)%R) t cells) = true.
Proof.
  exists tri_geo, tri_cells, (fun _ _ _ => true), tri_table. split; [reflexivity|]. split; [|split].
  - intros s. repeat split. intros v. cbn [position tri_geo]. unfold vscale. rewrite map_map. apply map_ext. intros x. lra.
  - rewrite tri_sweep by lra. destruct (Rlt_dec _ _); [exfalso; lra|reflexivity].
  - rewrite tri_sweep by lra. destruct (Rlt_dec _ _) as [|N]; [reflexivity|exfalso; apply N; lra].
Qed.
Print Assumptions c165_scale_refuted.

(** A line whose first cell (level 0) touches one of level 2; it is bisected. *)
Definition line_ref : ref := mkref (fun cd => nth cd [1; 2] 0) (fun cd _ => cd) (fun f _ => [f]).
Definition line_geo : tgeo := mktgeo
  (mkhgeo (mkgeo 1 (fun _ => line_ref) (fun _ f => DriverModel.fid f) (fun c i _ => nth i (nth c [[0; 1]; [1; 2]; [0; 3]; [3; 1]] []) 0)
             (fun _ => Interior) 2 (fun cd => nth cd [[1]; [0]] []) (fun _ => 4))
     (fun c f => 0) (fun c => nth c [0; 2; 1; 1] 0) (fun c f => true))
  (fun v => [nth v [0; 1; 5 / 4; / 2]%R 0%R]) (fun _ => false).
Definition line_0 : list cell := [mkcell 0 [tbound 0; mkface 1 true false 1 true]; mkcell 1 [mkface 0 true false 0 true; tbound 1]].
Definition line_1 : list cell := [mkcell 2 [tbound 0; mkface 1 true false 3 true]; mkcell 3 [mkface 0 true false 2 true; mkface 1 true false 1 true];
  mkcell 1 [mkface 0 true false 3 true; tbound 1]].
Lemma line_refined cells : cells = line_0 \/ cells = line_1 -> refined (th line_geo) cells.
Proof.
  intros E. split.
  - intros c f I J. destruct E as [-> | ->]; cbn in I; repeat (destruct I as [<-|I]; [cbn in J; repeat (destruct J as [<-|J]; [cbn; tauto|]); destruct J|]); destruct I.
  - intros c f _ _ _ _ C. discriminate C.
  - intros c f v I J (i & K & ->). exists i. split; [|reflexivity].
    destruct E as [-> | ->]; cbn in I; repeat (destruct I as [<-|I]; [cbn in J; repeat (destruct J as [<-|J]; [cbn in K; cbn; lia|]); destruct J|]); destruct I.
  - intros c f I J N.
    destruct E as [-> | ->]; cbn in I; repeat (destruct I as [<-|I]; [cbn in J; repeat (destruct J as [<-|J]; [try discriminate N; cbn [outside];
      solve [eexists; split; [left; reflexivity|reflexivity]|eexists; split; [right; left; reflexivity|reflexivity]|eexists; split; [right; right; left; reflexivity|reflexivity]]|]); destruct J|]); destruct I.
  - exists (fun _ => 0). split; [intros; lia|]. intros c f v _ _ (_ & _ & C & _). discriminate C.
Qed.
Example c165_terminates_meets : exists good refine,
  refines_marked 2 good (fun _ _ _ => true) refine /\ (forall T cells, good T cells -> refined (th T) cells) /\ good line_geo line_0 /\
  exists t, analyze (th line_geo) (fun _ _ _ => true) line_0 = Ok t /\ fst (sweep line_geo t line_0) = true.
Proof.
  exists (fun T cells => T = line_geo /\ (cells = line_0 \/ cells = line_1)), (fun _ _ => (line_geo, line_1)).
  split; [|split; [|split]].
  - intros T cells t (-> & E) A F. cbn zeta. destruct E as [-> | ->].
    + injection A as <-. exists line_geo, line_1, (fun _ => 2). split; [reflexivity|]. split; [auto|]. split; [auto|]. apply Permutation_refl.
    + injection A as <-. exfalso. revert F. vm_compute. discriminate.
  - intros T cells (-> & E). now apply line_refined.
  - auto.
  - eexists. split; [reflexivity|]. reflexivity.
Qed.
