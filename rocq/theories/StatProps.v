(** C176: statistics about patterns. *)
From Coq Require Import Permutation.
From Verif Require Import Common CommonFacts StatModel StatSpec PatternModel PatternSpec PatternProofs StatProofs.

(** C176: whatever the estimate and the order of links, the statistics of a matrix tell the number of distinct links, the longest row and how
    many distinct links exceeded the estimate. *)
Theorem c176_leaf : forall r e links, valid_links r links -> exists p, build r e links = Ok p /\
  describes (leaf_stat r p) r e links /\ nonZeros (leaf_stat r p) = length (nodup link_dec links) /\
  (overflowed (leaf_stat r p) = 0 <-> longestRow (leaf_stat r p) <= e).
Proof.
  intros r e links V. destruct (build_inv r e links V) as (p & E & I). exists p. split; [exact E|]. pose proof (inv_describes _ _ _ _ I) as D. split; [exact D|].
  destruct D as (D1 & D2 & D3 & D4 & _). split; [rewrite D1; apply count_links; intros i j K; apply (V i j K)|]. rewrite D4.
  assert (Z : forall l, sum_nat (map (fun i => row_size i links - e) l) = 0 <-> forall i, In i l -> row_size i links <= e).
  { induction l as [|a l IH]; [split; [contradiction|reflexivity]|]. cbn [map sum_nat fold_right]. fold (sum_nat (map (fun i => row_size i links - e) l)). split.
    - intros S i [<-|K]; [lia|]. apply IH; [lia|exact K].
    - intros S. rewrite (proj2 IH) by (intros i K; apply S; right; exact K). specialize (S a (or_introl eq_refl)). lia. }
  rewrite Z. split.
  - intros S. destruct D3 as [->|(i & K & <-)]; [lia|]. apply S. apply in_seq. lia.
  - intros S i K. apply in_seq in K. specialize (D2 i ltac:(lia)). lia.
Qed.
Print Assumptions c176_leaf.
(** C176: nested matrices of any depth: one statistic for each leaf block, in row-major order, describing the links of that block. *)
Theorem c176_nested : forall d e ro co links, same_depth d ro -> same_depth d co -> (forall ri ci, In (ri, ci) links -> valid_nlink ro co ri ci) ->
  exists t0 t, ncreate ro co e = Some t0 /\ nbuild t0 links = Ok t /\
  Forall2 (fun s bs => exists n ll, leaf_block ro co bs n /\
             (forall i j, In (i, j) ll <-> In (map (fun b => N.of_nat (fst b)) bs ++ [N.of_nat i], map (fun b => N.of_nat (snd b)) bs ++ [j]) links) /\
             describes s n e ll) (allocate t ro co) (blocks d ro co) /\
  (forall bs n, leaf_block ro co bs n -> In bs (blocks d ro co)).
Proof.
  intros d e ro co links Sr Sc V. destruct (ncreate_ok d ro co e Sr Sc) as (t0 & E0 & I0). destruct (nbuild_inv d e ro co t0 links I0 V) as (t & E & I).
  exists t0, t. split; [exact E0|]. split; [exact E|]. split; [exact (allocate_spec d e ro co links t I)|]. intros bs n L. exact (blocks_all d ro co bs n Sr Sc L).
Qed.
Print Assumptions c176_nested.
(** C176: if no two matrix objects share storage, statistics that are returned describe the present pattern of the object. *)
Theorem c176_truthful : forall l w i s, Forall unshared l -> run l start = Ok w -> patternStatistics w i = Ok s ->
  exists a c, nth_error (objects w) i = Some a /\ cont a = Some c /\ nth_error (containers w) c = Some s.
Proof.
  intros l w i s F R Q. pose proof (run_good l start w good_start F R) as (_ & _ & C). unfold patternStatistics, deref in Q.
  destruct (nth_error (objects w) i) as [a|] eqn:E; [|discriminate]. cbn [bind] in Q. destruct (stats a) as [|x st] eqn:Es; [discriminate|]. injection Q as <-.
  destruct (C i a E) as (c & E1 & E2); [congruence|]. exists a, c. rewrite Es in E2. repeat split; assumption.
Qed.
Print Assumptions c176_truthful.
(** C176: a matrix keeps the statistics it was built with as long as it is neither assigned to nor detached. *)
Theorem c176_kept : forall l go w w', step w (New go) = Ok w' -> go <> [] ->
  Forall (fun o => match o with Assign i _ | Detach i => i <> length (objects w) | _ => True end) l ->
  forall w'', run l w' = Ok w'' -> patternStatistics w'' (length (objects w)) = Ok go.
Proof.
  intros l go w w' S N. cbn in S. injection S as <-. set (n := length (objects w)).
  set (w1 := mkworld _ _). assert (K : exists a, nth_error (objects w1) n = Some a /\ stats a = go).
  { exists (mkobj (Some (length (containers w))) go). split; [|reflexivity]. cbn. unfold n. rewrite nth_error_app2, Nat.sub_diag by lia. reflexivity. }
  clearbody w1 n. revert w1 K. unfold run. induction l as [|o l IH]; intros w1 (a & E & G) F w'' R; cbn [foldM] in R.
  - injection R as <-. unfold patternStatistics, deref. rewrite E. cbn [bind]. rewrite G. destruct go; [contradiction|reflexivity].
  - inversion F as [|? ? Fo Fl]; subst. destruct (step w1 o) as [w2| |] eqn:S; try discriminate. cbn [bind] in R. apply (IH w2); [|exact Fl|exact R].
    assert (L : n < length (objects w1)) by (apply nth_error_Some; congruence).
    destruct o as [g|g c| | |i|i j|i|i j]; cbn in S; unfold deref in S.
    + injection S as <-. exists a. split; [now apply nth_app_l|reflexivity].
    + destruct (nth_error (containers w1) c); [|discriminate]. injection S as <-. exists a. split; [now apply nth_app_l|reflexivity].
    + injection S as <-. exists a. split; [now apply nth_app_l|reflexivity].
    + injection S as <-. exists a. split; [now apply nth_app_l|reflexivity].
    + destruct (nth_error (objects w1) i) as [b|]; [|discriminate]. cbn [bind] in S. destruct (pointee w1 b); try discriminate. injection S as <-. exists a. split; [now apply nth_app_l|reflexivity].
    + destruct (nth_error (objects w1) i) as [b|]; [|discriminate]. cbn [bind] in S. destruct (nth_error (objects w1) j) as [b'|]; [|discriminate]. cbn [bind] in S.
      destruct (i =? j); [injection S as <-; exists a; split; [exact E|reflexivity]|]. destruct (pointee w1 b'); try discriminate. cbn [bind] in S.
      destruct (cont b) as [c|]; [destruct (nth_error (containers w1) c); [|discriminate]|]; injection S as <-; exists a; (split; [|reflexivity]); cbn; rewrite upd_nth_error_other; auto.
    + destruct (nth_error (objects w1) i) as [b|]; [|discriminate]. injection S as <-. exists a. split; [|reflexivity]. cbn. rewrite upd_nth_error_other; auto.
    + destruct (nth_error (objects w1) i) as [b|] eqn:Ei; [|discriminate]. cbn [bind] in S. destruct (nth_error (objects w1) j) as [b'|]; [|discriminate]. injection S as <-.
      destruct (Nat.eq_dec i n) as [->|Ni].
      * exists (mkobj (cont b') (stats b)). split; [cbn; apply upd_nth_error_same; exact L|]. cbn. congruence.
      * exists a. split; [|reflexivity]. cbn. rewrite upd_nth_error_other; auto.
Qed.
Print Assumptions c176_kept.

Definition sA : stat := mkstat 4 2 0 3 2.
Definition sB : stat := mkstat 9 3 0 3 3.
(** C176 violated: attach() keeps the statistics, so they describe another matrix than the one attached. *)
Theorem c176_attach_refuted : exists l w, run l start = Ok w /\ patternStatistics w 1 = Ok [sB] /\
  exists a c, nth_error (objects w) 1 = Some a /\ cont a = Some c /\ nth_error (containers w) c = Some [sA].
Proof. exists [New [sA]; New [sB]; Attach 1 0], (mkworld [[sA]; [sB]] [mkobj (Some 0) [sA]; mkobj (Some 0) [sB]]). repeat split. exists (mkobj (Some 0) [sB]), 0. repeat split. Qed.
Print Assumptions c176_attach_refuted.
(** C176 violated: building another matrix on the same storage leaves stale statistics in the first object. *)
Theorem c176_storage_refuted : exists l w, run l start = Ok w /\ patternStatistics w 0 = Ok [sA] /\
  exists a c, nth_error (objects w) 0 = Some a /\ cont a = Some c /\ nth_error (containers w) c = Some [sB].
Proof. exists [New [sA]; NewOn [sB] 0], (mkworld [[sB]] [mkobj (Some 0) [sA]; mkobj (Some 0) [sB]]). repeat split. exists (mkobj (Some 0) [sA]), 0. repeat split. Qed.
Print Assumptions c176_storage_refuted.
(** C176 violated: a copy has the pattern of the original but no statistics, and asking for them throws; also after assigning back. *)
Theorem c176_copy_refuted : forall l w i s, run l start = Ok w -> patternStatistics w i = Ok s ->
  forall w', step w (Copy i) = Ok w' -> patternStatistics w' i = Ok s /\ patternStatistics w' (length (objects w)) = Throw /\
  forall w'', step w' (Assign i (length (objects w))) = Ok w'' -> patternStatistics w'' i = Throw.
Proof.
  intros l w i s _ Q w' S. unfold patternStatistics, deref in Q. destruct (nth_error (objects w) i) as [a|] eqn:E; [|discriminate]. cbn [bind] in Q.
  cbn in S. unfold deref in S. rewrite E in S. cbn [bind] in S. destruct (pointee w a) as [p| |]; try discriminate. injection S as <-.
  assert (L : i < length (objects w)) by (apply nth_error_Some; congruence). split; [|split].
  - unfold patternStatistics, deref. cbn. rewrite (nth_app_l _ _ _ _ E). exact Q.
  - unfold patternStatistics, deref. cbn. rewrite nth_error_app2, Nat.sub_diag by lia. reflexivity.
  - intros w'' S. cbn in S. unfold deref in S. rewrite (nth_app_l _ _ _ _ E) in S. cbn [bind] in S. rewrite nth_error_app2, Nat.sub_diag in S by lia. cbn [bind nth_error] in S.
    destruct (Nat.eqb_spec i (length (objects w))) as [|_]; [lia|]. unfold pointee in S at 1. cbn [cont] in S. destruct (deref _ _) as [q| |] in S; try discriminate. cbn [bind] in S.
    assert (L' : i < length (objects w ++ [mkobj (Some (length (containers w))) []])) by (rewrite app_length; cbn; lia).
    destruct (cont a) as [c|]; [destruct (nth_error (containers w ++ [p]) c); [|discriminate]|]; injection S as <-; unfold patternStatistics, deref; cbn; rewrite upd_nth_error_same by exact L'; reflexivity.
Qed.
Print Assumptions c176_copy_refuted.

(** Two blocks in a row; the first has a full row. *)
Example c176_meets : let ro := ONode [OLeaf 2] in let co := ONode [OLeaf 4; OLeaf 1] in
  match ncreate ro co 1 with
  | Some t0 => match nbuild t0 [([0; 1], [0; 3]); ([0; 1], [0; 2]); ([0; 0], [1; 0])]%N with
               | Ok t => allocate t ro co = [mkstat 2 2 1 1 2; mkstat 1 1 0 1 2] | _ => False end
  | None => False end /\ blocks 1 ro co = [[(0, 0)]; [(0, 1)]] /\
  match run [New [sA]; Copy 0; Unattached; Assign 2 0; New [sB]; Assign 3 0; Detach 1] start with
  | Ok w => (patternStatistics w 0, patternStatistics w 1, patternStatistics w 3) = (Ok [sA], Throw, Throw) | _ => False end.
Proof. repeat split. Qed.
