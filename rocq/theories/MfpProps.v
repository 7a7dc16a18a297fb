(** Properties C99 - C102 of the matrix-free block preconditioners. *)
From Coq Require Import Reals Lra.
From Verif Require Import Common CommonFacts ParModel ParSpec ParProofs ParProofs2 DdProofs MfpModel MfpSpec MfpProofs.

Local Arguments rsum : simpl never.
Local Arguments zsum : simpl never.

(** ** C99: the assembled block Jacobi preconditioner *)

(** For every block size and every decomposition with row pivoting the stored factors and permutation solve the system of
    the block exactly; what was in the result does not matter and nothing else is written. *)
Theorem c99_solves n A lu indices junk z y : decomposes n A lu indices ->
  let x := block_solve n lu (inverse_permutation n indices junk) z y in
  (forall i, i < n -> times n A x i = z i) /\ (forall i, n <= i -> x i = y i).
Proof. exact (solve_spec n A lu indices junk z y). Qed.
Print Assumptions c99_solves.

(** The block is assembled with the weight of the view: the preconditioner inverts the weighted block. *)
Corollary c99_weight n A w lu indices junk z y : decomposes n (fun i j => w * A i j)%R lu indices ->
  let x := block_solve n lu (inverse_permutation n indices junk) z y in
  forall i, i < n -> (w * times n A x i)%R = z i.
Proof.
  intros D x i I. destruct (c99_solves n _ lu indices junk z y D) as (E & _). rewrite <- (E i I). fold x.
  unfold times. rewrite <- rsum_scale. apply rsum_ext. intros. lra.
Qed.
Print Assumptions c99_weight.

(** A matrix of size 3 whose first row is moved last. *)
Definition a99 : mat := fun i j =>
  nth j (nth i [[1; 1; 4]; [2; 4; 2]; [1; 5; 3]]%R []) 0%R.
Definition lu99 : mat := fun i j =>
  nth j (nth i [[2; 4; 2]; [1/2; 3; 2]; [1/2; -(1/3); 11/3]]%R []) 0%R.
Definition indices99 (i : nat) : nat := nth i [2; 0; 1] 0.
Example c99_case : decomposes 3 a99 lu99 indices99.
Proof.
  constructor.
  - intros i I. destruct i as [|[|[|i]]]; [| | |lia]; cbn; lia.
  - intros i k I K E. destruct i as [|[|[|i]]]; [| | |lia]; destruct k as [|[|[|k]]]; cbn in *; lia.
  - intros i j I J. destruct i as [|[|[|i]]]; [| | |lia]; (destruct j as [|[|[|j]]]; [| | |lia]); unfold rsum, lower, upper, a99, lu99; cbn; unfold Nat.ltb; cbn; lra.
  - intros i I. destruct i as [|[|[|i]]]; [| | |lia]; unfold lu99; cbn; lra.
Qed.

(** The iterative version: if the Krylov solver solves the system it is given, the result solves the weighted block. *)
Theorem c99_iterative n A w solver precondition dw inv z :
  (let op := fun x i => (w * times n A x i)%R in
   forall op' : vector -> vector, (forall x i, op' x i = op x i) ->
   forall i, i < n -> op (solver op' (point_jacobi precondition dw inv) z) i = z i) ->
  let x := iterative_solve solver w (times n A) precondition dw inv z (fun _ => 0%R) in
  forall i, i < n -> (w * times n A x i)%R = z i.
Proof.
  intros S x i I. unfold x, iterative_solve. set (yt := solver _ _ z).
  assert (E : (w * times n A yt i)%R = z i) by (apply S; [intros; unfold block_apply; lra|exact I]).
  rewrite <- E. rewrite (times_ext n A (fun i0 => 0 + yt i0)%R yt i); [lra|]. intros. lra.
Qed.
Print Assumptions c99_iterative.

(** The operator that the Krylov solver is given is the weighted block, in both forms of its interface. *)
Theorem c99_block_operator n A w alpha z y i :
  block_apply w (times n A) z i = (w * times n A z i)%R /\
  block_applyscaleadd w (times n A) alpha z y i = (y i + alpha * (w * times n A z i))%R.
Proof. unfold block_applyscaleadd, block_apply. split; ring. Qed.
Print Assumptions c99_block_operator.

(** A direct solver for the block diag(2, 4) with weight 1/2. *)
Example c99_iterative_case :
  let A : mat := fun i j => if i =? j then (if i =? 0 then 2%R else 4%R) else 0%R in
  let solver (_ : vector -> vector) (_ : list R -> list R) (z : vector) : vector := fun i => if i =? 0 then z 0 else (z 1%nat / 2)%R in
  (forall op', (forall x i, op' x i = (1 / 2 * times 2 A x i)%R) ->
   forall i, i < 2 -> (1 / 2 * times 2 A (solver op' (point_jacobi true 1%R [1%R; (1 / 2)%R]) (fun _ => 6%R)) i)%R = 6%R) /\
  iterative_solve solver (1 / 2) (times 2 A) true 1 [1%R; (1 / 2)%R] (fun _ => 6%R) (fun _ => 0%R) 1 = 3%R.
Proof.
  cbv zeta. split.
  - intros op' _ i I. destruct i as [|[|i]]; [| |lia]; unfold times, rsum; cbn; lra.
  - unfold iterative_solve. cbn. lra.
Qed.

(** ** C100: the block SOR preconditioner *)

(** For every numbering of the cells: D_c (v'_c - (1-omega) v_c) = omega (d_c - sum_k A_ck V_k), where V is the new vector
    for the cells visited before c and the old one otherwise. *)
Theorem c100_sweep n omega weight offdiag jacobi before c after z v D :
  NoDup (map cid (before ++ c :: after)) -> interior c = true ->
  (forall a i, i < n -> times n D (jacobi (cid c) a (fun _ => 0%R)) i = a i) ->
  let v' := sor_apply n omega weight offdiag jacobi (before ++ c :: after) z v in
  let V c' := if existsb (Nat.eqb c') (map cid before) then v' c' else v c' in
  forall i, i < n ->
    times n D (fun j => v' (cid c) j - (1 - omega) * v (cid c) j)%R i =
    (omega * (z (cid c) i -
      rsum (fun k => weight * times n (offdiag (cid c) k) (V (nth k (sides c) 0%nat)) i) (seq 0 (length (sides c)))))%R.
Proof.
  intros N IC DJ v' V i I. unfold v'. rewrite (sweep_cell n omega weight offdiag jacobi before c after z v D N DJ i I).
  unfold coupling. rewrite IC. reflexivity.
Qed.
Print Assumptions c100_sweep.

(** With the assembled block Jacobi preconditioner and regular diagonal blocks, for all cells at once. *)
Corollary c100_assembled n omega weight offdiag (diag : nat -> mat) (lu : nat -> mat) indices junk before c after z v :
  NoDup (map cid (before ++ c :: after)) -> interior c = true ->
  decomposes n (fun i j => weight * diag (cid c) i j)%R (lu (cid c)) (indices (cid c)) ->
  let jacobi c := block_solve n (lu c) (inverse_permutation n (indices c) junk) in
  let v' := sor_apply n omega weight offdiag jacobi (before ++ c :: after) z v in
  let V c' := if existsb (Nat.eqb c') (map cid before) then v' c' else v c' in
  forall i, i < n ->
    (weight * times n (diag (cid c)) (fun j => v' (cid c) j - (1 - omega) * v (cid c) j) i)%R =
    (omega * (z (cid c) i -
      rsum (fun k => weight * times n (offdiag (cid c) k) (V (nth k (sides c) 0%nat)) i) (seq 0 (length (sides c)))))%R.
Proof.
  intros N IC D jacobi v' V i I.
  pose proof (c100_sweep n omega weight offdiag jacobi before c after z v (fun i j => weight * diag (cid c) i j)%R N IC) as S.
  cbv zeta in S. fold v' in S. fold V in S. rewrite <- S; auto.
  - unfold times. rewrite <- rsum_scale. apply rsum_ext. intros. lra.
  - intros a k K. destruct (c99_solves n _ _ _ junk a (fun _ => 0%R) D) as (E & _). apply E. exact K.
Qed.
Print Assumptions c100_assembled.

(** A solution of the system is a fixed point of the sweep, and only a solution is. *)
Definition residual n weight offdiag (diag : nat -> mat) (z v : nat -> vector) (c : sor_cell) : vector := fun i =>
  (z (cid c) i - times n (diag (cid c)) (v (cid c)) i -
   rsum (fun k => weight * times n (offdiag (cid c) k) (v (nth k (sides c) 0%nat)) i) (seq 0 (length (sides c))))%R.
Lemma times_minus n A x y i : times n A (fun j => x j - y j)%R i = (times n A x i - times n A y i)%R.
Proof.
  unfold times. replace (rsum (fun j => A i j * x j)%R (seq 0 n) - rsum (fun j => A i j * y j)%R (seq 0 n))%R
    with (rsum (fun j => A i j * x j)%R (seq 0 n) + -1 * rsum (fun j => A i j * y j)%R (seq 0 n))%R by lra.
  rewrite <- rsum_scale, <- rsum_plus. apply rsum_ext. intros. lra.
Qed.
Theorem c100_fixed_point n omega weight offdiag jacobi (diag : nat -> mat) cells z v :
  omega <> 0%R -> NoDup (map cid cells) -> (forall c, In c cells -> interior c = true) ->
  (forall c a i, i < n -> times n (diag c) (jacobi c a (fun _ => 0%R)) i = a i) ->
  (forall c x, In c (map cid cells) -> (forall i, i < n -> times n (diag c) x i = 0%R) -> forall i, i < n -> x i = 0%R) ->
  let v' := sor_apply n omega weight offdiag jacobi cells z v in
  (forall c i, In c cells -> i < n -> residual n weight offdiag diag z v c i = 0%R) <->
  (forall c i, In c (map cid cells) -> i < n -> v' c i = v c i).
Proof.
  intros O N IN DJ REG v'.
  (* the sweep at one cell, when the cells before are unchanged *)
  assert (CELL : forall before c after, cells = before ++ c :: after ->
    (forall c' i, In c' (map cid before) -> i < n -> v' c' i = v c' i) ->
    forall i, i < n -> times n (diag (cid c)) (fun j => v' (cid c) j - v (cid c) j)%R i = (omega * residual n weight offdiag diag z v c i)%R).
  { intros before c after E B i I.
    assert (IC : interior c = true) by (apply IN; rewrite E; apply in_elt).
    pose proof (c100_sweep n omega weight offdiag jacobi before c after z v (diag (cid c))) as S.
    rewrite <- E in S. specialize (S N IC (DJ (cid c)) i I). fold v' in S. cbv zeta in S.
    rewrite (times_minus n (diag (cid c))) in S |- *.
    rewrite (times_scale n (diag (cid c)) (1 - omega) (v (cid c)) i) in S. unfold residual.
    match type of S with context [rsum ?f (seq 0 (length (sides c)))] => set (F := f) in S end.
    rewrite (rsum_ext (fun k => weight * times n (offdiag (cid c) k) (v (nth k (sides c) 0%nat)) i)%R F); [lra|].
    intros k K. unfold F. f_equal. apply times_ext. intros j J. destruct (existsb _ _) eqn:X; auto.
    apply existsb_exists in X as (x & H & X). apply Nat.eqb_eq in X. subst x. symmetry. now apply B. }
  split.
  - intros RS.
    assert (P : forall before after, cells = before ++ after -> forall c i, In c (map cid before) -> i < n -> v' c i = v c i).
    { induction before as [|c before IH] using rev_ind; intros after E c' i H I; [destruct H|].
      rewrite <- app_assoc in E. cbn in E. rewrite map_app in H. apply in_app_iff in H as [H|[<-|[]]].
      - exact (IH _ E c' i H I).
      - assert (ZD : forall i, i < n -> (v' (cid c) i - v (cid c) i)%R = 0%R).
        { apply (REG (cid c) (fun i => v' (cid c) i - v (cid c) i)%R).
          - rewrite E. apply in_map. apply in_elt.
          - intros k K. rewrite (CELL before c after E (IH _ E) k K). rewrite RS; [lra| |auto]. rewrite E. apply in_elt. }
        specialize (ZD i I). lra. }
    intros c i H I. apply (P cells [] (eq_sym (app_nil_r _)) c i H I).
  - intros EQ c i H I. apply in_split in H as (before & after & E).
    assert (B : forall c' i, In c' (map cid before) -> i < n -> v' c' i = v c' i).
    { intros c' k H K. apply EQ; auto. rewrite E, map_app. apply in_or_app. now left. }
    pose proof (CELL before c after E B i I) as S.
    rewrite (times_ext n (diag (cid c)) _ (fun _ => 0 * 0)%R) in S.
    + rewrite (times_scale n (diag (cid c)) 0%R (fun _ => 0%R)) in S. apply (Rmult_eq_reg_l omega); [lra|exact O].
    + intros j J. rewrite EQ; [lra| |exact J]. rewrite E. apply in_map. apply in_elt.
Qed.
Print Assumptions c100_fixed_point.

(** Two cells with blocks of size 1. *)
Definition off100 (c k : nat) : mat := fun _ _ => (-1)%R.
Definition jac100 (c : nat) : vector -> vector -> vector := fun z y i => (z i / 2)%R.
Definition cells100 : list sor_cell := [SorCell 0 true [1]; SorCell 1 true [0]].
Example c100_case :
  let v' := sor_apply 1 1 1 off100 jac100 cells100 (fun _ _ => 4%R) (fun _ _ => 0%R) in
  NoDup (map cid cells100) /\ v' 0 0 = 2%R /\ v' 1 0 = 3%R /\
  (forall c a i, i < 1 -> times 1 (fun _ _ => 2%R) (jac100 c a (fun _ => 0%R)) i = a i) /\
  residual 1 1 off100 (fun _ _ _ => 2%R) (fun _ _ => 4%R) (fun _ _ => 4%R) (SorCell 0 true [1]) 0 = 0%R.
Proof.
  cbv zeta. split; [repeat constructor; cbn; intuition discriminate|]. unfold sor_apply, sor_visit, apply_side, jac100, off100, residual, times, rsum. cbn.
  split; [lra|]. split; [lra|]. split; [intros _ a i I; destruct i; [|lia]; lra|lra].
Qed.

(** ** C101: setup of the preconditioners *)

(** Nonlinear operators need a linearization point. *)
Theorem c101_point_required {U} (s : prec_state U) : point s = None -> pre false s = Throw.
Proof. intros E. unfold pre. now rewrite E. Qed.
Print Assumptions c101_point_required.

Definition no_false {U} (o : op U) : Prop := match o with SetRequire false => False | _ => True end.
Definition no_demand {U} (o : op U) : Prop := match o with SetRequire _ => False | _ => True end.

(** After pre every application succeeds, whatever was done before, if only setup was demanded and never denied. *)
Theorem c101_apply {U} lin (ops : list (op U)) s s' :
  Forall no_false ops -> foldM (step lin) ops prec_init = Ok s -> pre lin s = Ok s' -> exists b, apply_prec lin s' = Ok b.
Proof.
  intros NF H P.
  assert (INV : forall ops s0, Forall no_false ops -> (require_setup s0 = false -> built s0 <> None) -> foldM (step lin) ops s0 = Ok s ->
    require_setup s = false -> built s <> None).
  { clear. induction ops as [|o ops IH]; intros s0 NF I H; cbn in H; [injection H as <-; auto|]. inversion NF; subst.
    destruct (step lin s0 o) as [s1| |] eqn:E; try discriminate. cbn in H. apply (IH s1); auto.
    destruct o as [u|b| |]; cbn in E.
    - injection E as <-. auto.
    - destruct b; [|contradiction]. injection E as <-. discriminate.
    - unfold pre in E. destruct (negb lin && _); [discriminate|]. destruct (require_setup s0) eqn:R; injection E as <-; [discriminate|auto].
    - destruct (apply_prec lin s0); try discriminate. injection E as <-. auto. }
  specialize (INV ops prec_init NF). assert (B : require_setup s = false -> built s <> None) by (apply INV; [discriminate|exact H]).
  unfold pre in P. destruct (negb lin && match point s with None => true | Some _ => false end) eqn:NL; [discriminate|].
  unfold apply_prec. destruct (require_setup s) eqn:R; injection P as <-; cbn.
  - destruct lin; [eauto|]. destruct (point s); [eauto|discriminate].
  - rewrite R. destruct (built s) as [b|] eqn:BB; [|now destruct (B eq_refl)]. destruct lin; [eauto|]. destruct (point s); [eauto|discriminate].
Qed.
Print Assumptions c101_apply.

(** The blocks belong to the linearization point at the time of the demanded setup, and stay so until setup is demanded
    again. *)
Theorem c101_blocks {U} lin (s s' s'' : prec_state U) later b :
  require_setup s = true -> pre lin s = Ok s' -> Forall no_demand later -> foldM (step lin) later s' = Ok s'' ->
  apply_prec lin s'' = Ok b -> b = if lin then None else point s.
Proof.
  intros R P ND H A. unfold pre in P. destruct (negb lin && _) eqn:NL; [discriminate|]. rewrite R in P. injection P as <-.
  assert (INV : require_setup s'' = false /\ built s'' = Some (if lin then None else point s)).
  { assert (K : forall later s0, Forall no_demand later -> require_setup s0 = false -> built s0 = Some (if lin then None else point s) ->
      foldM (step lin) later s0 = Ok s'' -> require_setup s'' = false /\ built s'' = Some (if lin then None else point s)).
    { clear. induction later as [|o l IH]; intros s0 ND R B H; cbn in H; [injection H as <-; auto|]. inversion ND; subst.
      destruct (step lin s0 o) as [s1| |] eqn:E; try discriminate. cbn in H. apply (IH s1); auto;
      (destruct o as [u|bb| |]; cbn in E; [injection E as <-; auto|contradiction| |]).
      - unfold pre in E. destruct (negb lin && _); [discriminate|]. rewrite R in E. injection E as <-. auto.
      - destruct (apply_prec lin s0); try discriminate. injection E as <-. auto.
      - unfold pre in E. destruct (negb lin && _); [discriminate|]. rewrite R in E. injection E as <-. auto.
      - destruct (apply_prec lin s0); try discriminate. injection E as <-. auto. }
    apply (K later _ ND) in H; cbn; auto. }
  destruct INV as (R2 & B2). unfold apply_prec in A. rewrite R2, B2 in A. destruct lin; [congruence|]. destruct (point s''); congruence.
Qed.
Print Assumptions c101_blocks.

(** So a new linearization point alone does not renew the blocks: the caller must demand setup. *)
Example c101_case :
  (let* s := foldM (step false) [SetPoint 1; Pre; Apply; SetPoint 2; Pre] prec_init in apply_prec false s) = Ok (Some 1) /\
  (let* s := foldM (step false) [SetPoint 1; Pre; Apply; SetPoint 2; SetRequire true; Pre] prec_init in apply_prec false s) = Ok (Some 2).
Proof. split; reflexivity. Qed.

(** The first setup of the iterative preconditioner stores the inverse of the weighted diagonal. *)
Theorem c101_diagonal n weight diag i : i < n -> nth i (setup_diagonal n weight diag []) 0%R = (1 / (weight * diag i))%R.
Proof.
  intros I. unfold setup_diagonal, resize_real. rewrite firstn_nil. cbn [app length]. rewrite Nat.sub_0_r.
  assert (K : forall m s i, i < m -> nth i (map (fun val => 1 / val)%R (map (fun p => snd p + weight * diag (fst p))%R (combine (seq s m) (repeat 0%R m)))) 0%R = (1 / (weight * diag (s + i)%nat))%R).
  { induction m as [|m IH]; intros s k K; [lia|]. cbn [seq repeat combine map]. destruct k as [|k]; cbn [nth].
    - rewrite Nat.add_0_r. cbn [fst snd]. f_equal. lra.
    - rewrite IH by lia. now rewrite Nat.add_succ_r. }
  rewrite K by auto. reflexivity.
Qed.
Print Assumptions c101_diagonal.

(** A second setup adds the new diagonal to the inverse of the old one: resize keeps the values. *)
Theorem c101_diagonal_refuted :
  nth 0 (setup_diagonal 1 1 (fun _ => 2%R) (setup_diagonal 1 1 (fun _ => 2%R) [])) 0%R = (2 / 5)%R /\
  (2 / 5)%R <> (1 / (1 * 2))%R.
Proof. unfold setup_diagonal, resize_real. cbn. split; [field|lra]. Qed.
Print Assumptions c101_diagonal_refuted.

(** ** C102: solver statistics *)

(** If no sum overflows, the statistics are those of all values of all ranks. *)
Theorem c102_average ranks data a : stat_avg ranks data = Ok a -> a = mean (all_values ranks data).
Proof.
  unfold stat_avg. destruct (collect ranks (fun q => accumulate_int (data q))) as [l| |] eqn:E; try discriminate.
  cbn. intros H. injection H as <-. rewrite (collect_sum ranks _ data l E).
  - unfold mean. now rewrite size_spec, zsum_rsum.
  - intros q s F. apply accumulate_ok in F. lia.
Qed.
Print Assumptions c102_average.

Theorem c102_stddev ranks data a : 1 < stat_size ranks data -> stat_stddev ranks data = Ok a -> a = deviation (all_values ranks data).
Proof.
  intros N. unfold stat_stddev. destruct (collect ranks (fun q => accumulate_int (data q))) as [l| |] eqn:E; try discriminate.
  cbn [bind]. destruct (collect ranks (fun q => inner_int (data q))) as [l2| |] eqn:E2; try discriminate.
  cbn [bind]. intros H. injection H as <-. rewrite (collect_sum ranks _ data l E) by (intros q s F; apply accumulate_ok in F; lia).
  rewrite (collect_sum ranks _ (fun q => squares (data q)) l2 E2) by (intros q s F; apply inner_ok in F; lia).
  rewrite squares_flat, zsum_squares, zsum_rsum. fold (all_values ranks data). rewrite size_spec in N |- *.
  unfold deviation. f_equal. rewrite deviation_sum by (intros X; rewrite X in N; cbn in N; lia).
  unfold Rdiv at 1. rewrite Rmult_1_l, Rmult_comm. reflexivity.
Qed.
Print Assumptions c102_stddev.

(** They exist for nonnegative values (iteration counts) whose sums and sums of squares fit into an int on every rank. *)
Theorem c102_fits ranks data :
  (forall q x, In x (data q) -> 0 <= x)%Z -> (forall q, zsum (data q) <= int_max)%Z ->
  (forall q, zsum (map (fun x => x * x) (data q)) <= int_max)%Z ->
  exists a d, stat_avg ranks data = Ok a /\ stat_stddev ranks data = Ok d.
Proof.
  intros NN S1 S2. unfold stat_avg, stat_stddev.
  assert (A : collect ranks (fun q => accumulate_int (data q)) = Ok (map (fun q => zsum (data q)) (seq 0 ranks))).
  { apply (foldM_collect _ (fun q => zsum (data q))). intros q _. unfold accumulate_int. rewrite accumulate_fits; [|lia|apply NN].
    rewrite Z.add_0_l. rewrite (proj2 (Z.leb_le _ _) (S1 q)). reflexivity. }
  assert (B : collect ranks (fun q => inner_int (data q)) = Ok (map (fun q => zsum (squares (data q))) (seq 0 ranks))).
  { apply (foldM_collect _ (fun q => zsum (squares (data q)))). intros q _. unfold inner_int. rewrite inner_fits; [|apply NN|lia].
    rewrite Z.add_0_l. unfold squares at 1. rewrite (proj2 (Z.leb_le _ _) (S2 q)). reflexivity. }
  rewrite A, B. cbn [bind]. eauto.
Qed.
Print Assumptions c102_fits.

(** Minimum and maximum, if every rank has a value. *)
Theorem c102_extrema ranks data : 0 < ranks -> (forall q, q < ranks -> data q <> []) ->
  (exists m, stat_min ranks data = Ok m /\ In m (all_values ranks data) /\ forall x, In x (all_values ranks data) -> (m <= x)%Z) /\
  (exists m, stat_max ranks data = Ok m /\ In m (all_values ranks data) /\ forall x, In x (all_values ranks data) -> (x <= m)%Z).
Proof.
  intros R0 NE. split; [apply (stat_best_spec Z.min Z.le)|apply (stat_best_spec Z.max (fun a b => (b <= a)%Z))]; auto; intros; lia.
Qed.
Print Assumptions c102_extrema.

Definition data102 (q : nat) : list Z := if q =? 0 then [3; 5]%Z else [1%Z].
Example c102_case : stat_avg 2 data102 = Ok 3%R /\ stat_stddev 2 data102 = Ok 2%R /\ stat_min 2 data102 = Ok 1%Z /\ stat_max 2 data102 = Ok 5%Z.
Proof.
  split; [cbn; f_equal; lra|]. split; [|split; reflexivity]. 
  unfold stat_stddev. cbn [collect]. change (collect 2 (fun q => accumulate_int (data102 q))) with (Ok [8; 1]%Z).
  change (collect 2 (fun q => inner_int (data102 q))) with (Ok [34; 1]%Z). cbn [bind]. change (stat_size 2 data102) with 3. cbn [comm_sum fold_left].
  f_equal. rewrite <- (sqrt_square 2) by lra. f_equal. cbn. lra.
Qed.

(** A rank that has appended nothing makes minimum and maximum undefined. *)
Theorem c102_empty_refuted ranks data q : q < ranks -> data q = [] -> stat_min ranks data = UB /\ stat_max ranks data = UB.
Proof.
  intros Q E. unfold stat_min, stat_max, stat_best.
  assert (K : forall b, collect ranks (fun q => comm_best b (data q)) = UB).
  { intros b. apply (collect_fail ranks _ q Q); [now rewrite E|]. intros s. unfold comm_best. destruct (data s); discriminate. }
  now rewrite !K.
Qed.
Print Assumptions c102_empty_refuted.

(** Sums are formed in int, although the result is a double: n block solves with 100 iterations each, the default
    maximum, overflow the sum of squares from n = 214749 on. *)
Theorem c102_overflow_refuted n : (214749 <= Z.of_nat n)%Z ->
  stat_stddev 1 (fun _ => repeat 100%Z n) = UB /\
  (forall m, (Z.of_nat m <= 214748)%Z -> exists a, stat_stddev 1 (fun _ => repeat 100%Z m) = Ok a).
Proof.
  assert (SQ : forall n, zsum (squares (repeat 100%Z n)) = (10000 * Z.of_nat n)%Z).
  { induction n0 as [|k IH]; [reflexivity|]. unfold squares in *. cbn [repeat map]. rewrite zsum_cons, IH. lia. }
  assert (SM : forall n, zsum (repeat 100%Z n) = (100 * Z.of_nat n)%Z).
  { induction n0 as [|k IH]; [reflexivity|]. cbn [repeat]. rewrite zsum_cons, IH. lia. }
  assert (NN : forall n x, In x (repeat 100%Z n) -> (0 <= x)%Z) by (intros k x H; apply repeat_spec in H; lia).
  intros N. split.
  - unfold stat_stddev. assert (A : forall r, (let* s := collect 1 (fun q => accumulate_int (repeat 100%Z n)) in UB) = r -> r = UB :> res R).
    { intros r <-. destruct (collect 1 _) as [l| |] eqn:E; auto. exfalso. unfold collect in E. cbn in E.
      unfold accumulate_int in E. rewrite accumulate_fits in E by (try apply NN; lia). destruct (_ || _); discriminate. }
    apply A. f_equal.
    assert (B : collect 1 (fun q => inner_int (repeat 100%Z n)) = UB).
    { apply (collect_fail 1 _ 0); [lia| |].
      - unfold inner_int. rewrite inner_fits by (try apply NN; lia). rewrite SQ.
        destruct n as [|n]; [lia|]. rewrite orb_false_r. destruct (Z.leb_spec (0 + 10000 * Z.of_nat (S n)) int_max) as [L|L]; [|reflexivity].
        unfold int_max in L. lia.
      - intros s. unfold inner_int. rewrite inner_fits by (try apply NN; lia). destruct (_ || _); discriminate. }
    rewrite B. reflexivity.
  - intros m M. destruct (c102_fits 1 (fun _ => repeat 100%Z m)) as (a & d & _ & D); [intros q; apply NN| | |eauto].
    + intros _. rewrite SM. unfold int_max. lia.
    + intros _. change (map (fun x => x * x)%Z (repeat 100%Z m)) with (squares (repeat 100%Z m)). rewrite SQ. unfold int_max. lia.
Qed.
Print Assumptions c102_overflow_refuted.
