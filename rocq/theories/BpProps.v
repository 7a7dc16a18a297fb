(** Properties C162 and C163 of the function space facades of the boilerplate code. *)
From Coq Require Import Reals Permutation Lra.
From Verif Require Import Common CommonFacts ParModel ParSpec ParProofs ParProofs2 DdModel DdSpec DdProofs DdProofs2 BpModel BpSpec BpProofs.

Local Arguments rsum : simpl never.

(** ** C162: a program sees the same space on any number of processes *)

Lemma make_consistent_owner W porder order part (v : dvec R) :
  grid_ok W false -> Permutation porder (ib_all_messages W false) -> rank_partition W porder = Ok part ->
  Permutation order (interior_border_all W) ->
  exists z, BpModel.make_consistent W Overlapping porder order v = Ok z /\
    forall q i, has_dof W q i -> val (z q) i = val (v (at_dof 0 (part q) i)) i.
Proof.
  intros G P E PO. unfold BpModel.make_consistent. rewrite E. cbn [bind].
  assert (O : forall q i, has_dof W q i -> exists r, smallest_ib W (fst i) r /\ active W r i /\
    forall s, has_dof W s i -> at_dof 0 (part s) i = r).
  { intros q i H. destruct (owner_exists W false q i G H) as (r & R1 & R2). exists r. repeat split; try apply R1; try apply R2.
    intros s S. now apply (owner_part W false porder part s i r). }
  assert (M : forall q i s, has_dof W q i -> has_dof W s i ->
      val (mask_foreign_dofs W part v s) i = if at_dof 0 (part q) i =? s then val (v s) i else 0%R).
  { intros q i s H S. unfold mask_foreign_dofs. rewrite (tabulate_val W _ s i S).
    destruct (O q i H) as (r & _ & _ & K). now rewrite (K q H), (K s S). }
  destruct (Nat.ltb_spec 1 (nranks W)) as [L|L].
  - destruct (ib_all_sum W order (proj1 G) (mask_foreign_dofs W part v) PO (tabulate_sized W _)) as (z & EZ & _ & F).
    exists z. split; auto. intros q i H. rewrite (F q i H). destruct (O q i H) as (r & R1 & RA & K).
    destruct (actives_spec W i) as (A1 & A2). rewrite (K q H).
    rewrite (rsum_one _ r); auto.
    + rewrite (M q i r H (proj1 RA)), (K q H), Nat.eqb_refl. destruct (ib W q (fst i)) eqn:B; [lra|].
      rewrite (M q i q H H), (K q H). destruct (Nat.eqb_spec r q) as [->|D]; [|lra]. destruct RA as (_ & RA). congruence.
    + now apply A2.
    + intros s S D. apply A2 in S as (S & _). rewrite (M q i s H S), (K q H). destruct (Nat.eqb_spec r s); [congruence|auto].
  - eexists. split; [reflexivity|]. intros q i H. rewrite (M q i q H H). destruct (O q i H) as (r & R1 & RA & K).
    assert (r = q) as -> by (destruct H as (H & _), R1 as ((R1 & _) & _); lia). rewrite (K q H), Nat.eqb_refl. auto.
Qed.

(** In overlapping computations any program of calls on a new space succeeds and has the effect it has without
    distribution: a DOF is constrained exactly if it lies on the Dirichlet boundary (not if it only lies on the
    processor boundary), and afterwards every copy of every DOF holds the undistributed value.  Before the first call
    the vectors need only be right on the owner. *)
Theorem c162_overlapping W F porder order os st g :
  grid_ok W false -> Permutation porder (ib_all_messages W false) -> Permutation order (interior_border_all W) ->
  overlap_ok W F ->
  (forall q, cc st q = []) -> (forall d, ~ constrained g d) ->
  (forall q d x, has_dof W q d -> smallest_ib W (fst d) q -> val (vectors st x q) d = values g x d) ->
  (exists g', gruns W F os g g') /\
  forall g', gruns W F os g g' -> exists st', run W F Overlapping porder order os st = Ok st' /\
    forall x, In (Some x) (map written os) \/ consistent W (vectors st x) (values g x) ->
      consistent W (vectors st' x) (values g' x).
Proof.
  intros G P PO OV CC0 C0 V0. split; [apply gruns_exist; intros d; now right|]. intros g' GR.
  destruct (partition_spec W false porder G P) as (part & E & _).
  set (source := fun q d => at_dof 0 (part q) d).
  assert (SRC : forall q d, has_dof W q d -> smallest_ib W (fst d) (source q d) /\ active W (source q d) d).
  { intros q d H. destruct (owner_exists W false q d G H) as (r & R1 & R2).
    unfold source. now rewrite (owner_part W false porder part q d r). }
  destruct (run_agrees W F Overlapping porder order source) with (os := os) (g := g) (g' := g') (st := st) as (st' & E' & A & U & C); auto.
  - intros q d H. now apply SRC.
  - intros q d H. destruct (SRC q d H) as (R1 & (R2 & _)). unfold source at 1. now apply (owner_part W false porder part).
  - intros v _. destruct (make_consistent_owner W porder order part v G P E PO) as (z & Z & ZV). exists z. auto.
  - intros dirichlet q d H. destruct (SRC q d H) as (_ & RA). destruct OV as (OV0 & OV1 & OV2). unfold assembled. rewrite in_app_iff, !in_flat_map. split.
    + intros [(f & I & D)|(f & I & D)].
      * destruct (dirichlet (fid f)) eqn:B; [|easy]. exists (source q d), f. destruct RA as ((RA & _) & _). auto.
      * exfalso. eapply OV2; eauto.
    + intros (s & f & Q & I & B & D). left. destruct (OV1 s (source q d) f d RA Q I D) as (h & I2 & N & D2). exists h. split; auto. now rewrite N, B.
  - intros q d H. destruct (SRC q d H) as (R1 & (R2 & _)). rewrite CC0. split; [specialize (C0 d); cbn; tauto|]. intros x. auto.
  - exists st'. split; auto. intros x [I|K]; [now apply C|].
    destruct (in_dec (fun a b : option nat => ltac:(decide equality; apply Nat.eq_dec)) (Some x) (map written os)) as [J|J]; [now apply C|].
    destruct (U x J) as (U1 & U2). rewrite U1. intros q d H. rewrite U2. now apply K.
Qed.
Print Assumptions c162_overlapping.

(** The same on one process, where nothing is communicated. *)
Theorem c162_sequential W F porder order os st g :
  nranks W = 1 -> (forall q, cc st q = []) -> (forall d, ~ constrained g d) ->
  (forall x, consistent W (vectors st x) (values g x)) ->
  (exists g', gruns W F os g g') /\
  forall g', gruns W F os g g' -> exists st', run W F Sequential porder order os st = Ok st' /\
    forall x, consistent W (vectors st' x) (values g' x).
Proof.
  intros N CC0 C0 V0. split; [apply gruns_exist; intros d; now right|]. intros g' GR.
  destruct (run_agrees W F Sequential porder order (fun q _ => q)) with (os := os) (g := g) (g' := g') (st := st) as (st' & E' & A & U & C); auto.
  - intros v _. exists v. auto.
  - intros dirichlet q d H. unfold assembled. rewrite in_app_iff, in_flat_map. split.
    + intros [(f & I & D)|[]]. destruct (dirichlet (fid f)) eqn:B; [|easy]. exists q, f. destruct H as (H & _). auto.
    + intros (s & f & Q & I & B & D). left. assert (s = q) as -> by (destruct H as (H & _); lia). exists f. now rewrite B.
  - intros q d H. rewrite CC0. split; [specialize (C0 d); cbn; tauto|]. intros x. now apply V0.
  - exists st'. split; auto. intros x q d H. now apply A.
Qed.
Print Assumptions c162_sequential.

(** In nonoverlapping computations this holds as far as every rank that stores a DOF of the Dirichlet boundary also
    stores a Dirichlet boundary face with it.  Missing: the grids where that is not so, see the next theorem. *)
Theorem c162_nonoverlapping_partial W F porder order os st g :
  (forall q d dirichlet, has_dof W q d -> on_dirichlet W F dirichlet d ->
     exists f, In f (boundary_faces F q) /\ dirichlet (fid f) = true /\ In d (fdofs f)) ->
  (forall q, cc st q = []) -> (forall d, ~ constrained g d) ->
  (forall x, consistent W (vectors st x) (values g x)) ->
  forall g', gruns W F os g g' -> exists st', run W F Nonoverlapping porder order os st = Ok st' /\
    forall x, consistent W (vectors st' x) (values g' x).
Proof.
  intros N CC0 C0 V0 g' GR.
  destruct (run_agrees W F Nonoverlapping porder order (fun q _ => q)) with (os := os) (g := g) (g' := g') (st := st) as (st' & E' & A & U & C); auto.
  - intros v _. exists v. auto.
  - intros dirichlet q d H. unfold assembled. rewrite in_app_iff, in_flat_map. split.
    + intros [(f & I & D)|[]]. destruct (dirichlet (fid f)) eqn:B; [|easy]. exists q, f. destruct H as (H & _). auto.
    + intros O. left. destruct (N q d dirichlet H O) as (f & I & B & D). exists f. now rewrite B.
  - intros q d H. rewrite CC0. split; [specialize (C0 d); cbn; tauto|]. intros x. now apply V0.
  - exists st'. split; auto. intros x q d H. now apply A.
Qed.
Print Assumptions c162_nonoverlapping_partial.

(** Two ranks share vertex 1; the Dirichlet face {0, 1} belongs to a cell of rank 0.  After assembleConstraints and
    setConstrainedDOFS the two copies of vertex 1 differ. *)
Definition W162 : world := World 2 (fun q => if q =? 0 then [0; 1] else [1; 2]) (fun _ _ => true) (fun _ => 1).
Definition F162 : faces := Faces (fun q => if q =? 0 then [Face 0 [(0, 0); (1, 0)]] else []) (fun _ => []).
Definition st162 : state := State (fun _ => []) (fun _ q e => [0%R]).
Definition os162 : list call := [AssembleConstraints (fun _ => true); SetConstrained 0 1%R].

Theorem c162_nonoverlapping_refuted : exists W F st os, grid_ok W true /\
  (forall q f d, q < nranks W -> In f (boundary_faces F q) -> In d (fdofs f) -> has_dof W q d) /\
  (forall q, cc st q = []) /\ (forall x, consistent W (vectors st x) (fun _ => 0%R)) /\
  exists d, has_dof W 0 d /\ has_dof W 1 d /\
  forall porder order, exists st', run W F Nonoverlapping porder order os st = Ok st' /\
    val (vectors st' 0 0) d <> val (vectors st' 0 1) d.
Proof.
  exists W162, F162, st162, os162. split; [|split; [|split; [|split]]].
  - split; [|split].
    + intros q H. cbn. destruct (q =? 0); repeat constructor; cbn; lia.
    + intros q e Q I. exists q. auto.
    + auto.
  - intros q f d Q I D. cbn in I. destruct (Nat.eqb_spec q 0) as [->|]; [|easy]. destruct I as [<-|[]]. cbn in D.
    destruct D as [<-|[<-|[]]]; repeat split; cbn; auto.
  - reflexivity.
  - intros x q (e, k) H. destruct H as (Q & I & K). cbn in *. assert (k = 0) as -> by lia. reflexivity.
  - exists (1, 0). split; [repeat split; cbn; auto|]. split; [repeat split; cbn; auto|].
    intros porder order. eexists. split; [reflexivity|]. cbn. apply R1_neq_R0.
Qed.
Print Assumptions c162_nonoverlapping_refuted.

(** An overlapping grid that meets the hypotheses: a line of four vertices, each rank stores three of them; the owner of
    the outer vertices sees their boundary faces, and the processor boundary of each rank is a vertex that is neither
    interior nor border there. *)
Definition W162o : world := World 2 (fun q => if q =? 0 then [0; 1; 2] else [1; 2; 3])
  (fun q e => if q =? 0 then e <? 2 else 1 <? e) (fun _ => 1).
Definition F162o : faces := Faces (fun q => if q =? 0 then [Face 0 [(0, 0)]] else [Face 1 [(3, 0)]])
  (fun q => if q =? 0 then [Face 2 [(2, 0)]] else [Face 3 [(1, 0)]]).
Example c162_hypotheses : grid_ok W162o false /\ overlap_ok W162o F162o /\
  (exists q d, has_dof W162o q d /\ In d (assembled F162o Overlapping (fun _ => true) q) /\ ~ on_dirichlet W162o F162o (fun _ => true) d) /\
  (forall d, on_dirichlet W162o F162o (fun i => i =? 1) d <-> d = (3, 0)).
Proof.
  split; [|split; [|split]].
  - split; [|split; [|easy]].
    + intros q Q. cbn in *. destruct (q =? 0); repeat constructor; cbn; lia.
    + intros q e Q I. cbn in *. destruct (Nat.ltb_spec e 2) as [L|L].
      * exists 0. cbn. split; [lia|]. split; [|first [reflexivity | now apply Nat.ltb_lt]]. destruct (q =? 0); cbn in I; lia.
      * exists 1. cbn. split; [lia|]. split; [|first [reflexivity | now apply Nat.ltb_lt]]. destruct (q =? 0); cbn in I; lia.
  - split; [|split].
    + intros q f d Q I D. cbn in *. destruct (Nat.eqb_spec q 0) as [->|N]; cbn in I; destruct I as [<-|[]]; cbn in D; destruct D as [<-|[]]; repeat split; cbn; try lia.
      destruct (Nat.eqb_spec q 0); [lia|]. cbn. auto.
    + intros q r f d A Q I D. cbn in *. destruct A as ((RQ & RI & _) & RB). cbn in *.
      destruct (Nat.eqb_spec q 0) as [->|N]; cbn in I; destruct I as [<-|[]]; cbn in D; destruct D as [<-|[]]; cbn in *;
        destruct (Nat.eqb_spec r 0) as [->|]; cbn in *; try discriminate; try lia; (eexists; split; [left; reflexivity|split; [reflexivity|left; reflexivity]]).
    + intros r f d A I D. destruct A as ((RQ & RI & _) & RB). cbn in *.
      destruct (Nat.eqb_spec r 0) as [->|]; cbn in *; destruct I as [<-|[]]; cbn in D; destruct D as [<-|[]]; cbn in *; discriminate.
  - exists 0, (2, 0). split; [repeat split; cbn; auto|]. split; [cbn; auto|].
    intros (q & f & Q & I & _ & D). cbn in *. destruct (Nat.eqb_spec q 0); destruct I as [<-|[]]; cbn in D; destruct D as [D|[]]; discriminate.
  - intros d. split.
    + intros (q & f & Q & I & B & D). cbn in *. destruct (Nat.eqb_spec q 0); destruct I as [<-|[]]; cbn in D, B; destruct D as [D|[]]; try discriminate; auto.
    + intros ->. exists 1, (Face 1 [(3, 0)]). cbn. repeat split; auto.
Qed.

(** ** C163: structured grids of the boilerplate code *)

(** A box whose lower corner is the origin is accepted and becomes the grid's domain, with the given cells. *)
Theorem c163_origin upper cells periodic overlap :
  yasp_box (repeat 0%R (length upper)) upper cells periodic overlap = Ok (Yasp upper cells periodic overlap).
Proof.
  unfold yasp_box. replace (existsb _ _) with false; auto. symmetry. apply Bool.not_true_iff_false. intros E.
  apply existsb_exists in E as ((l, u) & I & E). apply in_combine_l in I. apply repeat_spec in I. subst l. cbn [fst snd] in E.
  unfold corner_rejected in E. destruct (Rlt_dec _ _) as [H|]; [|easy]. rewrite Rabs_R0 in H. pose proof (Rabs_pos u).
  assert (0 <= Rabs u * (1 / 10 ^ 10))%R by (apply Rmult_le_pos; lra). lra.
Qed.
Print Assumptions c163_origin.

(** The grid that results always starts at the origin.  If the box is accepted, the corner asked for is nearer to the
    origin than 1e-10 times the extension, in every direction; if the corner is further away in any direction, an
    exception is thrown. *)
Theorem c163_corner lower upper cells periodic overlap : length lower = length upper ->
  (forall y, yasp_box lower upper cells periodic overlap = Ok y ->
     lengths y = upper /\ ncells y = cells /\ periodicity y = periodic /\ layers y = overlap /\
     forall d, d < length upper -> (Rabs (nth d lower 0) <= Rabs (nth d upper 0) / 10 ^ 10)%R) /\
  ((exists d, d < length upper /\ (Rabs (nth d upper 0) / 10 ^ 10 < Rabs (nth d lower 0))%R) ->
     yasp_box lower upper cells periodic overlap = Throw).
Proof.
  intros L. unfold yasp_box. destruct (existsb _ _) eqn:E.
  - split; [discriminate|auto].
  - assert (K : forall d, d < length upper -> (Rabs (nth d lower 0) <= Rabs (nth d upper 0) / 10 ^ 10)%R).
    { intros d D. destruct (Rle_lt_dec (Rabs (nth d lower 0%R)) (Rabs (nth d upper 0%R) / 10 ^ 10)%R) as [H|H]; auto. exfalso.
      apply Bool.not_true_iff_false in E. apply E. apply existsb_exists. exists (nth d lower 0%R, nth d upper 0%R). split.
      - rewrite <- combine_nth by auto. apply nth_In. rewrite combine_length. lia.
      - cbn [fst snd]. unfold corner_rejected. destruct (Rlt_dec _ _) as [|N]; auto. exfalso. apply N. lra. }
    split.
    + intros y Y. injection Y as <-. cbn. auto.
    + intros (d & D & H). specialize (K d D). lra.
Qed.
Print Assumptions c163_corner.

(** The extensions are not checked: a box turned inside out is accepted, and a grid with a negative length is asked
    for. *)
Theorem c163_extent_refuted : exists lower upper cells periodic overlap y, length lower = length upper /\
  yasp_box lower upper cells periodic overlap = Ok y /\ (nth 0 upper 0 < nth 0 lower 0)%R /\ (nth 0 (lengths y) 0 < 0)%R.
Proof.
  exists [0%R], [(-1)%R], [4], [false], 1, (Yasp [(-1)%R] [4] [false] 1). split; auto. split; [apply (c163_origin [(-1)%R])|]. cbn. lra.
Qed.
Print Assumptions c163_extent_refuted.

(** The unit cube constructor is the box constructor for the unit cube. *)
Theorem c163_unit dim cells overlap :
  yasp_box (repeat 0%R dim) (repeat 1%R dim) (repeat cells dim) (repeat false dim) overlap = Ok (yasp_unit dim cells overlap).
Proof. pose proof (c163_origin (repeat 1%R dim) (repeat cells dim) (repeat false dim) overlap) as H. now rewrite repeat_length in H. Qed.
Print Assumptions c163_unit.

Example c163_rejects : yasp_box [1%R] [2%R] [4] [false] 1 = Throw.
Proof.
  apply (c163_corner [1%R] [2%R] [4] [false] 1 eq_refl). exists 0. split; [cbn; lia|]. cbn [nth]. rewrite !Rabs_pos_eq by lra. lra.
Qed.
