(** C34: transfer of discrete functions under grid adaptation. *)
From Verif Require Import TransferModel TransferSpec TransferProofs TransferProofs2 TransferProofs3 TransferProofs4.
From Coq Require Import Lra.
Local Open Scope R_scope.

(** C34.  For any number of function spaces with any numbers of vectors: the grid is adapted exactly once, between one
    preAdapt and one postAdapt; every vector is backed up exactly once, before the grid changes; afterwards its space is
    updated exactly once, then the vector is created anew and replayed exactly once. *)
Theorem c34_protocol : forall packs, exists mid, adapt_grid_packs packs = PreAdapt :: mid ++ [PostAdapt] /\ NoDup (adapt_grid_packs packs) /\ In Adapt mid /\
  forall p n, nth_error packs p = Some n -> before mid Adapt (Update p) /\
    forall i, (i < n)%nat -> before mid (Backup p i) Adapt /\ before mid (Update p) (Fresh p i) /\ before mid (Fresh p i) (Replay p i).
Proof.
  intros packs. destruct (packs_spec packs 0) as (B & A & E & ND & HB & HA & HI & HO). exists (iterate_packs 0 packs). split; [reflexivity|].
  assert (NP : ~ In PreAdapt (iterate_packs 0 packs) /\ ~ In PostAdapt (iterate_packs 0 packs)) by (rewrite E, !HI; cbn; tauto).
  split.
  { unfold adapt_grid_packs. constructor.
    - intros I. apply in_app_or in I. destruct I as [I|[I|[]]]; [tauto|discriminate].
    - apply nodup_parts; [rewrite E; exact ND|repeat constructor; intros []|]. intros x X [<-|[]]. tauto. }
  split; [rewrite E; apply in_or_app; right; left; reflexivity|]. intros p n P. rewrite E.
  assert (IA : forall x, part_of 0 packs x -> (forall q i, x <> Backup q i) -> x <> Adapt -> In x A).
  { intros x X N1 N2. apply HI in X. apply in_app_or in X. destruct X as [X|[X|X]]; [apply HB in X; destruct X as (q & i & X); elim (N1 q i X)|congruence|exact X]. }
  split.
  - apply before_app_r. apply (before_split [Adapt]); [left; reflexivity|]. apply IA; try discriminate. cbn. split; [lia|]. rewrite Nat.sub_0_r. apply nth_error_Some. congruence.
  - intros i I. destruct (HO p n i P I) as (H1 & H2). cbn [Nat.add] in H1, H2. split.
    + apply before_split; [|left; reflexivity]. assert (X : part_of 0 packs (Backup p i)) by (exists n; rewrite Nat.sub_0_r; auto with arith).
      apply HI in X. apply in_app_or in X. destruct X as [X|[X|X]]; [exact X|discriminate|]. apply HA in X. destruct X as [(q & X)|(q & j & [X|X])]; discriminate.
    + split; apply before_app_r, (before_app_r A [Adapt]); assumption.
Qed.
Print Assumptions c34_protocol.
(** The same for the two functions for one and two vectors of one space. *)
Theorem c34_protocol_fixed : forall t n, (t = adapt_grid_one /\ n = 1%nat) \/ (t = adapt_grid_two /\ n = 2%nat) ->
  exists mid, t = PreAdapt :: mid ++ [PostAdapt] /\ NoDup t /\ In Adapt mid /\ before mid Adapt (Update 0) /\
    forall i, (i < n)%nat -> before mid (Backup 0 i) Adapt /\ before mid (Update 0) (Fresh 0 i) /\ before mid (Fresh 0 i) (Replay 0 i).
Proof.
  assert (ND : forall t : list event, (fix f l := match l with [] => true | x :: r => negb (existsb (fun y => if (fun a b : event => ltac:(decide equality; apply Nat.eq_dec) : {a = b} + {a <> b}) x y then true else false) r) && f r end) t = true -> NoDup t).
  { induction t as [|x t IH]; intros H; [constructor|]. apply andb_true_iff in H. destruct H as (H1 & H2). constructor; [|apply IH, H2].
    intros I. apply negb_true_iff in H1. rewrite <- not_true_iff_false in H1. apply H1, existsb_exists. exists x. split; [exact I|]. match goal with |- (if ?b then _ else _) = _ => destruct b; congruence end. }
  intros t n [(-> & ->)|(-> & ->)].
  - exists [Backup 0 0; Adapt; Update 0; Fresh 0 0; Replay 0 0]. split; [reflexivity|]. split; [apply ND; reflexivity|]. split; [cbn; tauto|].
    split; [exists [Backup 0 0], [], [Fresh 0 0; Replay 0 0]; reflexivity|]. intros i I. assert (i = 0%nat) as -> by lia. split; [|split].
    + exists [], [], [Update 0; Fresh 0 0; Replay 0 0]. reflexivity.
    + exists [Backup 0 0; Adapt], [], [Replay 0 0]. reflexivity.
    + exists [Backup 0 0; Adapt; Update 0], [], []. reflexivity.
  - exists [Backup 0 0; Backup 0 1; Adapt; Update 0; Fresh 0 0; Replay 0 0; Fresh 0 1; Replay 0 1]. split; [reflexivity|]. split; [apply ND; reflexivity|]. split; [cbn; tauto|].
    split; [exists [Backup 0 0; Backup 0 1], [], [Fresh 0 0; Replay 0 0; Fresh 0 1; Replay 0 1]; reflexivity|]. intros i I. assert (C : i = 0%nat \/ i = 1%nat) by lia. destruct C as [-> | ->]; (split; [|split]).
    + exists [], [Backup 0 1], [Update 0; Fresh 0 0; Replay 0 0; Fresh 0 1; Replay 0 1]. reflexivity.
    + exists [Backup 0 0; Backup 0 1; Adapt], [], [Replay 0 0; Fresh 0 1; Replay 0 1]. reflexivity.
    + exists [Backup 0 0; Backup 0 1; Adapt; Update 0], [], [Fresh 0 1; Replay 0 1]. reflexivity.
    + exists [Backup 0 0], [], [Update 0; Fresh 0 0; Replay 0 0; Fresh 0 1; Replay 0 1]. reflexivity.
    + exists [Backup 0 0; Backup 0 1; Adapt], [Fresh 0 0; Replay 0 0], [Replay 0 1]. reflexivity.
    + exists [Backup 0 0; Backup 0 1; Adapt; Update 0; Fresh 0 0; Replay 0 0], [], []. reflexivity.
Qed.
Print Assumptions c34_protocol_fixed.

(** C34.  Every transfer that ends normally: data is saved for exactly the old leaves and the ancestors that may replace
    them, for a leaf its own coefficients; every new cell takes its local values from itself if it has data, otherwise by
    interpolation from its nearest ancestor with data; every entry of the new vector is the average of the local values
    of all cells that contain this DOF. *)
Theorem c34_average : forall F old new odofs ndofs vanish u u', uniform F -> leaf_set old ->
  (forall e, In e new -> length (ndofs e) = Common.sum_nat (sizes F e)) ->
  (forall e a k l, In e new -> ancestor a e -> (k < leaves F)%nat -> length (interp F e a k l) = size F e k) ->
  transfer F old new odofs ndofs vanish u = Ok u' ->
  exists (m : tmap) (w : cell -> nat -> R),
    (forall a, m a <> None <-> saved old vanish a) /\ (forall c, In c old -> m c = Some (map u (odofs c))) /\
    (forall e, In e new -> exists a v, source m e a v /\ forall i, (i < length (ndofs e))%nat -> gets F e a v i (w e i)) /\
    forall d, u' d = average (at_dof ndofs d w new) (at_dof ndofs d (fun _ _ => 1) new).
Proof.
  intros F old new odofs ndofs vanish u u' HU LS LD LI E. unfold transfer in E. apply CommonFacts.bind_ok in E. destruct E as ((ch, m) & EB & ER). cbn [fst snd] in ER.
  destruct (backup_facts F HU old odofs vanish u _ _ (no_cache_ok F) LS EB) as ((G1 & G2) & D & K). cbn [fst snd] in *.
  pose proof (replay_ok_nearest F new ndofs m ch u' ER) as NN.
  exists m, (fun e i => nth i (local F ndofs m e) 0). split; [exact D|]. split; [exact K|]. split.
  - intros e I. destruct (local_spec F HU new ndofs m LD LI e I (NN e I)) as (a & v & S & _ & W). exists a, v. auto.
  - destruct (replay_facts F HU new ndofs m LD LI ch G1 G2 NN) as (u'' & EU & V). rewrite ER in EU. injection EU as <-. exact V.
Qed.
Print Assumptions c34_average.

(** C34.  A function that is representable on all cells involved is reconstructed exactly, whatever is refined and
    coarsened: the transfer ends normally and the new vector holds its coefficients on the new grid. *)
Theorem c34_reconstructs : forall F old new odofs ndofs vanish u coef g, uniform F -> leaf_set old -> (forall c, In c old -> c <> []) -> adapted old new vanish ->
  represents F old new odofs vanish u coef ->
  (forall e, In e new -> length (ndofs e) = Common.sum_nat (sizes F e)) ->
  (forall e a k l, In e new -> ancestor a e -> (k < leaves F)%nat -> length (interp F e a k l) = size F e k) ->
  (forall e i, In e new -> (i < length (ndofs e))%nat -> nth i (coef e) 0 = g (nth i (ndofs e) 0%nat)) ->
  exists u', transfer F old new odofs ndofs vanish u = Ok u' /\
    forall d, ((exists e, In e new /\ In d (ndofs e)) -> u' d = g d) /\ ((forall e, In e new -> ~ In d (ndofs e)) -> u' d = 0).
Proof. intros F old new odofs ndofs vanish u coef g HU LS NE AD REP LD LI HG. exact (transfer_exact F HU old new odofs vanish u coef LS NE REP ndofs g AD LD LI HG). Qed.
Print Assumptions c34_reconstructs.

(** A cell is coarsened, another one refined. *)
Example c34_meets : uniform p0 /\ leaf_set old0 /\ adapted old0 new0 vanish0 /\ represents p0 old0 new0 odofs0 vanish0 u0 coef0 /\
  exists u', transfer p0 old0 new0 odofs0 ndofs0 vanish0 u0 = Ok u' /\ u' 0%nat = 5 /\ u' 1%nat = 7 /\ u' 2%nat = 7.
Proof.
  split; [apply uniform0|]. split; [apply leaf_set0|]. split; [apply adapted0|]. split; [apply represents0|].
  destruct (c34_reconstructs p0 old0 new0 odofs0 ndofs0 vanish0 u0 coef0 g0) as (u' & E & V).
  - apply uniform0.
  - apply leaf_set0.
  - intros c [<-|[<-|[<-|[]]]]; discriminate.
  - apply adapted0.
  - apply represents0.
  - intros e [<-|[<-|[<-|[]]]]; reflexivity.
  - intros e a k l _ _ K. cbn in K. assert (k = 0%nat) as -> by lia. reflexivity.
  - intros e i [<-|[<-|[<-|[]]]] I; cbn in I; assert (i = 0%nat) as -> by lia; reflexivity.
  - exists u'. split; [exact E|]. split; [|split].
    + apply (V 0%nat). exists [0%nat]. cbn. auto.
    + apply (V 1%nat). exists [0; 1]%nat. cbn. auto.
    + apply (V 2%nat). exists [1; 1]%nat. cbn. auto.
Qed.

(** C34 fails for spaces whose local size varies among cells of one geometry type: the offsets and sizes are cached by
    geometry type, so the coefficients of an ancestor are written past the end of its vector. *)
Theorem c34_varying_sizes_refuted : exists F old new odofs ndofs vanish u, ~ uniform F /\ (forall c, length (sizes F c) = leaves F) /\
  adapted old new vanish /\ transfer F old new odofs ndofs vanish u = UB.
Proof.
  exists p_varying, [[0; 0]; [1; 0]]%nat, [[0%nat]], (fun _ => [0%nat]), (fun _ => [0; 1]%nat), vanish0, (fun _ => 0). split; [|split; [|split]].
  - intros (H & _). specialize (H [0%nat] [1%nat] eq_refl). vm_compute in H. discriminate.
  - intros c. unfold p_varying. cbn. destruct (cell_eq c [0%nat]); reflexivity.
  - intros e [<-|[]]. right. right. exists [0; 0]%nat. split; [left; reflexivity|]. apply (climbs_up _ _ [0; 0]%nat); [constructor|reflexivity|reflexivity].
  - reflexivity.
Qed.
Print Assumptions c34_varying_sizes_refuted.
