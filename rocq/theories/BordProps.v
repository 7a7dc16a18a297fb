(** Properties C96 - C98 of the exchange of patterns and matrix entries on border DOFs. *)
From Coq Require Import Reals Lra.
From Verif Require Import Common CommonFacts ParModel ParSpec ParProofs ParProofs2 BordModel BordSpec BordProofs BordProofs2 BordProofs3.

Local Arguments rsum : simpl never.

(** The example: rank 0 stores the vertices 0, 1, 2 and a cell, rank 1 the vertices 1, 2, 3 and a cell; 1 and 2 are
    shared.  The local patterns couple all vertices of the cell. *)
Definition w96 : world :=
  World 2 (fun q => if q =? 0 then [0; 1; 2; 4] else [1; 2; 3; 5]) (fun _ _ => true) (fun e => if e <? 4 then 1 else 0).
Definition cell96 (e : nat) : bool := 3 <? e.
Definition border96 (q e : nat) : bool := (e =? 1) || (e =? 2).
Definition lindex96 (q e : nat) : nat := e - q.
Definition links96 (q : nat) : list (ldof * ldof) :=
  flat_map (fun a => map (fun b => ((a, 0), (b, 0))) [0; 1; 2]) [0; 1; 2].
Definition none96 (q : nat) (d : ldof) : bool := false.
Definition map96 (q : nat) (d : ldof) : nat := 2 * fst d + snd d.
Lemma dec96 : decomposition w96 cell96 border96 lindex96 (fun _ => 5).
Proof.
  constructor; cbn [nranks held ib w96].
  - intros q Q. destruct q as [|[|q]]; [| |lia]; cbn; repeat constructor; cbn; intuition discriminate.
  - intros q e Q H. destruct q as [|[|q]]; [| |lia]; cbn in *; unfold lindex96; intuition (subst; lia).
  - intros q e e' Q H H' E. unfold lindex96 in E. destruct q as [|[|q]]; [| |lia]; cbn in *; intuition (subst; lia).
  - intros q e Q H B. split; auto. unfold border96, cell96 in *. destruct q as [|[|q]]; [| |lia]; cbn in H;
      intuition (subst; auto; discriminate).
  - intros q s e Q S D H H' _ _. destruct q as [|[|q]]; [| |lia]; destruct s as [|[|s]]; try lia; cbn in *;
      intuition (subst; auto; discriminate).
Qed.
Lemma links96_ok : links_ok w96 lindex96 links96.
Proof.
  intros q a b Q H. cbn in Q.
  assert (D : forall n, n < 3 -> has_dof w96 q (n + q, 0)).
  { intros n N. destruct q as [|[|q]]; [| |lia]; (destruct n as [|[|[|n]]]; [| | |lia]); repeat split; cbn; auto. }
  assert (AB : exists x y, x < 3 /\ y < 3 /\ a = (x, 0) /\ b = (y, 0)).
  { cbn in H. repeat (destruct H as [H|H]; [injection H as <- <-; do 2 eexists; repeat split; auto; lia|]). destruct H. }
  destruct AB as (x & y & X & Y & -> & ->). exists (x + q, 0), (y + q, 0). split; [auto|]. split; [auto|].
  unfold local, lindex96. cbn. split; f_equal; lia.
Qed.
Lemma dof96 q d : has_dof w96 q d -> q < 2 /\ q <= fst d /\ fst d <= q + 2 /\ snd d = 0.
Proof.
  destruct d as (e & k). intros (Q & H & K). cbn [nranks held ndofs w96 fst snd] in *. split; auto.
  destruct q as [|[|q]]; [| |lia]; cbn in H; repeat (destruct H as [<-|H]; [unfold Nat.ltb in K; cbn in K; cbn; lia|]); destruct H.
Qed.
Lemma map96_inj : injective_on w96 lindex96 map96.
Proof.
  intros q d d' H H' E. apply dof96 in H, H'. destruct d, d'. unfold map96, local, lindex96 in E. cbn in *. f_equal; lia.
Qed.
Definition rec96 (q : nat) : border_pattern :=
  match record w96 cell96 border96 lindex96 (fun _ => 5) none96 none96 links96 q with Ok p => p | _ => [] end.

(** ** C97: recording and extending the pattern *)

(** Recording never fails; it stores exactly the couplings of two unconstrained border DOFs, each once. *)
Theorem c97_record W cell border lindex nindices consV consU links q :
  decomposition W cell border lindex nindices -> links_ok W lindex links -> q < nranks W ->
  exists p, record W cell border lindex nindices consV consU links q = Ok p /\ NoDup p /\
    (forall x, In x p -> exists i j, border_dof W border q i /\ border_dof W border q j /\ x = (local lindex q i, j)) /\
    (forall i j, border_dof W border q i -> border_dof W border q j ->
      In (local lindex q i, j) p <-> couples lindex consV consU links q i j).
Proof. intros D L Q. exact (record_spec W cell border lindex nindices D consV consU links L q Q). Qed.
Print Assumptions c97_record.

(** The announced size of a message is the number of data written and, for entries, of values written. *)
Theorem c97_sizes W cell border lindex nindices consV consU links rec mapV mapU s e m :
  decomposition W cell border lindex nindices -> links_ok W lindex links ->
  (forall q, q < nranks W -> record W cell border lindex nindices consV consU links q = Ok (rec q)) ->
  s < nranks W -> In e (held W s) ->
  (forall i j, border_dof W border s i -> border_dof W border s j -> couples lindex consV consU links s i j ->
    In (mapV s (local lindex s i), mapU s (local lindex s j)) (pattern m)) ->
  length (gather_pattern W cell lindex rec s e) = message_size W cell lindex rec s e /\
  exists d, gather_data W cell border lindex nindices rec mapV mapU s e m = Ok d /\ length d = message_size W cell lindex rec s e.
Proof.
  intros D L R S H P. split; [symmetry; eapply size_gather; eauto|].
  exists (map (datum lindex mapV mapU s e m) (gather_pattern W cell lindex rec s e)). split.
  - apply (gather_data_spec W cell border lindex nindices D consV consU links L rec R mapV mapU s e m S H P).
  - rewrite map_length. symmetry. eapply size_gather; eauto.
Qed.
Print Assumptions c97_sizes.

(** In every order of arrival the pattern of a rank becomes its own and all couplings another rank has recorded between
    border DOFs of both ranks. *)
Theorem c97_extend W cell border lindex nindices consV consU links rec mapV mapU order P :
  decomposition W cell border lindex nindices -> links_ok W lindex links ->
  (forall q, q < nranks W -> record W cell border lindex nindices consV consU links q = Ok (rec q)) ->
  Permutation order (interior_border_interior_border W) ->
  exists P', extend_pattern W cell border lindex nindices rec mapV mapU order P = Ok P' /\
    forall q x, q < nranks W -> In x (P' q) <-> In x (P q) \/
      exists s i j, s <> q /\ border_dof W border s i /\ border_dof W border s j /\ border_dof W border q i /\
        border_dof W border q j /\ couples lindex consV consU links s i j /\
        x = (mapV q (local lindex q i), mapU q (local lindex q j)).
Proof. intros D L R PO. exact (extend_spec W cell border lindex nindices D consV consU links L rec R mapV mapU order P PO). Qed.
Print Assumptions c97_extend.

(** For injective container indices: exactly the couplings of DOFs. *)
Corollary c97_extend_iff W cell border lindex nindices consV consU links rec mapV mapU order P :
  decomposition W cell border lindex nindices -> links_ok W lindex links ->
  (forall q, q < nranks W -> record W cell border lindex nindices consV consU links q = Ok (rec q)) ->
  injective_on W lindex mapV -> injective_on W lindex mapU ->
  Permutation order (interior_border_interior_border W) ->
  exists P', extend_pattern W cell border lindex nindices rec mapV mapU order P = Ok P' /\
    forall q i j, has_dof W q i -> has_dof W q j ->
      In (mapV q (local lindex q i), mapU q (local lindex q j)) (P' q) <->
      In (mapV q (local lindex q i), mapU q (local lindex q j)) (P q) \/
      (border_dof W border q i /\ border_dof W border q j /\
       exists s, s <> q /\ border_dof W border s i /\ border_dof W border s j /\ couples lindex consV consU links s i j).
Proof.
  intros D L R IV IU PO. destruct (c97_extend W cell border lindex nindices consV consU links rec mapV mapU order P D L R PO) as (P' & E & F).
  exists P'. split; auto. intros q i j Hi Hj. rewrite F by apply Hi. split; (intros [H|H]; [now left|right]).
  - destruct H as (s & i' & j' & N & B1 & B2 & B3 & B4 & C & E'). injection E' as E1 E2.
    apply IV in E1; [|auto|apply B3]. apply IU in E2; [|auto|apply B4]. subst. eauto 9.
  - destruct H as (B3 & B4 & s & N & B1 & B2 & C). exists s, i, j. auto 9.
Qed.
Print Assumptions c97_extend_iff.

Example c97_case : exists P',
  extend_pattern w96 cell96 border96 lindex96 (fun _ => 5) rec96 map96 map96 (interior_border_interior_border w96) (fun _ => []) = Ok P' /\
  length (P' 0) = 4 /\ In (2, 4) (P' 0) /\ In (0, 2) (P' 1) /\ message_size w96 cell96 lindex96 rec96 0 1 = 2.
Proof. eexists. split; [vm_compute; reflexivity|]. vm_compute. auto 10. Qed.

(** ** C96: make_consistent *)

Definition coupledb lindex (consV consU : nat -> ldof -> bool) (links : nat -> list (ldof * ldof)) q i j : bool :=
  existsb (fun x => pair_eqb (fst x) (local lindex q i) && pair_eqb (snd x) (local lindex q j)) (links q) &&
  negb (consV q (local lindex q i)) && negb (consU q (local lindex q j)).
Lemma coupledb_iff lindex consV consU links q i j : coupledb lindex consV consU links q i j = true <-> couples lindex consV consU links q i j.
Proof.
  unfold coupledb, couples. rewrite !andb_true_iff, !negb_true_iff, existsb_exists. split.
  - intros (((x & H & E) & A) & B). apply andb_true_iff in E as (E1 & E2). apply pair_eqb_iff in E1, E2.
    destruct x. cbn in *. subst. auto.
  - intros (H & A & B). split; [split; auto|auto]. eexists. split; [exact H|]. cbn. apply andb_true_iff. split; now apply pair_eqb_iff.
Qed.

(** One ordering for rows and columns, a matrix whose pattern contains the exchanged pattern.  Whatever the order of
    arrival, no entry is missing; the entries of two border DOFs are summed over the ranks on which both are border
    DOFs and coupled, all other entries are kept. *)
Theorem c96_accumulate W cell border lindex nindices consV consU links rec mp P P' order order' m :
  decomposition W cell border lindex nindices -> links_ok W lindex links ->
  (forall q, q < nranks W -> record W cell border lindex nindices consV consU links q = Ok (rec q)) ->
  injective_on W lindex mp ->
  Permutation order (interior_border_interior_border W) -> Permutation order' (interior_border_interior_border W) ->
  (forall q i j, q < nranks W -> couples lindex consV consU links q i j ->
    In (mp q (local lindex q i), mp q (local lindex q j)) (P q)) ->
  extend_pattern W cell border lindex nindices rec mp mp order P = Ok P' ->
  (forall q, q < nranks W -> incl (P' q) (pattern (m q))) ->
  let val (m : nat -> matrix) q i j := value (m q) (mp q (local lindex q i)) (mp q (local lindex q j)) in
  exists m', accumulate W cell border lindex nindices rec mp mp order' m = Ok m' /\
    forall q i j, has_dof W q i -> has_dof W q j ->
      pattern (m' q) = pattern (m q) /\
      (~ (border_dof W border q i /\ border_dof W border q j) -> val m' q i j = val m q i j) /\
      (border_dof W border q i -> border_dof W border q j -> forall cs, NoDup cs ->
        (forall s, In s cs <-> s <> q /\ border_dof W border s i /\ border_dof W border s j /\ couples lindex consV consU links s i j) ->
        val m' q i j = (val m q i j + rsum (fun s => val m s i j) cs)%R).
Proof.
  intros D L R I PO PO' OWN EX INC val.
  destruct (c97_extend W cell border lindex nindices consV consU links rec mp mp order P D L R PO) as (P1 & E1 & F1).
  rewrite EX in E1. injection E1 as <-.
  destruct (accumulate_spec W cell border lindex nindices D consV consU links L rec R mp I m) with (order := order') as (m' & E & F); auto.
  { intros q s i j Q S B1 B2 B3 B4 C. apply INC; auto. apply F1; auto. destruct (Nat.eq_dec s q) as [->|N].
    - left. now apply OWN.
    - right. exists s, i, j. auto 9. }
  exists m'. split; auto. intros q i j Hi Hj. destruct (F q) as (F2 & F3); [apply Hi|]. destruct (F3 i j Hi Hj). auto.
Qed.
Print Assumptions c96_accumulate.

(** Hence an additive matrix becomes consistent: a shared entry gets, on every rank, the sum of the entries of all ranks
    that share it, if ranks that do not couple the DOFs have a zero there. *)
Theorem c96_consistent W cell border lindex nindices consV consU links rec mp P P' order order' m :
  decomposition W cell border lindex nindices -> links_ok W lindex links ->
  (forall q, q < nranks W -> record W cell border lindex nindices consV consU links q = Ok (rec q)) ->
  injective_on W lindex mp ->
  Permutation order (interior_border_interior_border W) -> Permutation order' (interior_border_interior_border W) ->
  (forall q i j, q < nranks W -> couples lindex consV consU links q i j ->
    In (mp q (local lindex q i), mp q (local lindex q j)) (P q)) ->
  extend_pattern W cell border lindex nindices rec mp mp order P = Ok P' ->
  (forall q, q < nranks W -> incl (P' q) (pattern (m q))) ->
  let val (m : nat -> matrix) q i j := value (m q) (mp q (local lindex q i)) (mp q (local lindex q j)) in
  exists m', accumulate W cell border lindex nindices rec mp mp order' m = Ok m' /\
    forall i j sharing, NoDup sharing -> (forall s, In s sharing <-> border_dof W border s i /\ border_dof W border s j) ->
      (forall s, In s sharing -> couples lindex consV consU links s i j \/ val m s i j = 0%R) ->
      forall q, In q sharing -> val m' q i j = rsum (fun s => val m s i j) sharing.
Proof.
  intros D L R I PO PO' OWN EX INC val.
  destruct (c96_accumulate W cell border lindex nindices consV consU links rec mp P P' order order' m D L R I PO PO' OWN EX INC) as (m' & E & F).
  exists m'. split; auto. intros i j sh N SH Z q Q. destruct (proj1 (SH q) Q) as (Bi & Bj).
  destruct (F q i j (proj1 Bi) (proj1 Bj)) as (_ & _ & K). fold val in K.
  set (cs := filter (fun s => negb (s =? q) && coupledb lindex consV consU links s i j) sh).
  assert (KC : val m' q i j = (val m q i j + rsum (fun s => val m s i j) cs)%R).
  2:{ rewrite KC. unfold cs. rewrite rsum_filter.
    assert (Q1 : val m q i j = rsum (fun s => if s =? q then val m s i j else 0%R) sh).
    { rewrite (rsum_single _ q); auto; [now rewrite Nat.eqb_refl|]. intros s _ NE. now destruct (Nat.eqb_spec s q). }
    rewrite Q1, <- rsum_plus. apply rsum_ext. intros s S. destruct (Nat.eqb_spec s q) as [->|NE]; cbn [negb andb]; [lra|].
    destruct (coupledb lindex consV consU links s i j) eqn:C; [lra|].
    destruct (Z s S) as [C'|Z0]; [|rewrite Z0; lra]. apply coupledb_iff in C'. congruence. }
  apply (K Bi Bj cs).
  - apply NoDup_filter, N.
  - intros s. unfold cs. rewrite filter_In, SH, andb_true_iff, negb_true_iff, Nat.eqb_neq, coupledb_iff. tauto.
Qed.
Print Assumptions c96_consistent.

(** Two ranks with the entry 1 or 2 for every coupling: the shared entries become 3 on both. *)
Definition m96 (q : nat) : matrix :=
  Matrix (map (fun x => (map96 q (fst x), map96 q (snd x))) (links96 q)) (fun _ _ => if q =? 0 then 1%R else 2%R).
Example c96_case : exists m',
  accumulate w96 cell96 border96 lindex96 (fun _ => 5) rec96 map96 map96 (interior_border_interior_border w96) m96 = Ok m' /\
  value (m' 0) 2 4 = 3%R /\ value (m' 1) 0 2 = 3%R /\ value (m' 0) 0 2 = 1%R /\ value (m' 1) 2 4 = 2%R.
Proof. eexists. split; [vm_compute; reflexivity|]. repeat split; vm_compute; lra. Qed.
Example c96_hypotheses : exists P' ,
  (forall q, q < nranks w96 -> record w96 cell96 border96 lindex96 (fun _ => 5) none96 none96 links96 q = Ok (rec96 q)) /\
  extend_pattern w96 cell96 border96 lindex96 (fun _ => 5) rec96 map96 map96 (interior_border_interior_border w96)
    (fun q => pattern (m96 q)) = Ok P' /\
  (forall q, q < 2 -> incl (P' q) (pattern (m96 q))).
Proof.
  eexists. split; [|split; [vm_compute; reflexivity|]].
  - intros q Q. cbn in Q. destruct q as [|[|q]]; [reflexivity|reflexivity|lia].
  - intros q Q. destruct q as [|[|q]]; [| |lia]; intros x H; vm_compute in H |- *; exact H.
Qed.

(** Test and trial space of the same type but with different orderings: the accumulator is constructed with the spaces
    in the wrong order and uses the ordering of the one for the indices of the other.  The values of the other rank
    are added to wrong entries - here those of an interior DOF - or to entries that do not exist. *)
Definition mapv96 (q : nat) (d : ldof) : nat := fst d.
Definition mapu96 (q : nat) (d : ldof) : nat := 2 - fst d.
Definition full96 (q : nat) : matrix :=
  Matrix (flat_map (fun a => map (fun b => (a, b)) [0; 1; 2]) [0; 1; 2]) (fun _ _ => if q =? 0 then 1%R else 2%R).
Theorem c96_spaces_refuted : exists m',
  accumulate w96 cell96 border96 lindex96 (fun _ => 5) rec96 mapv96 mapu96 (interior_border_interior_border w96) full96 = Ok m' /\
  injective_on w96 lindex96 mapv96 /\ injective_on w96 lindex96 mapu96 /\
  (* vertex 0 of rank 0 is no border DOF *)
  border96 0 0 = false /\
  value (full96 0) (mapv96 0 (0, 0)) (mapu96 0 (0, 0)) = 1%R /\ value (m' 0) (mapv96 0 (0, 0)) (mapu96 0 (0, 0)) = 3%R /\
  (* the shared coupling of the vertices 2 and 2 *)
  value (m' 0) (mapv96 0 (2, 0)) (mapu96 0 (2, 0)) = 1%R /\
  value (m' 1) (mapv96 1 (1, 0)) (mapu96 1 (1, 0)) = 3%R.
Proof.
  eexists. split; [vm_compute; reflexivity|]. split; [|split; [|split; [reflexivity|repeat split; vm_compute; lra]]].
  - intros q d d' H H' E. apply dof96 in H, H'. destruct d, d'. unfold mapv96, local, lindex96 in E. cbn [fst snd] in *. f_equal; lia.
  - intros q d d' H H' E. apply dof96 in H, H'. destruct d, d'. unfold mapu96, local, lindex96 in E. cbn [fst snd] in *. f_equal; lia.
Qed.
Print Assumptions c96_spaces_refuted.

(** ** C98: BorderIndexIdCache *)

(** A new cache describes exactly the border entities. *)
Theorem c98_fresh n l : NoDup (map eindex l) -> NoDup (map eid l) -> (forall e, In e l -> eindex e < n) ->
  let c := cache_update n l empty_cache in
  (forall e, In e l -> is_border_entity c (eindex e) = is_border e) /\
  (forall i, is_border_entity c i = true -> exists e, In e l /\ is_border e = true /\ eindex e = i) /\
  (forall i id, get_id c i = Ok id <-> exists e, In e l /\ is_border e = true /\ eindex e = i /\ eid e = id) /\
  (forall i id, find_index c id = Some i <-> exists e, In e l /\ is_border e = true /\ eindex e = i /\ eid e = id) /\
  (forall i id, get_index c id = Ok i <-> find_index c id = Some i).
Proof.
  intros A B C c. destruct (cache_fresh n l A B C) as (F1 & F2 & F3 & F4). repeat (split; [assumption|]).
  intros i id. unfold get_index, find_index. destruct (lookup id (id_to_index c)); split; intros H; congruence.
Qed.
Print Assumptions c98_fresh.

(** index and id are inverse to each other. *)
Corollary c98_inverse n l i id : NoDup (map eindex l) -> NoDup (map eid l) -> (forall e, In e l -> eindex e < n) ->
  let c := cache_update n l empty_cache in get_id c i = Ok id <-> get_index c id = Ok i.
Proof. intros A B C c. destruct (c98_fresh n l A B C) as (_ & _ & F3 & F4 & F5). fold c in F3, F4, F5. now rewrite F3, F5, F4. Qed.
Print Assumptions c98_inverse.

Definition before98 : list entity := [Entity 7 0 Border; Entity 8 1 Interior; Entity 9 2 Border].
Definition after98 : list entity := [Entity 8 0 Border; Entity 9 1 Interior; Entity 7 2 Elsewhere].
Example c98_case :
  let c := cache_update 3 before98 empty_cache in
  NoDup (map eindex before98) /\ NoDup (map eid before98) /\ get_id c 2 = Ok 9 /\ get_index c 7 = Ok 0 /\ get_index c 8 = Throw.
Proof. cbn. repeat split; repeat constructor; cbn; intuition discriminate. Qed.

(** After the grid has changed, update does not give the cache of the new grid: entities that are no longer border
    entities are still found, under the index of another entity, and flags of entities outside the interior and border
    partition are kept. *)
Theorem c98_update_refuted :
  let c := cache_update 3 after98 (cache_update 3 before98 empty_cache) in
  NoDup (map eindex after98) /\ NoDup (map eid after98) /\
  find_index c 7 = Some 0 /\ find_index c 8 = Some 0 /\ find_index c 9 = Some 2 /\
  is_border_entity c 2 = true /\ get_id c 2 = Throw /\
  find_index (cache_update 3 after98 empty_cache) 7 = None /\ is_border_entity (cache_update 3 after98 empty_cache) 2 = false.
Proof. cbn. repeat split; repeat constructor; cbn; intuition discriminate. Qed.
Print Assumptions c98_update_refuted.

(** What every update does give, whatever the cache contained: the flags of the interior and border entities, exactly
    the new border entities in id, and for each of them the right index. *)
Theorem c98_update n l c0 : NoDup (map eindex l) -> NoDup (map eid l) -> (forall e, In e l -> eindex e < n) ->
  let c := cache_update n l c0 in
  (forall e, In e l -> is_interior_border e = true -> is_border_entity c (eindex e) = is_border e) /\
  (forall i id, get_id c i = Ok id <-> exists e, In e l /\ is_border e = true /\ eindex e = i /\ eid e = id) /\
  (forall e, In e l -> is_border e = true -> find_index c (eid e) = Some (eindex e)).
Proof.
  intros A B C c. set (l' := filter is_interior_border l).
  assert (IN : forall e, In e l -> is_border e = true -> In e l').
  { intros e H K. apply filter_In. split; auto. unfold is_border, is_interior_border in *. now destruct (epart e). }
  assert (IL : forall e, In e l' -> In e l) by (intros e H; now apply filter_In in H).
  destruct (cache_fold l' (nodup_map_filter _ _ _ A) (nodup_map_filter _ _ _ B) (Cache (resize n (border_entities c0)) [] (id_to_index c0)))
    as (F1 & F2 & F3 & F4 & F5 & F6).
  { intros e H. cbn [border_entities]. rewrite resize_length. auto. }
  split; [|split].
  - intros e H K. apply F1. apply filter_In. auto.
  - intros i id. unfold get_id. split.
    + destruct (existsb (fun e => is_border e && (eindex e =? i)) l) eqn:X.
      * apply existsb_exists in X as (e & H & K). apply andb_true_iff in K as (K1 & K2). apply Nat.eqb_eq in K2. subst i.
        unfold c, cache_update. fold l'. rewrite (F3 e (IN e H K1) K1). intros E. injection E as <-. eauto.
      * unfold c, cache_update. fold l'. rewrite F4; [cbn; discriminate|]. intros e H K E.
        assert (Y : existsb (fun e => is_border e && (eindex e =? i)) l = true).
        { apply existsb_exists. exists e. split; [auto|]. rewrite K. cbn. now apply Nat.eqb_eq. }
        congruence.
    + intros (e & H & K & <- & <-). unfold c, cache_update. fold l'. now rewrite (F3 e (IN e H K) K).
  - intros e H K. exact (F5 e (IN e H K) K).
Qed.
Print Assumptions c98_update.
