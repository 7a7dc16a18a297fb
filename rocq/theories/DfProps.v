(** C151-C154: grid function spaces on dune-functions bases. *)
From Verif Require Import Common CommonFacts DfModel DfSpec DfProofs.

Lemma key_lt m t e k l : In l (all_dofs m) -> names l t e k -> k < maxkey (all_dofs m) t e 0.
Proof. intros H (A & B & C). apply maxkey_lt. right. exists l. repeat split; auto. lia. Qed.
Lemma maxkey_dofs m t e : gapless m -> has_dofs m t e (maxkey (all_dofs m) t e 0).
Proof.
  intros G k. rewrite maxkey_lt. split.
  - intros [H|(l & Hl & <- & <- & H)]; [lia|]. apply G; assumption.
  - intros (l & Hl & A & B & C). right. exists l. repeat split; auto. lia.
Qed.
Lemma last_index_glob m t e k l : consistent m -> In l (all_dofs m) -> names l t e k -> last_index (all_dofs m) t e k = Some (ld_glob l).
Proof.
  intros C H N. destruct (lasti_some (all_dofs m) t e k None (ex_intro _ l (conj H N))) as (l' & H' & N' & E).
  unfold lasti, exactly in E. unfold last_index. rewrite E. f_equal. apply C; [exact H'|exact H|]. destruct N as (<- & <- & <-). exact N'.
Qed.
Lemma in_entities m t e : In (t, e) (entities m) <-> In t (all_types m) /\ e < me_size m t.
Proof.
  unfold entities. rewrite in_flat_map. split.
  - intros (t' & H & I). apply in_map_iff in I. destruct I as (e' & E & I). injection E as -> ->. apply in_seq in I. split; [exact H|lia].
  - intros [H I]. exists t. split; [exact H|]. apply in_map_iff. exists e. split; [reflexivity|apply in_seq; lia].
Qed.

(** ** C151: the ordering numbers the dofs of the entities as the basis does *)

(** Every dof of every element is found under its entity and number with the index of the basis, and every
    entity announces as many dofs as it has and lists their indices in order. *)
Theorem c151_indices m : valid m -> inhabited_types m -> consistent m ->
  exists o, update m = Ok o /\
    (forall l, In l (all_dofs m) -> container_index o (ld_type l) (ld_ent l) (ld_key l) = Ok (Some (ld_glob l))) /\
    (gapless m -> forall t e, In (t, e) (entities m) ->
       exists r, entity_indices o t e = Ok r /\ entity_size o t e = Ok (length r) /\ has_dofs m t e (length r) /\
         forall k l, In l (all_dofs m) -> names l t e k -> nth_error r k = Some (Some (ld_glob l))).
Proof.
  intros V Y C. destruct (update_spec m V Y) as (o & E & A & B & D & _). exists o. split; [exact E|].
  assert (Q : forall t e k l, In t (all_types m) -> e < me_size m t -> In l (all_dofs m) -> names l t e k -> nth_error (nth e (o_index o t) []) k = Some (Some (ld_glob l))).
  { intros t e k l Ht He Hl Hn. pose proof (key_lt m t e k l Hl Hn) as K. rewrite (nth_error_nth' _ None) by (rewrite B by assumption; exact K).
    rewrite D by assumption. rewrite (last_index_glob m t e k l) by assumption. reflexivity. }
  split.
  - intros l Hl. destruct (V l Hl) as [H1 H2]. unfold container_index. rewrite (nth_error_nth' _ []) by (rewrite A by exact H1; exact H2).
    rewrite (Q _ _ _ l) by (try assumption; repeat split). reflexivity.
  - intros G t e H. apply in_entities in H. destruct H as [Ht He]. exists (nth e (o_index o t) []).
    unfold entity_indices, entity_size. rewrite (nth_error_nth' _ []) by (rewrite A by exact Ht; exact He). split; [reflexivity|]. split; [reflexivity|].
    split; [rewrite B by assumption; apply maxkey_dofs, G|]. intros k l. apply Q; assumption.
Qed.
Print Assumptions c151_indices.

Lemma NoDup_flat_map {A B} (f : A -> list B) l : NoDup l -> (forall x, In x l -> NoDup (f x)) ->
  (forall x y z, In x l -> In y l -> In z (f x) -> In z (f y) -> x = y) -> NoDup (flat_map f l).
Proof.
  induction 1 as [|x l Hx Hl IH]; intros H1 H2; cbn; [constructor|].
  assert (T : NoDup (flat_map f l)) by (apply IH; [intros y Hy; apply H1; right; exact Hy|intros y y' z Hy Hy'; apply H2; right; assumption]).
  assert (D : forall z, In z (f x) -> ~ In z (flat_map f l)).
  { intros z Hz I. apply in_flat_map in I. destruct I as (y & Hy & I). apply Hx. rewrite (H2 x y z); auto; [left; reflexivity|right; exact Hy]. }
  specialize (H1 x (or_introl eq_refl)). clear - T D H1. induction (f x) as [|z r IH]; cbn; [exact T|]. inversion H1; subst.
  constructor; [|apply IH; first [assumption|intros y Hy; apply D; right; exact Hy]]. rewrite in_app_iff. intros [I|I]; [contradiction|]. apply (D z); [left; reflexivity|exact I].
Qed.

(** Taken over all entities, the listed indices are the numbers 0 .. size()-1, each once; in particular the
    dofs of the entities sum up to size(). *)
Theorem c151_bijection m : valid m -> inhabited_types m -> separate_types m -> consistent m -> injective m -> gapless m -> complete m ->
  exists o rs, update m = Ok o /\
    map (fun te => entity_indices o (fst te) (snd te)) (entities m) = map Ok rs /\
    Permutation (concat rs) (map Some (seq 0 (me_basis m))) /\ sum_nat (map (@length _) rs) = me_basis m.
Proof.
  intros V Y S0 C J G [K1 K2]. destruct (update_spec m V Y) as (o & E & A & B & D & _).
  exists o, (map (fun te => nth (snd te) (o_index o (fst te)) []) (entities m)). split; [exact E|]. split.
  { rewrite map_map. apply map_ext_in. intros [t e] H. apply in_entities in H. destruct H as [Ht He]. cbn [fst snd]. unfold entity_indices.
    rewrite (nth_error_nth' _ []) by (rewrite A by exact Ht; exact He). reflexivity. }
  assert (Q : forall t e k, In t (all_types m) -> e < me_size m t -> k < maxkey (all_dofs m) t e 0 ->
     exists l, In l (all_dofs m) /\ names l t e k /\ nth k (nth e (o_index o t) []) None = Some (ld_glob l)).
  { intros t e k Ht He Hk. destruct (proj1 (maxkey_dofs m t e G k) Hk) as (l & Hl & Hn). exists l. split; [exact Hl|]. split; [exact Hn|].
    rewrite D by assumption. apply last_index_glob; assumption. }
  assert (P : Permutation (concat (map (fun te => nth (snd te) (o_index o (fst te)) []) (entities m))) (map Some (seq 0 (me_basis m)))).
  { rewrite <- flat_map_concat_map. apply NoDup_Permutation.
    - apply NoDup_flat_map.
      + unfold entities. apply NoDup_flat_map; [exact S0| |].
        * intros t _. apply FinFun.Injective_map_NoDup; [intros a b Hab; congruence|apply seq_NoDup].
        * intros t t' z _ _ H1 H2. apply in_map_iff in H1, H2. destruct H1 as (a & <- & _), H2 as (b & Hb & _). congruence.
      + intros [t e] H. apply in_entities in H. destruct H as [Ht He]. cbn [fst snd]. apply (NoDup_nth _ None). intros i j Hi Hj H. rewrite B in Hi, Hj by assumption.
        destruct (Q t e i Ht He Hi) as (l & Hl & Nl & El), (Q t e j Ht He Hj) as (l' & Hl' & Nl' & El'). rewrite El, El' in H. injection H as H.
        destruct (J l l' Hl Hl' H) as (_ & _ & H3). destruct Nl as (_ & _ & <-), Nl' as (_ & _ & <-). exact H3.
      + intros [t e] [t' e'] z H H' Z Z'. apply in_entities in H, H'. destruct H as [Ht He], H' as [Ht' He']. cbn [fst snd] in *.
        apply (In_nth _ _ None) in Z, Z'. destruct Z as (i & Hi & Zi), Z' as (j & Hj & Zj). rewrite B in Hi, Hj by assumption.
        destruct (Q t e i Ht He Hi) as (l & Hl & Nl & El), (Q t' e' j Ht' He' Hj) as (l' & Hl' & Nl' & El'). rewrite El in Zi. rewrite El' in Zj. subst z. injection Zj as H.
        destruct (J l l' Hl Hl') as (H1 & H2 & _); [congruence|]. destruct Nl as (<- & <- & _), Nl' as (<- & <- & _). congruence.
    - apply FinFun.Injective_map_NoDup; [intros a b Hab; congruence|apply seq_NoDup].
    - intros z. rewrite in_flat_map, in_map_iff. split.
      + intros ([t e] & H & Z). apply in_entities in H. destruct H as [Ht He]. cbn [fst snd] in Z. apply (In_nth _ _ None) in Z. destruct Z as (i & Hi & <-). rewrite B in Hi by assumption.
        destruct (Q t e i Ht He Hi) as (l & Hl & _ & El). exists (ld_glob l). split; [symmetry; exact El|]. apply in_seq. specialize (K1 l Hl). lia.
      + intros (g & <- & Hg). apply in_seq in Hg. destruct (K2 g) as (l & Hl & <-); [lia|]. destruct (V l Hl) as [H1 H2]. exists (ld_type l, ld_ent l). split; [apply in_entities; split; assumption|].
        cbn [fst snd]. pose proof (key_lt m _ _ _ l Hl ltac:(repeat split)) as Hk.
        rewrite <- (last_index_glob m (ld_type l) (ld_ent l) (ld_key l) l) by (try assumption; repeat split). rewrite <- D by assumption. apply nth_In. rewrite B by assumption. exact Hk. }
  split; [exact P|]. apply Permutation_length in P. rewrite map_length, seq_length in P. rewrite <- P.
  generalize (map (fun te => nth (snd te) (o_index o (fst te)) []) (entities m)). intros rs. clear. induction rs as [|r rs IH]; [reflexivity|]. cbn. rewrite app_length, <- IH. reflexivity.
Qed.
Print Assumptions c151_bijection.

(** Second order elements on two triangles with a common edge (type 0: vertices, 1: edges, 3: triangles);
    the vertices are numbered by the basis first. *)
Definition tri (v e : list nat) : cell :=
  mkcell 3 2 (map (fun i => mkld 0 i 0 i) v ++ map (fun i => mkld 1 i 0 (4 + i)) e).
Definition p2_mesh : mesh :=
  mkmesh 2 (fun c => nth c [[3]; [1]; [0]] []) (fun t => nth t [4; 5; 0; 2] 0) [tri [0; 1; 2] [0; 1; 2]; tri [3; 2; 1] [3; 4; 2]] 9.
Definition same_dofb (l l' : ldof) : bool := (ld_type l =? ld_type l') && (ld_ent l =? ld_ent l') && (ld_key l =? ld_key l').
Definition good_meshb (m : mesh) : bool :=
  let D := all_dofs m in
  forallb (fun l => existsb (Nat.eqb (ld_type l)) (all_types m) && (ld_ent l <? me_size m (ld_type l)) && (ld_glob l <? me_basis m)) D &&
  forallb (fun l => forallb (fun l' => Bool.eqb (same_dofb l l') (ld_glob l =? ld_glob l')) D) D &&
  forallb (fun l => forallb (fun k => existsb (fun l' => same_dofb l' (mkld (ld_type l) (ld_ent l) k 0)) D) (seq 0 (S (ld_key l)))) D &&
  forallb (fun g => existsb (fun l => ld_glob l =? g) D) (seq 0 (me_basis m)) &&
  forallb (fun t => 0 <? me_size m t) (all_types m).
Lemma same_dofb_spec l l' : same_dofb l l' = true <-> names l (ld_type l') (ld_ent l') (ld_key l').
Proof. unfold same_dofb, names. rewrite !andb_true_iff, !Nat.eqb_eq. tauto. Qed.
Lemma good_mesh m : good_meshb m = true -> valid m /\ inhabited_types m /\ consistent m /\ injective m /\ gapless m /\ complete m.
Proof.
  unfold good_meshb. cbv zeta. rewrite !andb_true_iff, !forallb_forall. intros ((((A & B) & C) & D) & E).
  assert (A' : forall l, In l (all_dofs m) -> In (ld_type l) (all_types m) /\ ld_ent l < me_size m (ld_type l) /\ ld_glob l < me_basis m).
  { intros l Hl. specialize (A l Hl). rewrite !andb_true_iff in A. destruct A as ((A1 & A2) & A3). apply in_types in A1. apply Nat.ltb_lt in A2, A3. auto. }
  assert (B' : forall l l', In l (all_dofs m) -> In l' (all_dofs m) -> Bool.eqb (same_dofb l l') (ld_glob l =? ld_glob l') = true).
  { intros l l' H H'. specialize (B l H). rewrite forallb_forall in B. apply B, H'. }
  split; [intros l Hl; destruct (A' l Hl) as (? & ? & ?); auto|]. split; [intros t Ht; apply Nat.ltb_lt, E, Ht|].
  split. { intros l l' H H' N. specialize (B' l l' H H'). apply eqb_prop in B'. apply same_dofb_spec in N. rewrite N in B'. apply Nat.eqb_eq. symmetry. exact B'. }
  split. { intros l l' H H' N. specialize (B' l l' H H'). apply eqb_prop in B'. apply same_dofb_spec. rewrite B'. apply Nat.eqb_eq, N. }
  split. { intros l k Hl Hk. specialize (C l Hl). rewrite forallb_forall in C. assert (I : In k (seq 0 (S (ld_key l)))) by (apply in_seq; lia). specialize (C k I).
    apply existsb_exists in C. destruct C as (l' & Hl' & S1). apply same_dofb_spec in S1. exists l'. split; [exact Hl'|exact S1]. }
  split. { intros l Hl. apply A', Hl. } intros g Hg. assert (I : In g (seq 0 (me_basis m))) by (apply in_seq; lia). specialize (D g I). apply existsb_exists in D.
  destruct D as (l & Hl & H). exists l. split; [exact Hl|apply Nat.eqb_eq, H].
Qed.
Example c151_example : valid p2_mesh /\ inhabited_types p2_mesh /\ separate_types p2_mesh /\ consistent p2_mesh /\ injective p2_mesh /\ gapless p2_mesh /\ complete p2_mesh.
Proof.
  destruct (good_mesh p2_mesh) as (A & B & C & D & E & F); [vm_compute; reflexivity|]. repeat (split; [first [assumption|repeat constructor; cbn; intuition discriminate]|]). exact F.
Qed.

(** ** C152: contains() and fixedSize(), which govern the communication *)

Theorem c152_contains m : valid m -> inhabited_types m -> gapless m ->
  exists o, update m = Ok o /\
    forall c, c <= me_dim m -> (o_contains o c = true <-> exists l, In l (all_dofs m) /\ In (ld_type l) (me_types m c)).
Proof.
  intros V Y G. destruct (update_spec m V Y) as (o & E & _ & _ & _ & F). exists o. split; [exact E|]. intros c Hc. destruct (F c Hc) as [-> _]. split.
  - intros (t & e & Ht & He & H). apply (maxkey_dofs m t e G 0) in H. destruct H as (l & Hl & <- & _). exists l. auto.
  - intros (l & Hl & Ht). destruct (V l Hl) as [_ He]. exists (ld_type l), (ld_ent l). repeat split; try assumption.
    apply (Nat.le_lt_trans _ (ld_key l)); [lia|]. apply (key_lt m _ _ _ l Hl). repeat split.
Qed.
Print Assumptions c152_contains.

(** fixedSize(codim) holds exactly if all entities of the same type have the same number of dofs, which is what
    the communication needs in case the codimension has one type only. *)
Theorem c152_fixed_size_partial m : valid m -> inhabited_types m -> gapless m ->
  exists o, update m = Ok o /\
    (forall c, c <= me_dim m -> (o_fixed o c = true <-> forall t e e' n n', In t (me_types m c) -> In (t, e) (entities m) -> In (t, e') (entities m) ->
       has_dofs m t e n -> has_dofs m t e' n' -> n = n')) /\
    (forall c t, c <= me_dim m -> me_types m c = [t] ->
       (o_fixed o c = true <-> exists n, forall e, e < me_size m t -> entity_size o t e = Ok n)).
Proof.
  intros V Y G. destruct (update_spec m V Y) as (o & E & A & B & _ & F). exists o. split; [exact E|].
  assert (U : forall t e n, has_dofs m t e n -> n = maxkey (all_dofs m) t e 0).
  { intros t e n H. pose proof (maxkey_dofs m t e G) as H'. destruct (Nat.lt_trichotomy n (maxkey (all_dofs m) t e 0)) as [L|[L|L]]; [|exact L|].
    - apply H' in L. apply H in L. lia.
    - apply H in L. apply H' in L. lia. }
  split.
  - intros c Hc. destruct (F c Hc) as [_ ->]. split.
    + intros H t e e' n n' Ht I I' Hn Hn'. apply in_entities in I, I'. rewrite (U _ _ _ Hn), (U _ _ _ Hn'). apply H; tauto.
    + intros H t e e' Ht He He'. assert (T : In t (all_types m)) by (apply in_flat_map; exists c; split; [apply in_seq; lia|exact Ht]).
      apply (H t e e'); try exact Ht; try (apply in_entities; split; assumption); apply maxkey_dofs, G.
  - intros c t Hc Ht. assert (T : In t (all_types m)) by (apply in_flat_map; exists c; split; [apply in_seq; lia|rewrite Ht; left; reflexivity]).
    assert (Z : forall e, e < me_size m t -> entity_size o t e = Ok (maxkey (all_dofs m) t e 0)).
    { intros e He. unfold entity_size. rewrite (nth_error_nth' _ []) by (rewrite A by exact T; exact He). rewrite B by assumption. reflexivity. }
    destruct (F c Hc) as [_ ->]. split.
    + intros H. exists (maxkey (all_dofs m) t 0 0). intros e He. rewrite Z by exact He. f_equal. apply H; [rewrite Ht; left; reflexivity|exact He|lia].
    + intros [n H] t' e e' Ht' He He'. rewrite Ht in Ht'. destruct Ht' as [<-|[]]. pose proof (H e He) as H1. pose proof (H e' He') as H2. rewrite Z in H1, H2 by assumption. congruence.
Qed.
Print Assumptions c152_fixed_size_partial.
Example c152_example : match update p2_mesh with Ok o => map (o_contains o) [0; 1; 2] = [false; true; true] /\ map (o_fixed o) [0; 1; 2] = [true; true; true] /\ entity_size o 1 2 = Ok 1 | _ => False end.
Proof. vm_compute. repeat split; reflexivity. Qed.

(** On a grid with triangles (type 3) and quadrilaterals (type 4) the types are not compared with each other:
    second order elements have a dof in the quadrilaterals and none in the triangles, yet fixedSize(0) holds. *)
Definition mixed_mesh : mesh :=
  mkmesh 2 (fun c => nth c [[3; 4]; [1]; [0]] []) (fun t => nth t [5; 6; 0; 1; 1] 0)
    [tri [0; 1; 2] [0; 1; 2]; mkcell 4 2 (map (fun i => mkld 0 i 0 i) [1; 3; 2; 4] ++ map (fun i => mkld 1 i 0 (4 + i)) [2; 3; 4; 5] ++ [mkld 4 0 0 10])] 11.
Theorem c152_fixed_size_refuted : exists m o c t t' n n',
  valid m /\ inhabited_types m /\ gapless m /\ update m = Ok o /\ In t (me_types m c) /\ In t' (me_types m c) /\
  o_fixed o c = true /\ entity_size o t 0 = Ok n /\ entity_size o t' 0 = Ok n' /\ n <> n'.
Proof.
  destruct (update mixed_mesh) as [o| |] eqn:E; [|vm_compute in E; discriminate|vm_compute in E; discriminate].
  exists mixed_mesh, o, 0, 3, 4, 0, 1. split; [|split; [|split]].
  - intros l Hl. apply forallb_forall with (f := fun l => existsb (Nat.eqb (ld_type l)) (all_types mixed_mesh) && (ld_ent l <? me_size mixed_mesh (ld_type l))) (x := l) in Hl; [|vm_compute; reflexivity].
    apply andb_true_iff in Hl. destruct Hl as [H1 H2]. apply in_types in H1. apply Nat.ltb_lt in H2. auto.
  - intros t Ht. cbn in Ht. repeat destruct Ht as [<-|Ht]; try (vm_compute; lia); contradiction.
  - intros l k Hl Hk. assert (Z : forall l, In l (all_dofs mixed_mesh) -> ld_key l = 0).
    { intros l' Hl'. apply forallb_forall with (f := fun l => ld_key l =? 0) (x := l') in Hl'; [apply Nat.eqb_eq, Hl'|vm_compute; reflexivity]. }
    exists l. split; [exact Hl|]. repeat split. rewrite (Z l Hl) in *. lia.
  - split; [exact E|]. vm_compute in E. injection E as <-. vm_compute. repeat split; auto; discriminate.
Qed.
Print Assumptions c152_fixed_size_refuted.

(** If the index set names a type without entities (as on a process that has no cells), the constructor of the
    space reads the first entry of an empty vector. *)
Theorem c152_empty_refuted : exists m, valid m /\ consistent m /\ injective m /\ gapless m /\ complete m /\ update m = UB.
Proof.
  exists (mkmesh 2 (fun c => nth c [[3]; [1]; [0]] []) (fun _ => 0) [] 0).
  split; [intros l []|]. split; [intros l l' []|]. split; [intros l l' []|]. split; [intros l k []|]. split; [split; [intros l []|cbn; lia]|]. vm_compute. reflexivity.
Qed.
Print Assumptions c152_empty_refuted.

(** ** C153: dof indices, container indices and constraints of local function spaces *)

(** Looking up the dof index of a local dof in the ordering gives its container index. *)
Theorem c153_lookup m : valid m -> inhabited_types m -> consistent m ->
  exists o, update m = Ok o /\ forall c i t e k, In c (me_cells m) -> lfs_dof_index c i = Ok (t, e, k) ->
    exists g, lfs_container_index c i = Ok g /\ container_index o t e k = Ok (Some g).
Proof.
  intros V Y C. destruct (c151_indices m V Y C) as (o & E & H & _). exists o. split; [exact E|]. intros c i t e k Hc. unfold lfs_dof_index, lfs_container_index.
  destruct (nth_error (c_dofs c) i) as [l|] eqn:N; [|discriminate]. intros Q. injection Q as <- <- <-. exists (ld_glob l). split; [reflexivity|]. apply H.
  apply in_flat_map. exists c. split; [exact Hc|]. eapply nth_error_In, N.
Qed.
Print Assumptions c153_lookup.
Example c153_example : lfs_dof_index (tri [3; 2; 1] [3; 4; 2]) 5 = Ok (1, 2, 0) /\ lfs_container_index (tri [3; 2; 1] [3; 4; 2]) 5 = Ok 6.
Proof. split; reflexivity. Qed.

(** Lagrange bases of order 3 and more number the two nodes on an edge by its global orientation, so that two
    cells whose local orientations differ assign the numbers 0 and 1 on the edge the other way round
    (dune-functions, LagrangePreBasis::indices).  The ordering then keeps the assignment of the cell visited
    last, and the dof index of the other cell leads to another container index. *)
Definition p3_tri (v e : list nat) (orient : list bool) : cell :=
  mkcell 3 3 (map (fun i => mkld 0 i 0 i) v ++
              flat_map (fun ib : nat * bool => let (i, b) := ib in if b then [mkld 1 i 0 (5 + 2 * i); mkld 1 i 1 (4 + 2 * i)] else [mkld 1 i 0 (4 + 2 * i); mkld 1 i 1 (5 + 2 * i)])
                       (combine e orient)).
Definition p3_mesh (cells : list cell) : mesh :=
  mkmesh 2 (fun c => nth c [[3]; [1]; [0]] []) (fun t => nth t [4; 5; 0; 2] 0) cells 14.
Definition p3_left : cell := p3_tri [0; 1; 2] [0; 1; 2] [false; false; false].
Definition p3_right : cell := p3_tri [3; 2; 1] [3; 4; 2] [false; false; true].
Theorem c153_lookup_refuted : exists m o c i t e k g g',
  valid m /\ inhabited_types m /\ gapless m /\ complete m /\ update m = Ok o /\ In c (me_cells m) /\
  lfs_dof_index c i = Ok (t, e, k) /\ lfs_container_index c i = Ok g /\ container_index o t e k = Ok (Some g') /\ g <> g'.
Proof.
  destruct (update (p3_mesh [p3_left; p3_right])) as [o| |] eqn:E; [|vm_compute in E; discriminate|vm_compute in E; discriminate].
  exists (p3_mesh [p3_left; p3_right]), o, p3_left, 7, 1, 2, 0, 8, 9. split; [|split; [|split; [|split]]].
  - intros l Hl. apply forallb_forall with (f := fun l => existsb (Nat.eqb (ld_type l)) (all_types (p3_mesh [])) && (ld_ent l <? me_size (p3_mesh []) (ld_type l))) (x := l) in Hl; [|vm_compute; reflexivity].
    apply andb_true_iff in Hl. destruct Hl as [H1 H2]. apply in_types in H1. apply Nat.ltb_lt in H2. auto.
  - intros t Ht. cbn in Ht. repeat destruct Ht as [<-|Ht]; try (vm_compute; lia); contradiction.
  - intros l k Hl Hk. apply forallb_forall with (f := fun l => forallb (fun k => existsb (fun l' => same_dofb l' (mkld (ld_type l) (ld_ent l) k 0)) (all_dofs (p3_mesh [p3_left; p3_right]))) (seq 0 (S (ld_key l)))) (x := l) in Hl; [|vm_compute; reflexivity].
    rewrite forallb_forall in Hl. assert (I : In k (seq 0 (S (ld_key l)))) by (apply in_seq; lia). specialize (Hl k I). apply existsb_exists in Hl. destruct Hl as (l' & Hl' & S1). apply same_dofb_spec in S1. exists l'. auto.
  - split.
    + intros l Hl. apply forallb_forall with (f := fun l => ld_glob l <? 14) (x := l) in Hl; [apply Nat.ltb_lt, Hl|vm_compute; reflexivity].
    + intros g Hg. assert (I : In g (seq 0 14)) by (apply in_seq; cbn in Hg; lia). apply forallb_forall with (f := fun g => existsb (fun l => ld_glob l =? g) (all_dofs (p3_mesh [p3_left; p3_right]))) (x := g) in I; [|vm_compute; reflexivity].
      apply existsb_exists in I. destruct I as (l & Hl & H). exists l. split; [exact Hl|apply Nat.eqb_eq, H].
  - split; [exact E|]. vm_compute in E. injection E as <-. vm_compute. repeat split; auto; discriminate.
Qed.
Print Assumptions c153_lookup_refuted.

(** For the same reason the order in which the dofs of an edge are communicated depends on the cell visited
    last: two processes on which the same two cells (and indices) are visited in a different order exchange
    the values of the two nodes. *)
Theorem c153_communication_refuted : exists c1 c2 o1 o2 t e r1 r2,
  update (p3_mesh [c1; c2]) = Ok o1 /\ update (p3_mesh [c2; c1]) = Ok o2 /\
  entity_indices o1 t e = Ok r1 /\ entity_indices o2 t e = Ok r2 /\ Permutation r1 r2 /\ r1 <> r2.
Proof.
  destruct (update (p3_mesh [p3_left; p3_right])) as [o| |] eqn:E; [|vm_compute in E; discriminate|vm_compute in E; discriminate].
  destruct (update (p3_mesh [p3_right; p3_left])) as [o'| |] eqn:E'; [|vm_compute in E'; discriminate|vm_compute in E'; discriminate].
  exists p3_left, p3_right, o, o', 1, 2, [Some 9; Some 8], [Some 8; Some 9]. split; [exact E|]. split; [exact E'|].
  vm_compute in E, E'. injection E as <-. injection E' as <-. split; [reflexivity|]. split; [reflexivity|]. split; [apply perm_swap|discriminate].
Qed.
Print Assumptions c153_communication_refuted.

(** The index cache reports no dof as constrained, also if the constraints name its container index. *)
Theorem c153_constraints_refuted : forall constraints c i g max_size, i < max_size -> lfs_container_index c i = Ok g -> In g constraints ->
  cache_is_constrained (cache_update constraints c (cache_flags max_size constraints)) i = Ok false.
Proof.
  intros cs c i g n Hi _ _. unfold cache_is_constrained, cache_update, cache_flags. rewrite nth_error_repeat by exact Hi. reflexivity.
Qed.
Example c153_constraints_example : lfs_container_index (tri [3; 2; 1] [3; 4; 2]) 5 = Ok 6 /\ In 6 [3; 6].
Proof. split; [reflexivity|]. cbn. auto. Qed.
Print Assumptions c153_constraints_refuted.

(** ** C154: updates, copies and the finite elements *)

Lemma run_app l l' w : run (l ++ l') w = let* w' := run l w in run l' w'.
Proof. unfold run. revert w. induction l as [|o l IH]; intros w; cbn [app foldM bind]; [reflexivity|]. destruct (step w o); cbn [bind]; [apply IH|reflexivity|reflexivity]. Qed.

(** After update() of any copy, as long as the first space exists, all spaces that exist have the size of the
    basis on the grid of that time, and the ordering belongs to this grid, for every history of calls. *)
Theorem c154_update l w0 w i w' m0 : w_new m0 = Ok w0 -> run l w0 = Ok w -> step w (Update i) = Ok w' ->
  update (w_grid w) = Ok (w_order w') /\
  (forall j, w_alive w' j = true -> size w' j = Ok (me_basis (w_grid w))) /\
  (forall l' w'', Forall (fun o => match o with Update _ => False | Destroy 0 => False | _ => True end) l' -> run l' w' = Ok w'' ->
     w_order w'' = w_order w' /\ forall j, w_alive w'' j = true -> size w'' j = Ok (me_basis (w_grid w))).
Proof.
  intros _ _ H. cbn [step] in H. destruct (w_alive w i); [|discriminate]. destruct (w_alive w 0) eqn:Z; [|discriminate].
  destruct (update (w_grid w)) as [o| |]; cbn [bind] in H; try discriminate. injection H as <-. cbn [w_order w_grid]. split; [reflexivity|].
  assert (S0 : forall j w1, w_alive w1 0 = true -> w_basis w1 = w_grid w -> w_alive w1 j = true -> size w1 j = Ok (me_basis (w_grid w))).
  { intros j w1 H1 H2 H3. unfold size. rewrite H1, H2, H3. reflexivity. }
  split; [intros j Hj; apply S0; [exact Z|reflexivity|exact Hj]|].
  intros l'. set (w1 := mkw _ _ _ _ _). assert (I : w_alive w1 0 = true /\ w_basis w1 = w_grid w /\ w_order w1 = o) by (split; [exact Z|split; reflexivity]). clearbody w1. clear Z.
  revert w1 I. induction l' as [|op l' IH]; intros w1 (I1 & I2 & I0) w'' HF R; cbn in R.
  - injection R as <-. split; [exact I0|]. intros j Hj. apply S0; assumption.
  - pose proof (Forall_inv HF) as Hop. pose proof (Forall_inv_tail HF) as HF'. cbn beta in Hop. destruct (step w1 op) as [w2| |] eqn:E; cbn [bind] in R; try discriminate.
    assert (I3 : w_alive w2 0 = true /\ w_basis w2 = w_grid w /\ w_order w2 = o).
    { destruct op; cbn [step] in E; try contradiction.
      - injection E as <-. auto.
      - destruct (w_alive w1 i0 && negb (w_alive w1 j)) eqn:Q; [|discriminate]. injection E as <-. cbn. unfold put. destruct j; cbn [Nat.eqb]; auto.
      - destruct (w_alive w1 i0); [|discriminate]. injection E as <-. cbn. unfold put. destruct i0; [contradiction|]. cbn [Nat.eqb]. auto.
      - destruct (w_alive w1 i0); [|discriminate]. injection E as <-. auto. }
    exact (IH w2 I3 w'' HF' R).
Qed.
Print Assumptions c154_update.

(** If the local finite element of an element is a function of its geometry type, find() returns it, for every
    history. *)
Definition by_type (fe : nat -> nat) (o : op) : Prop := match o with Find _ c => c_fe c = fe (c_type c) | _ => True end.
Lemma fem_find_inv fe cache c : (forall t x, lookup t cache = Some x -> x = fe t) -> c_fe c = fe (c_type c) ->
  (forall t x, lookup t (fst (fem_find cache c)) = Some x -> x = fe t) /\ snd (fem_find cache c) = c_fe c.
Proof.
  intros H Hc. unfold fem_find. destruct (lookup (c_type c) cache) as [x|] eqn:E; cbn [fst snd].
  - split; [exact H|]. rewrite Hc. apply H, E.
  - split; [|reflexivity]. intros t x. cbn [lookup]. destruct (Nat.eqb_spec (c_type c) t) as [<-|]; [intros Q; injection Q as <-; exact Hc|apply H].
Qed.
Theorem c154_find fe l m0 w0 w i c : w_new m0 = Ok w0 -> Forall (by_type fe) l -> run l w0 = Ok w -> w_alive w i = true -> c_fe c = fe (c_type c) ->
  find w i c = Ok (c_fe c).
Proof.
  intros N F R Ha Hc. assert (I : forall j t x, lookup t (w_cache w j) = Some x -> x = fe t).
  { assert (I0 : forall j t x, lookup t (w_cache w0 j) = Some x -> x = fe t).
    { unfold w_new in N. destruct (update m0); cbn [bind] in N; try discriminate. injection N as <-. cbn. discriminate. }
    clear N. revert w0 I0 R. induction l as [|op l IH]; intros w0 I0 R; cbn in R; [injection R as <-; exact I0|].
    inversion F as [|? ? Hop HF]; subst. destruct (step w0 op) as [w2| |] eqn:E; cbn [bind] in R; try discriminate. apply (IH HF w2); [|exact R]. clear IH R.
    destruct op; cbn [step] in E.
    - injection E as <-. exact I0.
    - destruct (w_alive w0 i0 && negb (w_alive w0 j)); [|discriminate]. injection E as <-. cbn. intros j0 t x. unfold put. destruct (j0 =? j); apply I0.
    - destruct (w_alive w0 i0); [|discriminate]. injection E as <-. exact I0.
    - destruct (w_alive w0 i0); [|discriminate]. destruct (w_alive w0 0); [|discriminate]. destruct (update (w_grid w0)); cbn [bind] in E; try discriminate. injection E as <-. cbn.
      intros j t x. unfold put. destruct (j =? i0); [discriminate|apply I0].
    - destruct (w_alive w0 i0); [|discriminate]. injection E as <-. cbn. intros j t x. unfold put. destruct (j =? i0); [|apply I0].
      apply (fem_find_inv fe); [intros t' x'; apply I0|exact Hop]. }
  unfold find. rewrite Ha. f_equal. apply (fem_find_inv fe); [intros t x; apply I|exact Hc].
Qed.
Print Assumptions c154_find.
Example c154_example : exists w0 w, w_new p2_mesh = Ok w0 /\
  run [Copy 0 1; Find 1 (tri [0; 1; 2] [0; 1; 2]); Adapt mixed_mesh; Update 1] w0 = Ok w /\ size w 0 = Ok 11 /\ size w 1 = Ok 11 /\ find w 1 (tri [0; 1; 2] [0; 1; 2]) = Ok 2.
Proof. do 2 eexists. split; [vm_compute; reflexivity|]. split; [vm_compute; reflexivity|]. vm_compute. repeat split; reflexivity. Qed.

(** A copy does not survive the space it was copied from: size() and update() use it through the ordering. *)
Theorem c154_copies_refuted m w0 : w_new m = Ok w0 -> exists w, run [Copy 0 1; Destroy 0] w0 = Ok w /\ w_alive w 1 = true /\ size w 1 = UB /\ step w (Update 1) = UB.
Proof.
  unfold w_new. destruct (update m) as [o| |]; cbn [bind]; try discriminate. intros E. injection E as <-. eexists. split; [reflexivity|]. repeat split.
Qed.
Print Assumptions c154_copies_refuted.

(** With elements of different order but the same type find() returns the one met first. *)
Theorem c154_find_refuted : exists w0 w c c', w_new p2_mesh = Ok w0 /\ run [Find 0 c] w0 = Ok w /\ find w 0 c' = Ok (c_fe c) /\ c_fe c <> c_fe c'.
Proof.
  destruct (w_new p2_mesh) as [w0| |] eqn:E; [|vm_compute in E; discriminate|vm_compute in E; discriminate].
  vm_compute in E. injection E as <-. do 2 eexists. exists (mkcell 3 1 []), (mkcell 3 2 []). split; [reflexivity|]. split; [vm_compute; reflexivity|]. split; [vm_compute; reflexivity|discriminate].
Qed.
Print Assumptions c154_find_refuted.
