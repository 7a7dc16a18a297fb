(** Proofs about hanging nodes. *)
From Verif Require Import OrderingModel OrderingProofs CommonFacts ConsProofs HangModel HangSpec.
Local Open Scope nat_scope.

Definition least (S : nat -> Prop) (o : option nat) : Prop :=
  match o with None => forall x, ~ S x | Some m => S m /\ forall x, S x -> m <= x end.
Lemma least_min S o l : least S o -> least (fun x => S x \/ x = l) (opt_min o l).
Proof.
  destruct o as [m|]; cbn.
  - intros [A B]. split.
    + destruct (Nat.min_spec m l) as [[_ ->]|[_ ->]]; tauto.
    + intros x [C| ->]; [specialize (B x C); lia|lia].
  - intros A. split; [right; reflexivity|]. intros x [C| ->]; [elim (A x C)|lia].
Qed.
Lemma least_iff S S' o : (forall x, S x <-> S' x) -> least S o -> least S' o.
Proof.
  intros E. destruct o as [m|]; cbn.
  - intros [A B]. split; [apply E, A|]. intros x C. apply B, E, C.
  - intros A x C. apply (A x), E, C.
Qed.
Definition greatest (S : nat -> Prop) (m : nat) : Prop := (m = 0 \/ S m) /\ forall x, S x -> x <= m.
Lemma greatest_max S m l : greatest S m -> greatest (fun x => S x \/ x = l) (Nat.max m l).
Proof.
  intros [A B]. split.
  - destruct (Nat.max_spec m l) as [[_ ->]|[L ->]]; [tauto|]. destruct A as [->|A]; [|tauto]. left. reflexivity.
  - intros x [C| ->]; [specialize (B x C); lia|lia].
Qed.
Lemma greatest_iff S S' o : (forall x, S x <-> S' x) -> greatest S o -> greatest S' o.
Proof. intros E [A B]. split; [destruct A as [A|A]; [tauto|right; apply E, A]|]. intros x C. apply B, E, C. Qed.

Record tab (L T : nat -> nat -> Prop) (t : table) : Prop := {
  tb_min : forall v, least (L v) (minimum_level (t v));
  tb_max : forall v, greatest (L v) (maximum_level (t v));
  tb_touch : forall v, least (T v) (touching_level (t v)) }.
Lemma tab_iff L L' T T' t : (forall v x, L v x <-> L' v x) -> (forall v x, T v x <-> T' v x) -> tab L T t -> tab L' T' t.
Proof.
  intros E F [A B C]. split; intros v; [eapply least_iff; [apply E|apply A]|eapply greatest_iff; [apply E|apply B]|
    eapply least_iff; [apply F|apply C]].
Qed.
Lemma change_eq v g t : change v g t v = g (t v).
Proof. unfold change. apply setv_eq. Qed.
Lemma change_neq v g t w : v <> w -> change v g t w = t w.
Proof. intros D. unfold change. apply setv_neq, D. Qed.

Lemma tab_level l vs : forall L T t, tab L T t ->
  tab (fun v x => L v x \/ (In v vs /\ x = l)) T (fold_left (fun t v => change v (add_level l) t) vs t).
Proof.
  induction vs as [|w vs IH]; intros L T t M; cbn [fold_left].
  - eapply tab_iff; [| |exact M]; intros v x; cbn; tauto.
  - eapply tab_iff; [| |apply IH with (L := fun v x => L v x \/ (v = w /\ x = l))].
    + intros v x. cbn. split; [intros [[A|[A B]]|[A B]]|intros [A|[[A|A] B]]]; subst; tauto.
    + intros v x. reflexivity.
    + destruct M as [A B C]. split; intros v; destruct (Nat.eq_dec w v) as [->|D].
      1,3,5: rewrite change_eq; cbn [add_level minimum_level maximum_level touching_level].
      * eapply least_iff; [|apply least_min, A]. intros x. cbn. tauto.
      * eapply greatest_iff; [|apply greatest_max, B]. intros x. cbn. tauto.
      * apply C.
      * rewrite change_neq by exact D. eapply least_iff; [|apply A]. intros x. cbn. split; [tauto|]. intros [Q|[Q _]]; [exact Q|congruence].
      * rewrite change_neq by exact D. eapply greatest_iff; [|apply B]. intros x. cbn. split; [tauto|]. intros [Q|[Q _]]; [exact Q|congruence].
      * rewrite change_neq by exact D. apply C.
Qed.
(** Touching levels; a function of the list element gives the vertex, another the Dirichlet flag (not tracked). *)
Lemma tab_touching {A} (vx : A -> nat) (g : A -> node_info -> node_info) l (vs : list A) :
  (forall a n, minimum_level (g a n) = minimum_level n /\ maximum_level (g a n) = maximum_level n /\
     touching_level (g a n) = opt_min (touching_level n) l) ->
  forall L T t, tab L T t ->
  tab L (fun v x => T v x \/ (In v (map vx vs) /\ x = l)) (fold_left (fun t a => change (vx a) (g a) t) vs t).
Proof.
  intros HG. induction vs as [|w vs IH]; intros L T t M; cbn [fold_left map].
  - eapply tab_iff; [| |exact M]; intros v x; cbn; tauto.
  - eapply tab_iff; [| |apply IH with (T := fun v x => T v x \/ (v = vx w /\ x = l))].
    + intros v x. reflexivity.
    + intros v x. cbn. split; [intros [[B|[B C]]|[B C]]|intros [B|[[B|B] C]]]; subst; tauto.
    + destruct M as [B C D]. split; intros v; destruct (Nat.eq_dec (vx w) v) as [E|E].
      1,3,5: rewrite <- E, change_eq; destruct (HG w (t (vx w))) as (H1 & H2 & H3).
      * rewrite H1. apply B.
      * rewrite H2. apply C.
      * rewrite H3. eapply least_iff; [|apply least_min, D]. intros x. cbn. tauto.
      * rewrite change_neq by exact E. apply B.
      * rewrite change_neq by exact E. apply C.
      * rewrite change_neq by exact E. eapply least_iff; [|apply D]. intros x. cbn. split; [tauto|]. intros [Q|[Q _]]; [exact Q|congruence].
Qed.

Lemma in_cell_vertices H c v : In v (cell_vertices H c) <-> has_vertex H c v.
Proof.
  unfold cell_vertices, has_vertex, vertex. rewrite in_map_iff. split.
  - intros (i & <- & I). apply in_seq in I. exists i. split; [lia|reflexivity].
  - intros (i & I & ->). exists i. split; [reflexivity|]. apply in_seq. lia.
Qed.
Lemma in_face_vertices H c f v : In v (face_vertices H c f) <-> vertex_of_face H c f v.
Proof.
  unfold face_vertices, vertex_of_face, vertex. rewrite in_map_iff. split; intros (i & A & B); exists i; auto.
Qed.

Section Grid.
  Variables (H : hgeo) (dir : nat -> face -> nat -> bool).

  (** Levels that touch [v] by face [f] of cell [c]. *)
  Definition touches (c : cell) (f : face) (v x : nat) : Prop := vertex_of_face H (cid c) f v /\
    ((boundary f = true /\ x = level H (cid c)) \/ (nonconforming H c f /\ x = level H (outside f))).

  Definition fine_face (c : cell) (f : face) : Prop := (boundary f = true \/ neighbor f = true) /\
    (neighbor f = true -> boundary f = false -> conforming H (cid c) f = false -> level H (cid c) <> level H (outside f)).
  Lemma analyze_face_ok c f : fine_face c f -> forall L T t, tab L T t ->
    exists t', analyze_face H dir (cid c) t f = Ok t' /\ tab L (fun v x => T v x \/ touches c f v x) t'.
  Proof.
    intros [F1 F2] L T t M. unfold analyze_face. destruct (boundary f) eqn:B.
    - eexists. split; [reflexivity|].
      eapply tab_iff; [| |apply tab_touching with (l := level H (cid c)) (vx := snd); [|exact M]].
      + intros v x. reflexivity.
      + intros v x. cbn beta. unfold touches, nonconforming. rewrite B.
        assert (E : map snd (combine (seq 0 (length (face_vertices H (cid c) f))) (face_vertices H (cid c) f)) = face_vertices H (cid c) f).
        { generalize (face_vertices H (cid c) f). intros l. generalize 0. induction l as [|a l IH]; intros n; cbn; [reflexivity|]. now rewrite IH. }
        rewrite E, in_face_vertices. split; [intros [A|[A ->]]; tauto|]. intros [A|[A [[_ ->]|[[_ [C _]] _]]]]; [tauto|tauto|discriminate C].
      + intros a n. cbn. auto.
    - destruct F1 as [F1|F1]; [discriminate F1|]. rewrite F1. cbn [negb].
      assert (NT : ~ (level H (outside f) < level H (cid c) /\ conforming H (cid c) f = false) -> forall v x, T v x <-> T v x \/ touches c f v x).
      { intros N v x. unfold touches, nonconforming. rewrite B, F1. split; [tauto|]. intros [A|[_ [[A _]|[A _]]]]; [exact A|discriminate A|]. elim N. tauto. }
      destruct (conforming H (cid c) f) eqn:C.
      + exists t. split; [reflexivity|]. eapply tab_iff; [| |exact M]; [reflexivity|]. apply NT. intros [_ A]. discriminate A.
      + specialize (F2 F1 eq_refl eq_refl). destruct (Nat.eqb_spec (level H (cid c)) (level H (outside f))) as [E|_]; [congruence|].
        destruct (Nat.ltb_spec (level H (cid c)) (level H (outside f))) as [LT|GE].
        * exists t. split; [reflexivity|]. eapply tab_iff; [| |exact M]; [reflexivity|]. apply NT. lia.
        * eexists. split; [reflexivity|].
          eapply tab_iff; [| |apply tab_touching with (l := level H (outside f)) (vx := fun v => v); [|exact M]].
          -- intros v x. reflexivity.
          -- intros v x. cbn beta. rewrite map_id, in_face_vertices. unfold touches, nonconforming. rewrite B, F1, C.
             split; [intros [A|[A ->]]; [tauto|]|intros [A|[A [[A' _]|[_ ->]]]]; [tauto|discriminate A'|tauto]].
             right. split; [exact A|]. right. repeat split. lia.
          -- intros a n. cbn. auto.
  Qed.
  Lemma analyze_faces_ok c fs : (forall f, In f fs -> fine_face c f) -> forall L T t, tab L T t ->
    exists t', foldM (analyze_face H dir (cid c)) fs t = Ok t' /\ tab L (fun v x => T v x \/ exists f, In f fs /\ touches c f v x) t'.
  Proof.
    induction fs as [|f fs IH]; intros F L T t M; cbn [foldM].
    - exists t. split; [reflexivity|]. eapply tab_iff; [| |exact M]; [reflexivity|]. intros v x. split; [tauto|].
      intros [A|(f & [] & _)]. exact A.
    - destruct (analyze_face_ok c f (F f (or_introl eq_refl)) L T t M) as (t1 & E1 & M1). rewrite E1. cbn [bind].
      destruct (IH (fun g I => F g (or_intror I)) _ _ _ M1) as (t2 & E2 & M2). exists t2. split; [exact E2|].
      eapply tab_iff; [| |exact M2]; [reflexivity|]. intros v x. cbn beta. split.
      + intros [[A|A]|(g & I & A)]; [tauto|right; exists f; cbn; tauto|right; exists g; cbn; tauto].
      + intros [A|(g & [<-|I] & A)]; [tauto|tauto|right; exists g; tauto].
  Qed.
  Lemma analyze_cells_ok cells : (forall c f, In c cells -> In f (faces c) -> fine_face c f) -> forall L T t, tab L T t ->
    exists t', foldM (analyze_cell H dir) cells t = Ok t' /\
      tab (fun v x => L v x \/ exists c, In c cells /\ has_vertex H (cid c) v /\ x = level H (cid c))
          (fun v x => T v x \/ exists c f, In c cells /\ In f (faces c) /\ touches c f v x) t'.
  Proof.
    induction cells as [|c cells IH]; intros F L T t M; cbn [foldM].
    - exists t. split; [reflexivity|]. eapply tab_iff; [| |exact M]; intros v x; (split; [tauto|]).
      + intros [A|(c & [] & _)]. exact A.
      + intros [A|(c & f & [] & _)]. exact A.
    - unfold analyze_cell at 1. pose proof (tab_level (level H (cid c)) (cell_vertices H (cid c)) L T t M) as M0.
      destruct (analyze_faces_ok c (faces c) (fun f I => F c f (or_introl eq_refl) I) _ _ _ M0) as (t1 & E1 & M1).
      rewrite E1. cbn [bind]. destruct (IH (fun a f I J => F a f (or_intror I) J) _ _ _ M1) as (t2 & E2 & M2).
      exists t2. split; [exact E2|]. eapply tab_iff; [| |exact M2]; intros v x; cbn beta.
      + rewrite in_cell_vertices. split.
        * intros [[A|[A ->]]|(a & I & A)]; [tauto|right; exists c; cbn; tauto|right; exists a; cbn; tauto].
        * intros [A|(a & [<-|I] & B & ->)]; [tauto|tauto|right; exists a; tauto].
      + split.
        * intros [[A|(f & I & A)]|(a & f & I & A)]; [tauto|right; exists c, f; cbn; tauto|right; exists a, f; cbn; tauto].
        * intros [A|(a & f & [<-|I] & J & B)]; [tauto|left; right; exists f; tauto|right; exists a, f; tauto].
  Qed.
  Definition levels_of cells (v x : nat) : Prop := exists c, In c cells /\ has_vertex H (cid c) v /\ x = level H (cid c).
  Definition touching cells (v x : nat) : Prop := exists c f, In c cells /\ In f (faces c) /\ touches c f v x.
  Lemma analyze_ok cells : refined H cells -> exists t, analyze H dir cells = Ok t /\ tab (levels_of cells) (touching cells) t.
  Proof.
    intros R. destruct (analyze_cells_ok cells) with (L := fun (_ _ : nat) => False) (T := fun (_ _ : nat) => False) (t := fun (_ : nat) => fresh_node)
      as (t & E & M).
    - intros c f I J. split; [eapply (rf_faces _ _ R); eassumption|]. intros. eapply (rf_levels _ _ R); eassumption.
    - split; intros v; cbn; [tauto| |tauto]. split; [left; reflexivity|intros x []].
    - exists t. split; [exact E|]. eapply tab_iff; [| |exact M]; intros v x; cbn; unfold levels_of, touching; tauto.
  Qed.
  (** The relation between table and grid holds for whatever table analyzeView computes. *)
  Lemma analyze_table cells t : (forall c f, In c cells -> In f (faces c) -> fine_face c f) ->
    analyze H dir cells = Ok t -> tab (levels_of cells) (touching cells) t.
  Proof.
    intros F E. destruct (analyze_cells_ok cells F) with (L := fun (_ _ : nat) => False) (T := fun (_ _ : nat) => False) (t := fun (_ : nat) => fresh_node)
      as (t' & E' & M).
    - split; intros v; cbn; [tauto| |tauto]. split; [left; reflexivity|intros x []].
    - unfold analyze in E. rewrite E in E'. injection E' as <-. eapply tab_iff; [| |exact M]; intros v x; cbn; unfold levels_of, touching; tauto.
  Qed.

  Lemma is_hanging_spec L T t v : tab L T t -> (is_hanging (t v) = true <-> exists x, T v x /\ forall y, L v y -> x < y).
  Proof.
    intros [A _ C]. specialize (A v). specialize (C v). unfold is_hanging. destruct (touching_level (t v)) as [x|]; cbn in C.
    - destruct C as [C1 C2]. destruct (minimum_level (t v)) as [m|]; cbn in A.
      + destruct A as [A1 A2]. split.
        * intros E. apply Nat.ltb_lt in E. exists x. split; [exact C1|]. intros y Y. specialize (A2 y Y). lia.
        * intros (z & Z & Q). apply Nat.ltb_lt. specialize (C2 z Z). specialize (Q m A1). lia.
      + split; [|reflexivity]. intros _. exists x. split; [exact C1|]. intros y Y. elim (A y Y).
    - split; [discriminate|]. intros (x & X & _). elim (C x X).
  Qed.
  Lemma hanging_detected cells t v : refined H cells -> tab (levels_of cells) (touching cells) t -> (is_hanging (t v) = true <-> hangs H cells v).
  Proof.
    intros R M. rewrite (is_hanging_spec _ _ _ v M). destruct (rf_born _ _ R) as (born & B1 & B2). split.
    - intros (x & (c & f & I & J & (V & [[BF ->]|[NC ->]])) & Q).
      + exfalso. pose proof (Q (level H (cid c))) as Z. cut (level H (cid c) < level H (cid c)); [lia|]. apply Z.
        exists c. split; [exact I|]. split; [|reflexivity]. eapply (rf_closure _ _ R); eassumption.
      + exists c, f. repeat split; try assumption; try apply NC. intros HV.
        destruct (rf_outside _ _ R c f I J (proj1 NC)) as (c' & I' & E').
        cut (level H (outside f) < level H (outside f)); [lia|]. apply Q. exists c'. rewrite E'. auto.
    - intros (c & f & I & J & NC & V & NV). exists (level H (outside f)). split.
      + exists c, f. split; [exact I|]. split; [exact J|]. split; [exact V|]. right. split; [exact NC|reflexivity].
      + intros y (c' & I' & HV & ->). pose proof (B2 c f v I J NC V NV). pose proof (B1 c' v I' HV). lia.
  Qed.
End Grid.
