(** C172: basic geometry types and topology ids. *)
From Coq Require Import Lia.
From Verif Require Import TopoModel TopoSpec TopoProofs.
Local Open Scope N_scope.

(** C172: for every reference element of every dimension, the basic type found for its id is simplex exactly for simplices,
    cube exactly for cubes that are not simplices (from dimension 2 on), and none for all other elements. *)
Theorem c172_found : forall e,
  (basic_type (length e) (number e) = simplex <-> stands_for simplex e) /\
  (basic_type (length e) (number e) = cube <-> stands_for cube e /\ ~ stands_for simplex e) /\
  (basic_type (length e) (number e) = none_type <-> ~ stands_for simplex e /\ ~ stands_for cube e).
Proof.
  intros e. cbn [stands_for]. rewrite <- simplex_is, <- cube_is. unfold basic_type.
  destruct (is_simplex (number e)), (is_cube (length e) (number e)); repeat split; intros; try discriminate; try tauto; intuition congruence.
Qed.
Print Assumptions c172_found.

(** C172: up to dimension 1 all elements are simplices; from dimension 2 on, none is both. *)
Theorem c172_distinct : forall e, stands_for simplex e -> stands_for cube e -> (length e <= 1)%nat.
Proof.
  intros [|s [|s' e]]; cbn; try lia. intros (_ & A) (_ & B). rewrite A in B. discriminate.
Qed.
Print Assumptions c172_distinct.
Theorem c172_lines : forall e, (length e <= 1)%nat -> basic_type (length e) (number e) = simplex.
Proof. intros [|[] [|]]; cbn; try reflexivity; lia. Qed.
Print Assumptions c172_lines.

(** C172: the other way round: whenever simplex, cube, pyramid or prism is accepted (from dimension 2 on), the id is that of
    the element of this name and dimension. *)
Theorem c172_made : forall b dim id, (2 <= dim)%nat -> b <> none_type -> type_from_basic b dim = Ok id ->
  exists e, length e = dim /\ number e = id /\ stands_for b e.
Proof.
  intros b dim id D NN. unfold type_from_basic. destruct (Nat.leb_spec dim 1); [lia|]. destruct b; try discriminate; try congruence.
  - intros [= <-]. exists (all_cones dim). cbn. rewrite number_repeat_cone. unfold all_cones. rewrite repeat_length. repeat split.
  - destruct (Nat.ltb_spec dim 31); [|discriminate]. intros [= <-]. exists (all_prisms dim). cbn [stands_for].
    rewrite number_repeat_prism. unfold all_prisms. rewrite repeat_length. repeat split.
  - destruct (Nat.eqb_spec dim 3); [|discriminate]. intros [= <-]. exists [Prism; Prism; Cone]. subst. cbn. repeat split.
  - destruct (Nat.eqb_spec dim 3); [|discriminate]. intros [= <-]. exists [Prism; Cone; Prism]. subst. cbn. repeat split.
Qed.
Print Assumptions c172_made.
(** C172: simplices exist in every dimension, cubes up to dimension 30, pyramids and prisms in dimension 3; otherwise there is an exception. *)
Theorem c172_accepted : forall dim, (2 <= dim)%nat ->
  (exists id, type_from_basic simplex dim = Ok id) /\ ((dim < 31)%nat -> exists id, type_from_basic cube dim = Ok id) /\
  (forall b, b = pyramid \/ b = prism -> if (dim =? 3)%nat then exists id, type_from_basic b dim = Ok id else type_from_basic b dim = Throw) /\
  type_from_basic other dim = Throw.
Proof.
  intros dim D. unfold type_from_basic. destruct (Nat.leb_spec dim 1); [lia|]. repeat split; eauto.
  - intros L. destruct (Nat.ltb_spec dim 31); [eauto|lia].
  - intros b [->| ->]; destruct (dim =? 3)%nat; eauto.
Qed.
Print Assumptions c172_accepted.
(** C172: round trip for simplices and cubes in all dimensions from 2 to 30. *)
Theorem c172_round_trip : forall b dim id, (2 <= dim)%nat -> b = simplex \/ b = cube -> type_from_basic b dim = Ok id -> basic_type dim id = b.
Proof.
  intros b dim id D B M. destruct (c172_made b dim id D) as (e & <- & <- & S); [destruct B; subst; discriminate|exact M|].
  destruct (c172_found e) as (F & G & _). destruct B as [->| ->]; [now apply F|]. apply G. split; [exact S|].
  intros C. pose proof (c172_distinct e C S). lia.
Qed.
Print Assumptions c172_round_trip.

(** The property fails for the other names.  Pyramids and prisms are not recognised: *)
Theorem c172_pyramid_refuted : forall b, b = pyramid \/ b = prism -> exists id, type_from_basic b 3 = Ok id /\ basic_type 3 id = none_type.
Proof. intros b [->| ->]; eexists; split; reflexivity. Qed.
Print Assumptions c172_pyramid_refuted.
(** [none] is not refused and gives a simplex in every dimension: *)
Theorem c172_none_refuted : forall dim, exists id, type_from_basic none_type dim = Ok id /\ basic_type dim id = simplex.
Proof. intros dim. exists 0. split; [unfold type_from_basic; now destruct (dim <=? 1)%nat|reflexivity]. Qed.
Print Assumptions c172_none_refuted.
(** and up to dimension 1 every name is accepted, although pyramids are refused in dimension 2: *)
Theorem c172_low_refuted : forall b, type_from_basic b 1 = Ok 0 /\ type_from_basic pyramid 2 = Throw.
Proof. intros b. split; reflexivity. Qed.
Print Assumptions c172_low_refuted.

Example c172_meets : basic_type 3 (number [Prism; Prism; Prism]) = cube /\ basic_type 4 (number [Prism; Cone; Cone; Cone]) = simplex /\
  basic_type 3 (number [Cone; Prism; Cone]) = none_type /\ type_from_basic cube 5 = Ok 31.
Proof. repeat split; reflexivity. Qed.
