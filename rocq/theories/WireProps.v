(** Property C42: data handles between different layouts. *)
From Coq Require Import Init.Byte.
From Verif Require Import Common CommonFacts WireModel WireSpec WireProofs.

(** With leaf sizes sent along: [sb] and [lb] are the values of the leaves on the sender and on the receiver, in the
    order of the ordering tree.  If every leaf is missing on a side or has the same size on both, scatter() consumes
    exactly the message, combines the values of the leaves present on both sides one by one, and leaves the rest alone;
    it reports the sender's rank, and asks for a commit iff it changed something.  Otherwise it throws. *)
Theorem c42_leaf_sizes A (value : codec A) (size rank : codec nat) transmit_rank op my_rank (sb lb : list (list A)) n rest :
  codec_ok value -> codec_ok size -> codec_ok rank -> length sb = length lb ->
  representable rank my_rank -> Forall (representable size) (tl (offsets (map (@length A) sb))) -> Forall (representable value) (concat sb) ->
  (Forall2 compatible sb lb ->
   exists commit,
     scatter A value size rank transmit_rank true (length sb) op true n (offsets (map (@length A) lb))
       (gather A value size rank transmit_rank true my_rank (offsets (map (@length A) sb)) (concat sb) [] ++ rest) (concat lb) =
     Ok (rest, concat (received_all op sb lb), commit, if transmit_rank then Some my_rank else None) /\
     (commit = true <-> some_common sb lb)) /\
  (~ Forall2 compatible sb lb ->
     scatter A value size rank transmit_rank true (length sb) op true n (offsets (map (@length A) lb))
       (gather A value size rank transmit_rank true my_rank (offsets (map (@length A) sb)) (concat sb) [] ++ rest) (concat lb) = Throw).
Proof. intros V S R L H1 H2 H3. apply scatter_leaf_spec; auto. Qed.
Print Assumptions c42_leaf_sizes.

(** On an entity outside the partitions of the receiver's entity set the whole message is skipped. *)
Theorem c42_outside A (value : codec A) (size rank : codec nat) transmit_rank op my_rank (sb : list (list A)) n loffs rest :
  codec_ok value -> codec_ok size -> codec_ok rank ->
  representable rank my_rank -> Forall (representable size) (tl (offsets (map (@length A) sb))) ->
  scatter A value size rank transmit_rank true (length sb) op false n loffs
    (gather A value size rank transmit_rank true my_rank (offsets (map (@length A) sb)) (concat sb) [] ++ rest) [] =
  Ok (rest, [], false, if transmit_rank then Some my_rank else None).
Proof. intros V S R H1 H2. apply scatter_outside; auto. Qed.
Print Assumptions c42_outside.

(** Without leaf sizes: equal sizes are required, everything is combined and exactly the message is consumed. *)
Theorem c42_same_layout A (value : codec A) (size rank : codec nat) transmit_rank leaf_count op my_rank (sv lv : list A) offs loffs rest :
  codec_ok value -> codec_ok size -> codec_ok rank -> representable rank my_rank -> Forall (representable value) sv ->
  (length sv = length lv ->
   scatter A value size rank transmit_rank false leaf_count op true
     (message_size A value size rank transmit_rank false leaf_count (length sv)) loffs
     (gather A value size rank transmit_rank false my_rank offs sv [] ++ rest) lv =
   Ok (rest, combined op lv sv, true, if transmit_rank then Some my_rank else None)) /\
  (length sv <> length lv ->
   scatter A value size rank transmit_rank false leaf_count op true
     (message_size A value size rank transmit_rank false leaf_count (length sv)) loffs
     (gather A value size rank transmit_rank false my_rank offs sv [] ++ rest) lv = Throw).
Proof. intros V S R H1 H2. apply scatter_plain_spec; auto. Qed.
Print Assumptions c42_same_layout.

(** size() announces exactly the number of bytes gather() writes. *)
Theorem c42_announced_size A (value : codec A) (size rank : codec nat) transmit_rank send my_rank (sb : list (list A)) :
  codec_ok value -> codec_ok size -> codec_ok rank ->
  length (gather A value size rank transmit_rank send my_rank (offsets (map (@length A) sb)) (concat sb) []) =
  message_size A value size rank transmit_rank send (length sb) (length (concat sb)).
Proof. intros V S R. apply gather_size; auto. Qed.
Print Assumptions c42_announced_size.

(** Two bytes for numbers below 256, one byte for booleans. *)
Definition byte_codec : codec nat :=
  Codec nat 2 (fun n => [x00; match Byte.of_nat n with Some b => b | None => x00 end])
        (fun l => match l with [_; b] => Byte.to_nat b | _ => 0 end).
Definition bool_codec : codec bool :=
  Codec bool 1 (fun b => [if b then x01 else x00]) (fun l => match l with [x01] => true | _ => false end).

(** Without leaf sizes the data for an entity outside the partitions of the receiver is left in the buffer: the next
    entity would read it as its own. *)
Theorem c42_outside_same_layout_refuted :
  exists (value : codec bool) (size rank : codec nat) sv, codec_ok value /\ sv <> [] /\
    forall op rest,
    scatter bool value size rank false false 1 op false (message_size bool value size rank false false 1 (length sv)) [0; 0]
      (gather bool value size rank false false 0 [0; 2] sv [] ++ rest) [] =
    Ok (encode value true ++ encode value false ++ rest, [], false, None).
Proof.
  exists bool_codec, byte_codec, byte_codec, [true; false]. split.
  - split; [cbn; lia|]. intros [|]; cbn; auto.
  - split; [discriminate|]. reflexivity.
Qed.
Print Assumptions c42_outside_same_layout_refuted.

(** Three leaves: the first only on the sender, the second on both sides, the third only on the receiver. *)
Example c42_meets :
  codec_ok bool_codec /\ codec_ok byte_codec /\ representable byte_codec 7 /\
  Forall (representable byte_codec) [2; 4; 4] /\ Forall (representable bool_codec) [true; true; true; false] /\
  Forall2 compatible [[true; true]; [true; false]; []] [[]; [false; false]; [false; true]] /\
  received_all orb [[true; true]; [true; false]; []] [[]; [false; false]; [false; true]] = [[]; [true; false]; [false; true]] /\
  ~ Forall2 compatible [[true; true]] [[false]] /\
  (let msg := gather bool bool_codec byte_codec byte_codec true true 7 [0; 2; 4; 4] [true; true; true; false] [] in
   length msg = 12 /\
   scatter bool bool_codec byte_codec byte_codec true true 3 orb true 12 [0; 0; 2; 4] (msg ++ [x42]) [false; false; false; true] =
   Ok ([x42], [true; false; false; true], true, Some 7)).
Proof.
  split; [split; [cbn; lia|]; intros [|]; cbn; auto|].
  split; [split; [cbn; lia|reflexivity]|]. split; [reflexivity|].
  split; [repeat constructor|]. split; [repeat constructor|].
  split; [constructor; [right; now left|constructor; [right; now right|constructor; [now left|constructor]]]|].
  split; [reflexivity|].
  split; [intros H; inversion H as [|? ? ? ? C _]; subst; destruct C as [C|[C|C]]; discriminate|].
  split; reflexivity.
Qed.
