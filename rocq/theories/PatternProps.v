(** Properties C09 and C10: sparsity patterns. *)
From Verif Require Import Common CommonFacts PatternModel PatternSpec PatternProofs.

(** C09: whatever the estimate [e], iterating over row [i] after any sequence of add_link calls yields exactly
    the columns linked to row [i], each once. *)
Theorem c09_pattern_is_set_of_links : forall r e links,
  valid_links r links ->
  exists p, build r e links = Ok p /\
  forall i, i < r -> exists cols, row_columns p i = Some cols /\ NoDup cols /\
    forall j, In j cols <-> In (i, j) links.
Proof. exact row_columns_spec. Qed.
Print Assumptions c09_pattern_is_set_of_links.

Example c09_links : list (nat * N) :=
  [(0, 3%N); (1, 1%N); (0, 2%N); (0, 3%N); (0, 7%N); (0, 5%N); (0, 2%N)].
Example c09_hyps : valid_links 2 c09_links.
Proof. intros i j H. unfold c09_links in H. in_cases H; inversion H; subst; split; lia || discriminate. Qed.
Example c09_run : match build 2 2 c09_links with
                  | Ok p => (row_columns p 0, row_columns p 1) = (Some [3; 2; 5; 7]%N, Some [1]%N)
                  | _ => False end.
Proof. vm_compute. reflexivity. Qed.

(** C09, nested block matrices of any nesting depth: every leaf block holds exactly the links whose block
    indices lead to it. *)
Theorem c09_nested_pattern_is_set_of_links : forall d e ro co links,
  same_depth d ro -> same_depth d co ->
  (forall ri ci, In (ri, ci) links -> valid_nlink ro co ri ci) ->
  exists t0 t, ncreate ro co e = Some t0 /\ nbuild t0 links = Ok t /\
  forall bs n, leaf_block ro co bs n -> exists p, block t bs = Some p /\
    forall i, i < n -> exists cols, row_columns p i = Some cols /\ NoDup cols /\
    forall j, In j cols <->
      In (map (fun b => N.of_nat (fst b)) bs ++ [N.of_nat i], map (fun b => N.of_nat (snd b)) bs ++ [j]) links.
Proof. exact nested_spec. Qed.
Print Assumptions c09_nested_pattern_is_set_of_links.

Example c09_nested_hyps :
  let ro := ONode [OLeaf 2; OLeaf 3] in let co := ONode [OLeaf 4] in
  same_depth 1 ro /\ same_depth 1 co /\
  forall ri ci, In (ri, ci) [([0; 1], [0; 3]); ([1; 2], [0; 0])]%N -> valid_nlink ro co ri ci.
Proof.
  cbn. repeat split.
  - constructor. repeat constructor.
  - constructor. repeat constructor.
  - intros ri ci [H|[H|[]]]; inversion H; subst; (eapply vn_node; [reflexivity|reflexivity|]); constructor; cbn; lia || discriminate.
Qed.

(** C10: sizes() counts the distinct columns of each row. *)
Theorem c10_sizes_count_distinct_columns : forall r e links,
  valid_links r links -> exists p, build r e links = Ok p /\
  sizes p = map (fun i => row_size i links) (seq 0 r).
Proof. exact sizes_spec. Qed.
Print Assumptions c10_sizes_count_distinct_columns.

(** C10: overflowCount() is the number of distinct links beyond the estimate, summed over the rows. *)
Theorem c10_overflow_counts_excess : forall r e links,
  valid_links r links -> exists p, build r e links = Ok p /\
  overflowCount p = sum_nat (map (fun i => row_size i links - e) (seq 0 r)).
Proof. exact overflow_spec. Qed.
Print Assumptions c10_overflow_counts_excess.

Example c10_run : match build 2 2 c09_links with
                  | Ok p => (sizes p, overflowCount p) = ([4; 1], 2)
                  | _ => False end.
Proof. vm_compute. reflexivity. Qed.

(** Finding: colOrdering() returns the row ordering, so it differs from the ordering the pattern was
    constructed with whenever the two spaces differ. *)
Theorem c10_colOrdering_refuted :
  exists (ro co : nat), ro <> co /\ colOrdering ro co <> co.
Proof. exists 1, 2. vm_compute. split; discriminate. Qed.
Print Assumptions c10_colOrdering_refuted.

(** The reserved value cannot be stored as a column: the link is lost when a slot is free. *)
Theorem c09_reserved_column_refuted :
  exists r e links p, build r e links = Ok p /\ In (0, empty) links /\ row_columns p 0 = Some [].
Proof. exists 1, 1, [(0, empty)]. eexists. vm_compute. repeat split. now left. Qed.
Print Assumptions c09_reserved_column_refuted.
