(** Nested ISTL vectors and matrices (C78-C82). *)
From Coq Require Import Reals Lra Sorting.Sorted.
From Verif Require Import Common CommonFacts OrderingModel IstlModel IstlSpec IstlProofs IstlProofs2 IstlProofs3 IstlProofs4.

(** ** C78: iteration *)

(** From begin() to end() the iterator passes every entry once, in lexicographic order, for all nestings and sizes, also with
    empty blocks, and never goes past the end of a block. *)
Theorem c78_iteration v : exists ps, (forall n, length ps <= n -> visit v n (begin_of v) = Ok ps) /\
  (forall p, In p ps <-> exists x, get v p = Some x) /\ StronglySorted lex_lt ps.
Proof. exists (entries v). split; [intros n L; apply iterate_ok, L|]. split; [apply in_entries|apply sorted_entries]. Qed.
Print Assumptions c78_iteration.

Definition ex_v : nvec := Block [Block []; Block [Field [1; 2]; Field [3; 4]]; Block []; Block [Field [5; 6]]; Block []]%R.
Example c78_hypotheses_met : visit ex_v 9 (begin_of ex_v) = Ok [[1;0;0]; [1;0;1]; [1;1;0]; [1;1;1]; [3;0;0]; [3;0;1]].
Proof. reflexivity. Qed.

(** begin() equals end() only for vectors without entries. *)
Theorem c78_empty v : at_end (begin_of v) = true <-> forall p, get v p = None.
Proof.
  unfold begin_of. destruct (start_ok v 0 [] (fun _ => (0, 0)) []) as (ok & t & cur & E & _ & M). rewrite E. cbn [at_end].
  split.
  - intros A p. destruct (get v p) as [x|] eqn:G; [|reflexivity]. assert (I : In p (entries v)) by (apply in_entries; eauto). destruct (entries v) as [|q es]; [destruct I|]. destruct M as (-> & _). discriminate.
  - intros H. destruct (entries v) as [|q es] eqn:En; [subst ok; reflexivity|]. assert (I : In q (entries v)) by (rewrite En; left; reflexivity). apply in_entries in I. destruct I as (x & G). rewrite H in G. discriminate.
Qed.
Print Assumptions c78_empty.
Example c78_empty_met : at_end (begin_of (Block [Block []; Block []])) = true /\ at_end (begin_of ex_v) = false.
Proof. split; reflexivity. Qed.

(** ** C79: access to vectors *)

(** The container index of an entry leads to this entry; for blocks of size one with and without the component of the block. *)
Theorem c79_access n d v p x : has_type n d v -> get v p = Some x -> at_index v (index n p) = Ok p /\ at_index v (rev p) = Ok p.
Proof.
  intros T G. assert (F : at_index v (rev p) = Ok p).
  { unfold at_index. rewrite rev_length, (get_length n d v T p x G). apply (access_full n d v T p x G). }
  split; [|exact F]. unfold index. destruct (n =? 1) eqn:E; [|exact F]. apply Nat.eqb_eq in E. subst n. unfold at_index. rewrite rev_length.
  assert (L : length (removelast p) = d).
  { pose proof (get_length 1 d v T p x G) as Lp. destruct p as [|a p]; [discriminate|]. pose proof (f_equal (@length nat) (last_one 0 (a :: p) ltac:(discriminate))) as Q. rewrite app_length in Q. cbn [length] in Q, Lp. lia. }
  rewrite L. apply (access_short d v T p x G).
Qed.
Print Assumptions c79_access.

(** Distinct entries have distinct indices, and an access that succeeds leads to an existing entry. *)
Theorem c79_distinct n d v p q x y : has_type n d v -> get v p = Some x -> get v q = Some y -> index n p = index n q -> p = q.
Proof.
  intros T Gp Gq E. destruct (c79_access n d v p x T Gp) as (A & _). destruct (c79_access n d v q y T Gq) as (B & _). rewrite E, B in A. injection A as A. auto.
Qed.
Print Assumptions c79_distinct.
Theorem c79_sound v ci p : at_index v ci = Ok p -> exists x, get v p = Some x.
Proof. apply access_sound. Qed.
Print Assumptions c79_sound.

(** Writing through the reference changes this entry only. *)
Theorem c79_write v p x y : get v p = Some x -> forall q, get (put v p y) q = if list_eq_dec Nat.eq_dec q p then Some y else get v q.
Proof. apply get_put. Qed.
Print Assumptions c79_write.

(** A vector with the sizes of a size provider has an entry for every index below these sizes. *)
Theorem c79_sized n d size v p : has_type n d v -> shaped size [] v -> length p = S d ->
  (forall k, k < length p -> nth k p 0 < size (firstn k p)) -> at_index v (index n p) = Ok p.
Proof.
  intros T S L B. destruct (shaped_get size v [] S n d p T L B) as (x & G). apply (c79_access n d v p x T G).
Qed.
Print Assumptions c79_sized.

Definition ex_w : nvec := Block [Block [Field [1]]; Block [Field [2]; Field [3]]]%R.
Example c79_hypotheses_met : has_type 1 2 ex_w /\ get ex_w [1;1;0] = Some 3%R /\ index 1 [1;1;0] = [1;1] /\
  shaped (fun pre => match pre with [] => 2 | [k] => S k | _ => 1 end) [] ex_w /\ has_type 2 2 ex_v /\ at_index ex_v [1;0;3] = Ok [3;0;1].
Proof.
  assert (T : forall a : R, has_type 1 0 (Field [a])) by (intros a; constructor; reflexivity).
  split; [|split; [reflexivity|]; split; [reflexivity|]; split; [|split; [|reflexivity]]].
  - repeat (constructor; intros ? I; in_cases I; subst); apply T.
  - constructor; [reflexivity|]. intros [|[|k]] c E; cbn in E; try (injection E as <-); [| |destruct k; discriminate].
    + constructor; [reflexivity|]. intros [|k] c E; cbn in E; [injection E as <-; constructor; reflexivity|destruct k; discriminate].
    + constructor; [reflexivity|]. intros [|[|k]] c E; cbn in E; try (injection E as <-; constructor; reflexivity); destruct k; discriminate.
  - repeat (constructor; intros ? I; in_cases I; subst); constructor; reflexivity.
Qed.

(** ** C80: access to matrices, clearing rows *)

Theorem c80_access n m d A rp cp x : mtype n m d A -> mget A rp cp = Some x -> at_entry A (index n rp) (index m cp) = Ok (rp, cp).
Proof. intros T G. pose proof (maccess_ok n m d A T rp cp x [] [] G) as H. rewrite !app_nil_r in H. exact H. Qed.
Print Assumptions c80_access.
Theorem c80_sound n m d A ri ci rp cp : mtype n m d A -> at_entry A ri ci = Ok (rp, cp) -> exists x, mget A rp cp = Some x.
Proof. intros T. apply (maccess_sound A ri ci _ _ rp cp n m d T). Qed.
Print Assumptions c80_sound.

(** clear_row: the entries of this row become zero, the diagonal entry, if it exists, the given value; all other entries and the
    pattern are kept. *)
Theorem c80_clear_row n d A rp v : mtype n n d A -> is_row n d A rp -> exists A', clear_row A (index n rp) v = Ok A' /\ mtype n n d A' /\
  forall rp' cp, mget A' rp' cp = if list_eq_dec Nat.eq_dec rp' rp
                                  then option_map (fun _ => if list_eq_dec Nat.eq_dec cp rp then v else 0%R) (mget A rp' cp)
                                  else mget A rp' cp.
Proof. apply clear_row_ok. Qed.
Print Assumptions c80_clear_row.

(** clear_row_block: the same for all rows of the small block of the row. *)
Theorem c80_clear_row_block n d A rp v : mtype n n d A -> is_row n d A rp -> exists A', clear_row_block A (index n rp) v = Ok A' /\ mtype n n d A' /\
  forall rp' cp, mget A' rp' cp = if list_eq_dec Nat.eq_dec (removelast rp') (removelast rp)
                                  then option_map (fun _ => if list_eq_dec Nat.eq_dec cp rp' then v else 0%R) (mget A rp' cp)
                                  else mget A rp' cp.
Proof. apply clear_row_block_ok. Qed.
Print Assumptions c80_clear_row_block.

Definition ex_A : nmat := BM [[(0, FM 2 2 [[4; 1]; [1; 4]]%R); (1, FM 2 2 [[0; 1]; [2; 0]]%R)]; [(1, FM 2 2 [[5; 2]; [2; 5]]%R)]].
Lemma ex_A_type : mtype 2 2 1 ex_A.
Proof.
  constructor.
  - intros row I. in_cases I; subst; cbn; repeat constructor; cbn; intuition lia.
  - intros row c b I J. in_cases I; subst; in_cases J; injection J as <- <-; constructor; try reflexivity; intros r K; in_cases K; subst; reflexivity.
Qed.
Example c80_hypotheses_met : mtype 2 2 1 ex_A /\ is_row 2 1 ex_A [0; 1] /\ mget ex_A [0; 1] [1; 0] = Some 2%R /\ index 2 [0; 1] = [1; 0] /\
  clear_row ex_A [1; 0] 7%R = Ok (BM [[(0, FM 2 2 [[4; 1]; [0; 7]]%R); (1, FM 2 2 [[0; 1]; [0; 0]]%R)]; [(1, FM 2 2 [[5; 2]; [2; 5]]%R)]]) /\
  clear_row_block ex_A [1; 0] 7%R = Ok (BM [[(0, FM 2 2 [[7; 0]; [0; 7]]%R); (1, FM 2 2 [[0; 0]; [0; 0]]%R)]; [(1, FM 2 2 [[5; 2]; [2; 5]]%R)]]).
Proof.
  split; [apply ex_A_type|]. split; [|repeat split].
  econstructor; [reflexivity|reflexivity|discriminate|]. intros c b I. in_cases I; injection I as <- <-; constructor; lia.
Qed.

(** A leaf space with fixed blocking whose block size one is found in the finite element map: the ordering keeps the component
    of the block; vectors accept the index, matrices do not. *)
Theorem c80_unit_block_refuted : exists o en i d v A ci,
  leaf_descriptor Fixed 0 1 = Ok d /\ block_size d = 1 /\ depth d = 1 /\ o = OLeaf (leaf_blocked Fixed 0) (FixedSizes [(2, 1)]) /\
  mapIndex o en [i] = Ok (rev ci) /\ has_type 1 1 v /\ mtype 1 1 1 A /\
  at_index v ci = Ok [1; 0] /\ mget A [1; 0] [1; 0] <> None /\ at_entry A ci ci = UB.
Proof.
  exists (OLeaf true (FixedSizes [(2, 1)])), (0, 1), 0, (mkdesc true false true 1 1 1), (Block [Field [1]; Field [2]])%R,
    (BM [[(0, FM 1 1 [[1]]%R)]; [(1, FM 1 1 [[1]]%R)]]), [0; 1].
  split; [reflexivity|]. split; [reflexivity|]. split; [reflexivity|]. split; [reflexivity|]. split; [reflexivity|]. split; [|split; [|repeat split; discriminate]].
  - constructor. intros c I. in_cases I; subst; constructor; reflexivity.
  - constructor; [intros row I; in_cases I; subst; cbn; repeat constructor; cbn; tauto|].
    intros row c b I J. in_cases I; subst; in_cases J; injection J as <- <-; constructor; try reflexivity; intros r K; in_cases K; subst; reflexivity.
Qed.
Print Assumptions c80_unit_block_refuted.

(** ** C81: the block diagonal *)

(** For every matrix whose diagonal blocks exist: the product of its block diagonal with a vector. *)
Theorem c81_product n A x : matches n A x -> exists D y, diagonal A = Ok D /\ mv D x = Ok y /\
  forall p, get y p = match get x p with
                      | Some _ => Some (rsum n (fun k => value (mget A p (removelast p ++ [k])) * value (get x (removelast p ++ [k])))%R)
                      | None => None
                      end.
Proof. apply diagonal_product. Qed.
Print Assumptions c81_product.

(** After invert() the product solves with the diagonal blocks. *)
Theorem c81_inverse n A x inv : matches n A x -> exists D, diagonal A = Ok D /\
  ((forall rows, In rows (small_blocks D) -> inverts n inv rows) -> exists y, mv (invert_blocks inv D) x = Ok y /\ mv D y = Ok x).
Proof. apply diagonal_inverse. Qed.
Print Assumptions c81_inverse.

(** The rows of the diagonal blocks *)
Theorem c81_rows n A x : matches n A x -> exists D, diagonal A = Ok D /\
  forall p a, get x p = Some a -> exists row, block_row D p = Some row /\ forall k, nth_error row k = mget A p (removelast p ++ [k]).
Proof.
  intros M. destruct (diagonal_ok n x A M) as (D & E & S & Q). exists D. split; [exact E|]. intros p a G. destruct (dshape_row n D x S p a G) as (row & B). exists row. split; [exact B|exact (Q p row B)].
Qed.
Print Assumptions c81_rows.
Theorem c81_row_access n d D p row : dtype n d D -> block_row D p = Some row -> row_of D (index n p) (length (index n p)) = Ok row.
Proof. intros T B. pose proof (row_of_ok n d D T p row [] B) as E. rewrite app_nil_r in E. exact E. Qed.
Print Assumptions c81_row_access.

(** Communication: what is announced is what is written, and what is read is added to the same rows. *)
Theorem c81_exchange n d D ps : dtype n d D -> (forall p, In p ps -> exists row, block_row D p = Some row) ->
  (exists buf, dh_gather D (map (index n) ps) = Ok buf /\ length buf = n * length ps /\ (has_first D -> dh_size D (map (index n) ps) = Ok (length buf)) /\
     forall i k row, i < length ps -> k < n -> block_row D (nth i ps []) = Some row -> nth_error buf (n * i + k) = nth_error row k) /\
  forall buf, n * length ps <= length buf -> exists D', dh_scatter D (map (index n) ps) buf = Ok (D', skipn (n * length ps) buf) /\ dtype n d D' /\
    forall q, match block_row D q, block_row D' q with
              | Some row, Some row' => forall k, k < n -> value (nth_error row' k) =
                  (value (nth_error row k) + rsum (length ps) (fun i => if list_eq_dec Nat.eq_dec (nth i ps []) q then value (nth_error buf (n * i + k)) else 0))%R
              | None, None => True
              | _, _ => False
              end.
Proof.
  intros T H. split.
  - exists (concat (rows_of D ps)). split; [apply (dh_gather_ok n d D ps T H)|]. rewrite (rows_of_length n d D ps T H). split; [reflexivity|].
    split; [|apply (gather_nth n d D ps T H)]. intros F. unfold dh_size. rewrite (dh_size_ok n d D _ T F 0), map_length. reflexivity.
  - intros buf L. apply (dh_scatter_ok n d ps D buf T H L).
Qed.
Print Assumptions c81_exchange.

(** The size is read off the first block: undefined if this block is empty, although the DOF has a row. *)
Theorem c81_size_refuted : exists D p row, dtype 1 2 D /\ block_row D p = Some row /\ dh_gather D [index 1 p] = Ok row /\ dh_size D [index 1 p] = UB.
Proof.
  exists (DB [DB []; DB [DF 1 1 [[3%R]]]]), [1; 0; 0], [3%R]. split; [|repeat split].
  constructor. intros c I. in_cases I; subst; constructor; intros c J; in_cases J; subst. constructor; [reflexivity|]. intros r K. in_cases K; subst. reflexivity.
Qed.
Print Assumptions c81_size_refuted.

Definition ex_x : nvec := Block [Field [1; 2]; Field [3; 4]]%R.
Example c81_hypotheses_met : matches 2 ex_A ex_x /\ (exists D, diagonal ex_A = Ok D /\ dtype 2 1 D /\ has_first D /\ block_row D [1; 0] = Some [5; 2]%R) /\
  (forall a b c e : R, (a * e - b * c)%R <> 0%R ->
     inverts 2 (fun rows => match rows with [[a; b]; [c; e]] => let q := (a * e - b * c)%R in [[e / q; - b / q]; [- c / q; a / q]]%R | _ => [] end) [[a; b]; [c; e]]).
Proof.
  split; [|split].
  - constructor; [reflexivity|]. intros [|[|i]] row x E F; cbn in E, F; try (destruct i; discriminate); injection E as <-; injection F as <-; eexists; (split; [reflexivity|]); constructor; try reflexivity; intros r I; in_cases I; subst; reflexivity.
  - eexists. split; [reflexivity|]. split; [|split; [exact I|reflexivity]]. constructor. intros c I. in_cases I; subst; constructor; try reflexivity; intros r K; in_cases K; subst; reflexivity.
  - intros a b c e H. split; [reflexivity|]. split; [intros r K; in_cases K; subst; reflexivity|]. intros i j Hi Hj.
    assert (Ei : i = 0 \/ i = 1) by lia. assert (Ej : j = 0 \/ j = 1) by lia. destruct Ei as [-> | ->], Ej as [-> | ->]; unfold rsum, delta, entry2; cbn; field; exact H.
Qed.

(** ** C82: block structure of vectors *)

(** Fixed blocking: one level of blocks that hold the DOFs of all leaf spaces below; all of them are unblocked and have a size. *)
Theorem c82_fixed ch d : describe (SInner Fixed ch) = Ok d ->
  block_size d = sum_nat (flat_map leaf_sizes ch) /\ depth d = 1 /\ forallb unblocked ch = true /\ forall n, In n (flat_map leaf_sizes ch) -> 0 < n.
Proof. apply describe_fixed. Qed.
Print Assumptions c82_fixed.
(** Without dynamic blocking there is one level, a dynamically blocked node on top of such spaces adds one. *)
Theorem c82_flat s d : flat_space s = true -> describe s = Ok d -> depth d = 1.
Proof. intros F. apply flat_depth, F. Qed.
Print Assumptions c82_flat.
Theorem c82_dynamic_partial ch d : forallb flat_space ch = true -> describe (SInner Dynamic ch) = Ok d -> depth d = 2.
Proof. apply dynamic_depth. Qed.
Print Assumptions c82_dynamic_partial.
Theorem c82_dynamic_single c d d' : describe c = Ok d -> describe (SInner Dynamic [c]) = Ok d' -> depth d' = S (depth d).
Proof. apply chain_depth. Qed.
Print Assumptions c82_dynamic_single.

Definition ex_s : space := SInner Dynamic [SLeaf NoBlocking 0 1; SInner NoBlocking [SLeaf NoBlocking 0 1; SLeaf NoBlocking 0 3]].
Example c82_hypotheses_met : describe ex_s = Ok (mkdesc true false true 1 5 2) /\
  describe (SInner Fixed [SLeaf NoBlocking 0 1; SInner NoBlocking [SLeaf NoBlocking 2 4; SLeaf NoBlocking 0 3]]) = Ok (mkdesc true false true 6 6 1).
Proof. split; reflexivity. Qed.

(** Two dynamically blocked spaces below a dynamically blocked space: the vector type has two levels, the container indices of the
    ordering have three components, so that all DOFs of a leaf space share one entry; a third such space is rejected. *)
Theorem c82_nested_refuted : exists s d o v,
  s = SInner Dynamic [SLeaf NoBlocking 0 1; SLeaf NoBlocking 0 1] /\
  describe (SInner Dynamic [s; s]) = Ok d /\ block_size d = 1 /\ depth d = 2 /\
  o = OLex true [OLeaf false (FixedSizes [(4, 1)]); OLeaf false (FixedSizes [(4, 1)])] /\
  has_type 1 2 v /\ shaped (fun pre => match pre with [] => blockCount (OLex true [o; o]) | [_] => blockCount o | _ => 1 end) [] v /\
  (forall e, e < 4 -> mapIndex (OLex true [o; o]) (0, e) [1; 0; 0] = Ok [1; 0; e] /\ at_index v (rev [1; 0; e]) = Ok [1; 0; 0]) /\
  describe (SInner Dynamic [s; s; s]) = Throw.
Proof.
  exists (SInner Dynamic [SLeaf NoBlocking 0 1; SLeaf NoBlocking 0 1]), (mkdesc true false true 1 4 2),
    (OLex true [OLeaf false (FixedSizes [(4, 1)]); OLeaf false (FixedSizes [(4, 1)])]), (Block [Block [Field [0]; Field [0]]; Block [Field [0]; Field [0]]])%R.
  split; [reflexivity|]. split; [reflexivity|]. split; [reflexivity|]. split; [reflexivity|]. split; [reflexivity|].
  split; [|split; [|split; [|reflexivity]]].
  - repeat (constructor; intros ? I; in_cases I; subst); constructor; reflexivity.
  - constructor; [reflexivity|]. intros [|[|k]] c E; cbn in E; try (destruct k; discriminate); injection E as <-; (constructor; [reflexivity|]);
    intros [|[|k]] c E; cbn in E; try (destruct k; discriminate); injection E as <-; constructor; reflexivity.
  - intros [|[|[|[|e]]]] He; try lia; split; reflexivity.
Qed.
Print Assumptions c82_nested_refuted.

(** A leaf space with fixed blocking and a block size that divides the number of DOFs of a cell is accepted; the index of a DOF
    is then not in the block. *)
Theorem c82_leaf_block_refuted : exists d en i ci, leaf_descriptor Fixed 2 4 = Ok d /\ block_size d = 2 /\
  mapIndex (OLeaf (leaf_blocked Fixed 2) (FixedSizes [(3, 4)])) en [i] = Ok ci /\ forall v, has_type 2 1 v -> at_index v (rev ci) = UB.
Proof.
  exists (mkdesc true false true 2 2 1), (0, 1), 3, [1; 3]. split; [reflexivity|]. split; [reflexivity|]. split; [reflexivity|].
  intros v T. unfold at_index. cbn [rev app length]. inversion T as [|? l T1]; subst. rewrite access_block. cbn [nth_error].
  destruct l as [|c0 [|c1 l]]; try reflexivity. cbn [nth_error]. pose proof (T1 c1 (or_intror (or_introl eq_refl))) as T2. inversion T2 as [l3 L3 |]; subst. rewrite access_field, L3. reflexivity.
Qed.
Print Assumptions c82_leaf_block_refuted.
