(** C30, C31: the matrices of the simple backend. *)
From Verif Require Import CsrModel CsrSpec CsrProofs CsrProofs2.
From Coq Require Import Lra.
Local Open Scope R_scope.

(** C30.  A pattern built by any sequence of add_link calls contains exactly the linked entries. *)
Theorem c30_pattern : forall n links, Forall (fun q => (fst q < n)%nat) links ->
  exists p, foldM add_link links (repeat [] n) = Ok p /\ length p = n /\ sets p /\
    forall i j, present p i j = true <-> In (i, j) links.
Proof.
  intros n links F. destruct (links_present links (repeat [] n)) as (p & E & S & L & G).
  { rewrite repeat_length. exact F. } { apply repeat_nil_sets. }
  exists p. rewrite repeat_length in L. split; [exact E|]. split; [exact L|]. split; [exact S|]. intros i j. rewrite G, repeat_nil_present. intuition discriminate.
Qed.
Print Assumptions c30_pattern.

(** C30.  For every pattern and every history of entry assignments, accumulations, scalar assignments, scalings and
    clear_row calls addressing pattern entries, in debug and release builds, all calls succeed and every entry of the
    pattern then reads as the history says, starting from the initial value. *)
Theorem c30_history : forall chk p ncols e ops, Forall (addresses (present p)) ops ->
  exists m, foldM (step chk) ops (allocate p ncols e) = Ok m /\
    forall i j, present p i j = true -> read chk m i j = Ok (after (present p) e ops i j).
Proof.
  intros chk p n e ops L. destruct (history_spec chk p ops L _ _ (shape_allocate p n e) (allocate_agrees p n e)) as (m & E & S & G & _).
  exists m. split; [exact E|]. intros i j P. apply (read_spec chk p m _ i j S G P).
Qed.
Print Assumptions c30_history.

(** C30.  mv and usmv are the product with the matrix the history describes, entries outside the pattern being 0. *)
Theorem c30_product : forall chk p ncols e ops alpha x y, sets p -> (forall i j, present p i j = true -> (j < ncols)%nat) ->
  Forall (addresses (present p)) ops -> length x = ncols -> length y = length p ->
  exists m y1 y2, foldM (step chk) ops (allocate p ncols e) = Ok m /\
    mv m x y = Ok y1 /\ usmv m alpha x y = Ok y2 /\ length y1 = length p /\ length y2 = length p /\
    forall i, (i < length p)%nat ->
      nth i y1 0 = dot ncols (after (present p) e ops i) (at_ x) /\
      nth i y2 0 = nth i y 0 + alpha * dot ncols (after (present p) e ops i) (at_ x).
Proof.
  intros chk p n e ops alpha x y ND B L Lx Ly. destruct (history_spec chk p ops L _ _ (shape_allocate p n e) (allocate_agrees p n e)) as (m & E & S & G & C).
  cbn [allocate cols] in C. destruct (mv_spec p m _ x y ND S G) as (y1 & E1 & L1 & V1); [rewrite C; exact B|congruence|exact Ly|].
  destruct (usmv_spec p m _ alpha x y ND S G) as (y2 & E2 & L2 & V2); [rewrite C; exact B|congruence|exact Ly|].
  rewrite C in V1, V2. exists m, y1, y2. do 5 (split; [assumption|]). intros i Hi. split; [apply V1, Hi|apply V2, Hi].
Qed.
Print Assumptions c30_product.

(** C30.  The same for the dense matrix, whose pattern is the whole rectangle. *)
Theorem c30_dense : forall n k e ops alpha x y, Forall (addresses (fun i j => (i <? n)%nat && (j <? k)%nat)) ops -> length x = k -> length y = n ->
  let A := after (fun i j => (i <? n)%nat && (j <? k)%nat) e ops in
  exists m y1 y2, foldM dstep ops (dallocate n k e) = Ok m /\
    (forall i j, (i < n)%nat -> (j < k)%nat -> dread m i j = Ok (A i j)) /\
    dmv m x y = Ok y1 /\ dusmv m alpha x y = Ok y2 /\ length y1 = n /\ length y2 = n /\
    forall i, (i < n)%nat -> nth i y1 0 = dot k (A i) (at_ x) /\ nth i y2 0 = nth i y 0 + alpha * dot k (A i) (at_ x).
Proof.
  intros n k e ops alpha x y L Lx Ly A. destruct (dallocate_spec n k e) as (S0 & G0).
  destruct (dhistory_spec n k ops L _ _ S0 G0) as (m & E & S & G).
  destruct (dmv_spec n k m _ x y S G Lx Ly) as (y1 & E1 & L1 & V1). destruct (dusmv_spec n k m _ alpha x y S G Lx Ly) as (y2 & E2 & L2 & V2).
  exists m, y1, y2. split; [exact E|]. split.
  - intros i j Hi Hj. apply (dread_spec n k m _ i j S G). apply inside_iff. auto.
  - do 4 (split; [assumption|]). intros i Hi. split; [apply V1, Hi|apply V2, Hi].
Qed.
Print Assumptions c30_dense.

(** The matrix of the example in the class documentation. *)
Definition doc : pattern := [[2; 0]; [2]; [0; 1; 2]]%nat.
Definition doc_ops : list op := [Put 0 0 1; Put 0 2 2; Put 1 2 3; Put 2 0 4; Put 2 1 5; Accu 2 2 6]%nat.
Example c30_meets : Forall (addresses (present doc)) (Clear 0 7 :: Assign 0 :: doc_ops ++ [Scale 2]) /\ sets doc /\
  (forall i j, present doc i j = true -> (j < 3)%nat) /\
  foldM (step true) doc_ops (allocate doc 3 0) = Ok (mkcsr 3 3 [1; 2; 3; 4; 5; 0 + 6] [0; 2; 2; 0; 1; 2]%nat [0; 2; 3; 6]%nat).
Proof.
  split; [repeat constructor|]. split; [unfold sets, doc; repeat constructor; cbn; intuition discriminate|]. split.
  - intros i j P. unfold present, doc in P. destruct i as [|[|[|i]]]; cbn [nth_error] in P; [| | |destruct i; discriminate];
      apply mem_in in P; cbn in P; lia.
  - reflexivity.
Qed.

(** C31, partial.  Exactly what an access outside the pattern does when asserts are enabled: it is detected if the row has no
    larger column; otherwise it addresses the entry of the next larger column of the row.  Missing: detection in that case. *)
Theorem c31_detected_partial : forall p ncols e ops m i j, Forall (addresses (present p)) ops ->
  foldM (step true) ops (allocate p ncols e) = Ok m -> present p i j = false ->
  ((forall j', (j < j')%nat -> present p i j' = false) -> read true m i j = Throw \/ read true m i j = UB) /\
  (forall j', (j < j')%nat -> present p i j' = true -> (forall q, (j < q < j')%nat -> present p i q = false) ->
     read true m i j = read true m i j' /\ forall f, write true m i j f = write true m i j' f).
Proof.
  intros p n e ops m i j L E P. destruct (history_spec true p ops L _ _ (shape_allocate p n e) (allocate_agrees p n e)) as (m' & E' & S & G & _).
  rewrite E in E'. injection E' as <-. split.
  - intros A. unfold read. destruct (outside_position p m i j S P A) as [H|H]; rewrite H; auto.
  - intros j' J P' N. unfold read, write. rewrite (outside_next true p m i j j' S P J P' N), (position_in true p m i j' S P'). auto.
Qed.
Print Assumptions c31_detected_partial.
Example c31_meets : present doc 1 0 = false /\ present doc 1 2 = true /\ present doc 0 3 = false /\ (forall q, (0 < q < 2)%nat -> present doc 1 q = false).
Proof. do 3 (split; [reflexivity|]). intros q Q. assert (q = 1)%nat as -> by lia. reflexivity. Qed.

(** C31 fails: even with asserts a write outside the pattern changes another entry of the row, ... *)
Theorem c31_write_refuted : exists p m m', sets p /\ m = allocate p 3 0 /\ present p 1 0 = false /\
  write true m 1 0 (fun _ => 5) = Ok m' /\ present p 1 2 = true /\ read true m 1 2 = Ok 0 /\ read true m' 1 2 = Ok 5.
Proof.
  exists doc. eexists. eexists. split; [unfold sets, doc; repeat constructor; cbn; intuition discriminate|].
  split; [reflexivity|]. split; [reflexivity|]. split; [reflexivity|]. repeat split; reflexivity.
Qed.
Print Assumptions c31_write_refuted.
(** ... and without asserts clear_row on a row without diagonal entry changes another row. *)
Theorem c31_clear_row_refuted : exists p m m', sets p /\ m = allocate p 3 0 /\ clear_row false m 1 1 = Ok m' /\
  present p 2 0 = true /\ read false m 2 0 = Ok 0 /\ read false m' 2 0 = Ok 1.
Proof.
  exists [[0]; [0]; [0; 2]]%nat. eexists. eexists. split; [unfold sets; repeat constructor; cbn; intuition discriminate|].
  split; [reflexivity|]. split; [reflexivity|]. repeat split; reflexivity.
Qed.
Print Assumptions c31_clear_row_refuted.
(** The dense matrix does not check columns: column k of row i is column 0 of row i+1. *)
Theorem c31_dense_refuted : exists m m', m = dallocate 2 2 0 /\ dwrite m 0 2 (fun _ => 5) = Ok m' /\ dread m 1 0 = Ok 0 /\ dread m' 1 0 = Ok 5.
Proof. eexists. eexists. repeat split; reflexivity. Qed.
Print Assumptions c31_dense_refuted.
