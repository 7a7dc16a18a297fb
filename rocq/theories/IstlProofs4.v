(** Communication of diagonal blocks; block structure of the vectors. *)
From Coq Require Import Reals Lra.
From Verif Require Import Common CommonFacts IstlModel IstlSpec IstlProofs IstlProofs2 IstlProofs3.

Lemma rsum_shift n f : rsum (S n) f = (f 0%nat + rsum n (fun i => f (S i)))%R.
Proof. unfold rsum. cbn [seq map fold_right]. rewrite <- seq_shift, map_map. reflexivity. Qed.
Lemma nth_error_skip {A} n : forall (l : list A) k, nth_error (skipn n l) k = nth_error l (n + k).
Proof. induction n as [|n IH]; intros [|a l] k; try reflexivity; cbn; [destruct k; reflexivity|apply IH]. Qed.

Lemma dh_size_ok n d D (cis : list (list nat)) : dtype n d D -> has_first D -> forall s, foldM (fun s ci => let* n := row_size D in Ok (s + n)) cis s = Ok (s + n * length cis).
Proof.
  intros T F. rewrite (row_size_ok n d D T F). cbn [bind]. induction cis as [|ci cis IH]; intros s; cbn [foldM length bind]; [f_equal; lia|]. rewrite IH. f_equal. lia.
Qed.

Definition rows_of (D : dvec) (ps : list path) : list (list R) := map (fun p => match block_row D p with Some row => row | None => [] end) ps.
Lemma dh_gather_ok n d D ps : dtype n d D -> (forall p, In p ps -> exists row, block_row D p = Some row) ->
  dh_gather D (map (index n) ps) = Ok (concat (rows_of D ps)).
Proof.
  intros T H. unfold dh_gather. change (concat (rows_of D ps)) with ([] ++ concat (rows_of D ps)). generalize (@nil R). induction ps as [|p ps IH]; intros buf; [cbn; rewrite app_nil_r; reflexivity|].
  destruct (H p (or_introl eq_refl)) as (row & B). cbn [map foldM rows_of concat]. pose proof (row_of_ok n d D T p row [] B) as E. rewrite app_nil_r in E. rewrite E, B. cbn [bind].
  rewrite IH by (intros q I; apply H; right; exact I). rewrite <- app_assoc. reflexivity.
Qed.
Lemma rows_of_length n d D ps : dtype n d D -> (forall p, In p ps -> exists row, block_row D p = Some row) -> length (concat (rows_of D ps)) = n * length ps.
Proof.
  intros T H. induction ps as [|p ps IH]; [cbn; lia|]. destruct (H p (or_introl eq_refl)) as (row & B). cbn [rows_of map concat length]. rewrite B, app_length.
  destruct (dtype_path n d D T p row B) as (_ & ->). unfold rows_of in IH. rewrite IH by (intros q I; apply H; right; exact I). lia.
Qed.
Lemma gather_nth n d D ps : dtype n d D -> (forall p, In p ps -> exists row, block_row D p = Some row) -> forall i k row, i < length ps -> k < n -> block_row D (nth i ps []) = Some row ->
  nth_error (concat (rows_of D ps)) (n * i + k) = nth_error row k.
Proof.
  intros T H. induction ps as [|p ps IH]; intros i k row Hi Hk B; [cbn in Hi; lia|]. destruct (H p (or_introl eq_refl)) as (row0 & B0). cbn [rows_of map concat]. rewrite B0.
  destruct (dtype_path n d D T p row0 B0) as (_ & L0). destruct i as [|i].
  - cbn in B. rewrite B in B0. injection B0 as <-. rewrite Nat.mul_0_r. cbn. apply nth_error_app1. lia.
  - rewrite nth_error_app2 by nia. replace (n * S i + k - length row0) with (n * i + k) by nia. apply IH; [intros q I; apply H; right; exact I|cbn in Hi; lia|exact Hk|exact B].
Qed.

Lemma dh_scatter_ok n d ps : forall D buf, dtype n d D -> (forall p, In p ps -> exists row, block_row D p = Some row) -> n * length ps <= length buf ->
  exists D', dh_scatter D (map (index n) ps) buf = Ok (D', skipn (n * length ps) buf) /\ dtype n d D' /\
  forall q, match block_row D q, block_row D' q with
            | Some row, Some row' => forall k, k < n -> value (nth_error row' k) = (value (nth_error row k) + rsum (length ps) (fun i => if dec (nth i ps []) q then value (nth_error buf (n * i + k)) else 0))%R
            | None, None => True | _, _ => False end.
Proof.
  unfold dh_scatter. induction ps as [|p ps IH]; intros D buf T H L.
  - exists D. cbn [map foldM length]. rewrite Nat.mul_0_r. split; [reflexivity|]. split; [exact T|]. intros q. destruct (block_row D q); [|exact I]. intros k _. unfold rsum. cbn. lra.
  - destruct (H p (or_introl eq_refl)) as (row & B). destruct (dtype_path n d D T p row B) as (_ & Lr). cbn [length] in L.
    destruct (add_row_ok row buf) as (new & Ea & Ln & Va); [nia|]. destruct (set_row_ok n d D T p row [] new B ltac:(lia)) as (D1 & Es & T1 & Q1).
    cbn [map foldM]. pose proof (row_of_ok n d D T p row [] B) as Er. rewrite app_nil_r in Er, Es. rewrite Er. cbn [bind]. rewrite Ea. cbn [bind]. rewrite Es. cbn [bind].
    destruct (IH D1 (skipn (length row) buf) T1) as (D2 & E2 & T2 & Q2).
    { intros q I. rewrite Q1. destruct (dec q p); [eauto|]. apply H. right. exact I. } { rewrite skipn_length. nia. }
    exists D2. split; [rewrite E2; f_equal; f_equal|].
    { rewrite Lr. apply list_ext. intros k. rewrite !nth_error_skip. f_equal. cbn [length]. nia. }
    split; [exact T2|]. intros q. specialize (Q2 q). rewrite Q1 in Q2. cbn [length].
    assert (Sh : forall k, rsum (S (length ps)) (fun i => if dec (nth i (p :: ps) []) q then value (nth_error buf (n * i + k)) else 0%R) =
      ((if dec p q then value (nth_error buf k) else 0) + rsum (length ps) (fun i => if dec (nth i ps []) q then value (nth_error (skipn (length row) buf) (n * i + k)) else 0))%R).
    { intros k. rewrite rsum_shift. cbn [nth]. rewrite Nat.mul_0_r. cbn [Nat.add]. f_equal. apply rsum_ext. intros i _. rewrite nth_error_skip, Lr. replace (n * S i + k) with (n + (n * i + k)) by nia. reflexivity. }
    destruct (dec q p) as [->|NE].
    + rewrite B. destruct (block_row D2 p) as [row2|]; [|contradiction]. intros k Hk. rewrite (Q2 k Hk), Sh, Va by lia. destruct (dec p p); [|congruence]. lra.
    + destruct (block_row D q) as [row0|], (block_row D2 q) as [row2|]; try contradiction; [|exact I]. intros k Hk. rewrite (Q2 k Hk), Sh. destruct (dec p q); [congruence|]. lra.
Qed.

(** ** Block structure *)
Lemma space_ind' (P : space -> Prop) : (forall b u d, P (SLeaf b u d)) -> (forall b ch, (forall c, In c ch -> P c) -> P (SInner b ch)) -> forall s, P s.
Proof.
  intros HF HB. fix F 1. intros [b u d|b l]; [apply HF|]. apply HB. induction l as [|c l IH]; [intros ? []|]. intros c' [<- | I]; [apply F|apply IH, I].
Qed.
Fixpoint siblings (d : descriptor) (r : list space) : res descriptor := match r with [] => Ok d | c :: r => let* e := describe c in siblings (sibling d e) r end.
Lemma describe_inner b c r : describe (SInner b (c :: r)) = let* d := describe c in let* d := siblings d r in parent b d.
Proof.
  cbn [describe]. destruct (describe c) as [d| |]; cbn [bind]; [|reflexivity|reflexivity]. f_equal.
Qed.
Definition described (s : space) (d : descriptor) : Prop := cumulative d = sum_nat (leaf_sizes s) /\ cascaded d = unblocked s /\ valid d = forallb (Nat.ltb 0) (leaf_sizes s) /\
  (cascaded d = true -> depth d = 1 /\ block_size d = 1).
Definition described_list (l : list space) (d : descriptor) : Prop := cumulative d = sum_nat (flat_map leaf_sizes l) /\ cascaded d = forallb unblocked l /\
  valid d = forallb (Nat.ltb 0) (flat_map leaf_sizes l) /\ (cascaded d = true -> depth d = 1 /\ block_size d = 1).
Lemma siblings_ok r : forall d l d', (forall c, In c r -> forall d, describe c = Ok d -> described c d) -> described_list l d -> siblings d r = Ok d' -> described_list (l ++ r) d'.
Proof.
  induction r as [|c r IH]; intros d l d' H D E; cbn in E; [injection E as <-; rewrite app_nil_r; exact D|]. destruct (describe c) as [e| |] eqn:Ec; try discriminate. cbn in E.
  replace (l ++ c :: r) with ((l ++ [c]) ++ r) by (rewrite <- app_assoc; reflexivity). apply (IH (sibling d e)); [intros c' I; apply H; right; exact I| |exact E].
  destruct (H c (or_introl eq_refl) e Ec) as (A1 & A2 & A3 & A4). destruct D as (B1 & B2 & B3 & B4). unfold described_list. rewrite flat_map_app. cbn [flat_map]. rewrite app_nil_r. unfold sibling.
  cbn [cumulative cascaded valid depth block_size]. split; [rewrite sum_nat_app; lia|]. split; [rewrite forallb_app, A2, B2; cbn; rewrite andb_true_r; reflexivity|].
  split; [rewrite forallb_app, A3, B3; reflexivity|]. intros C. apply andb_true_iff in C. destruct C as (C1 & C2). destruct (A4 C2) as (X1 & X2), (B4 C1) as (Y1 & Y2).
  split; [reflexivity|]. rewrite Y2. destruct (no_blocking d && _); reflexivity.
Qed.
Lemma describe_ok s : forall d, describe s = Ok d -> described s d.
Proof.
  induction s as [b u n|b ch IH] using space_ind'; intros d E.
  - cbn in E. unfold leaf_descriptor in E. unfold described. cbn [leaf_sizes sum_nat forallb unblocked]. set (cum := if 0 <? u then u else n) in *.
    destruct b; [|discriminate|]; destruct (negb _); try discriminate; cbn in E; try (destruct (0 <? cum) eqn:E0; [|discriminate]); cbn in E; injection E as <-; cbn [cumulative cascaded valid depth block_size].
    + split; [unfold sum_nat; cbn; lia|]. split; [reflexivity|]. split; [rewrite andb_true_r; reflexivity|]. intros _. split; reflexivity.
    + split; [unfold sum_nat; cbn; lia|]. split; [reflexivity|]. split; [cbn; cbn in E0; rewrite ?E0; reflexivity|]. discriminate.
  - destruct ch as [|c r]; [discriminate|]. rewrite describe_inner in E. destruct (describe c) as [d0| |] eqn:Ec; try discriminate. cbn [bind] in E.
    destruct (siblings d0 r) as [d1| |] eqn:Es; try discriminate. cbn [bind] in E.
    assert (D1 : described_list ([c] ++ r) d1).
    { apply (siblings_ok r d0 [c] d1); [intros c' I; apply IH; right; exact I| |exact Es]. destruct (IH c (or_introl eq_refl) d0 Ec) as (A1 & A2 & A3 & A4). unfold described_list. cbn [flat_map forallb]. rewrite app_nil_r, andb_true_r. auto. }
    destruct D1 as (B1 & B2 & B3 & B4). cbn [app] in *. unfold described. cbn [leaf_sizes unblocked]. destruct b; cbn in E.
    + destruct (no_blocking d1); [|discriminate]. injection E as <-. cbn. auto.
    + destruct (no_blocking d1); [|discriminate]. injection E as <-. cbn. repeat split; auto; discriminate.
    + destruct (cascaded d1 && valid d1) eqn:C; [|discriminate]. injection E as <-. cbn. repeat split; auto; discriminate.
Qed.
Lemma describe_fixed ch d : describe (SInner Fixed ch) = Ok d -> block_size d = sum_nat (flat_map leaf_sizes ch) /\ depth d = 1 /\ forallb unblocked ch = true /\ forall n, In n (flat_map leaf_sizes ch) -> 0 < n.
Proof.
  intros E. destruct ch as [|c r]; [discriminate|]. rewrite describe_inner in E. destruct (describe c) as [d0| |] eqn:Ec; try discriminate. cbn [bind] in E.
  destruct (siblings d0 r) as [d1| |] eqn:Es; try discriminate. cbn [bind] in E.
  assert (D1 : described_list ([c] ++ r) d1).
  { apply (siblings_ok r d0 [c] d1); [intros c' I; apply describe_ok| |exact Es]. destruct (describe_ok c d0 Ec) as (A1 & A2 & A3 & A4). unfold described_list. cbn [flat_map forallb]. rewrite app_nil_r, andb_true_r. auto. }
  destruct D1 as (B1 & B2 & B3 & B4). unfold parent in E. destruct (cascaded d1 && valid d1) eqn:C; [|discriminate]. injection E as <-. cbn [block_size depth]. apply andb_true_iff in C. destruct C as (C1 & C2).
  split; [exact B1|]. split; [reflexivity|]. split; [rewrite C1 in B2; symmetry; exact B2|]. intros n I. rewrite C2 in B3. symmetry in B3. rewrite forallb_forall in B3. apply Nat.ltb_lt, B3, I.
Qed.

(** Without dynamic blocking there is one level of BlockVector. *)
Lemma parent_not_dynamic b d d' : b <> Dynamic -> depth d = 1 -> parent b d = Ok d' -> depth d' = 1.
Proof. destruct b; cbn; intros NE D E; [|congruence|]; [destruct (no_blocking d)|destruct (cascaded d && valid d)]; try discriminate; injection E as <-; auto. Qed.
Lemma siblings_depth r : forall d d', depth d = 1 -> siblings d r = Ok d' -> depth d' = 1.
Proof.
  induction r as [|c r IH]; intros d d' D E; cbn in E; [injection E as <-; exact D|]. destruct (describe c) as [e| |]; try discriminate. cbn in E. apply (IH (sibling d e)); [reflexivity|exact E].
Qed.
Lemma flat_depth s : flat_space s = true -> forall d, describe s = Ok d -> depth d = 1.
Proof.
  induction s as [b u n|b ch IH] using space_ind'; intros F d E.
  - cbn in E. unfold leaf_descriptor in E. destruct b; [|discriminate|]; destruct (negb _); try discriminate; cbn in E; try (destruct (0 <? _); [|discriminate]); cbn in E; injection E as <-; reflexivity.
  - destruct ch as [|c r]; [discriminate|]. rewrite describe_inner in E. destruct (describe c) as [d0| |] eqn:Ec; try discriminate. cbn [bind] in E.
    destruct (siblings d0 r) as [d1| |] eqn:Es; try discriminate. cbn [bind] in E. cbn [flat_space] in F. destruct b; [|discriminate|]; cbn [forallb] in F; apply andb_true_iff in F; destruct F as (F1 & F2);
    (eapply parent_not_dynamic; [|eapply siblings_depth; [|exact Es]; apply (IH c (or_introl eq_refl) F1 d0 Ec)|exact E]; discriminate).
Qed.
Lemma dynamic_depth ch d : forallb flat_space ch = true -> describe (SInner Dynamic ch) = Ok d -> depth d = 2.
Proof.
  intros F E. destruct ch as [|c r]; [discriminate|]. rewrite describe_inner in E. destruct (describe c) as [d0| |] eqn:Ec; try discriminate. cbn [bind] in E.
  destruct (siblings d0 r) as [d1| |] eqn:Es; try discriminate. cbn in F. apply andb_true_iff in F. destruct F as (F1 & _). pose proof (siblings_depth r d0 d1 (flat_depth c F1 d0 Ec) Es) as D1.
  cbn in E. destruct (no_blocking d1); [|discriminate]. injection E as <-. cbn. lia.
Qed.
(** Dynamic blocking nested in one child only *)
Lemma chain_depth c d d' : describe c = Ok d -> describe (SInner Dynamic [c]) = Ok d' -> depth d' = S (depth d).
Proof. intros Ec E. rewrite describe_inner, Ec in E. cbn in E. destruct (no_blocking d); [|discriminate]. injection E as <-. reflexivity. Qed.
