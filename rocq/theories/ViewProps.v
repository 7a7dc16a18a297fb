(** C169-C171: local matrices, weighted accumulation views, views on global containers. *)
From Verif Require Import ViewModel ViewSpec CommonFacts ViewProofs ViewProofs2.
From Coq Require Import Lra.
Local Open Scope nat_scope.

(** ** C169 *)
(** Whatever has been done to a local matrix, every entry of its shape can be read. *)
Theorem c169_readable m i j : reachable m -> inside m i j -> exists v, entry m i j = Ok v.
Proof. intros H. apply entry_exists. now apply reachable_shaped. Qed.
Print Assumptions c169_readable.
(** Setting an entry succeeds, is seen when that entry is read, and changes no other entry. *)
Theorem c169_set_get m i j v : reachable m -> inside m i j -> exists m', set_entry m i j v = Ok m' /\ reachable m' /\
  rows m' = rows m /\ cols m' = cols m /\ entry m' i j = Ok v /\
  forall i' j', inside m i' j' -> (i', j') <> (i, j) -> entry m' i' j' = entry m i' j'.
Proof.
  intros H I. pose proof (reachable_shaped m H) as SH. eexists. split; [apply (set_exists m i j v SH I)|].
  split; [apply (reachable_step m (SetEntry i j v) _ H); cbn; apply (set_exists m i j v SH I)|]. cbn. split; [reflexivity|]. split; [reflexivity|].
  unfold entry, look, place_of. cbn. fold (place_of m i j). split.
  - now rewrite upd_nth_error_same by (apply place_lt; auto).
  - intros i' j' I' N. fold (place_of m i' j'). rewrite upd_nth_error_other; [reflexivity|].
    intros E. apply N. destruct (place_inj m i j i' j' I I' E) as (-> & ->). reflexivity.
Qed.
Print Assumptions c169_set_get.
(** The constructor and assign give every entry the value, so does operator=; operator*= multiplies every entry. *)
Theorem c169_filled m r c t x i j : reachable m ->
  (i < r -> j < c -> entry (make r c t) i j = Ok t) /\
  (inside m i j -> entry (fill t m) i j = Ok t) /\
  (inside m i j -> exists v, entry m i j = Ok v /\ entry (scale x m) i j = Ok (x * v)%R).
Proof.
  intros H. pose proof (reachable_shaped m H) as SH. repeat split.
  - intros I J. unfold entry, make, place_of. cbn. apply look_repeat. nia.
  - intros I. destruct (entry_exists m i j SH I) as (v & E). unfold entry, fill, place_of in *. cbn. now rewrite look_map, E.
  - intros I. destruct (entry_exists m i j SH I) as (v & E). exists v. split; [exact E|].
    unfold entry, scale, place_of in *. cbn. now rewrite look_map, E.
Qed.
Print Assumptions c169_filled.
(** umv adds A x to the first entries of y, usmv adds alpha A x, and nothing else changes. *)
Theorem c169_umv m x y a : reachable m -> cols m <= length x -> rows m <= length y ->
  (forall i j, inside m i j -> entry m i j = Ok (a i j)) -> exists y', umv m x y = Ok y' /\ length y' = length y /\
  (forall i, i < rows m -> nth i y' 0%R = (nth i y 0 + total (map (fun j => a i j * nth j x 0) (seq 0 (cols m))))%R) /\
  (forall i, rows m <= i -> nth i y' 0%R = nth i y 0%R).
Proof.
  intros H LX LY A. pose proof (reachable_shaped m H) as SH.
  destruct (outer_ok m x (fun a u => a * u)%R SH LX (rows m) y (le_n _) LY) as (y' & E & L & V & O). exists y'. split; [exact E|].
  split; [exact L|]. split; [|exact O]. intros i I. rewrite (V i I). f_equal. f_equal. apply map_ext_in. intros j J. apply in_seq in J.
  f_equal. assert (X : inside m i j) by (split; lia). pose proof (A i j X) as E1. rewrite (entry_val m i j SH X) in E1. congruence.
Qed.
Print Assumptions c169_umv.
Theorem c169_usmv m alpha x y a : reachable m -> cols m <= length x -> rows m <= length y ->
  (forall i j, inside m i j -> entry m i j = Ok (a i j)) -> exists y', usmv m alpha x y = Ok y' /\ length y' = length y /\
  (forall i, i < rows m -> nth i y' 0%R = (nth i y 0 + total (map (fun j => alpha * a i j * nth j x 0) (seq 0 (cols m))))%R) /\
  (forall i, rows m <= i -> nth i y' 0%R = nth i y 0%R).
Proof.
  intros H LX LY A. pose proof (reachable_shaped m H) as SH.
  destruct (outer_ok m x (fun a u => alpha * a * u)%R SH LX (rows m) y (le_n _) LY) as (y' & E & L & V & O). exists y'. split; [exact E|].
  split; [exact L|]. split; [|exact O]. intros i I. rewrite (V i I). f_equal. f_equal. apply map_ext_in. intros j J. apply in_seq in J.
  f_equal. f_equal. assert (X : inside m i j) by (split; lia). pose proof (A i j X) as E1. rewrite (entry_val m i j SH X) in E1. congruence.
Qed.
Print Assumptions c169_usmv.
(** A loop from begin() to end() ends and visits every entry exactly once, row by row, also if there are no rows or columns. *)
Theorem c169_loop m : loop m (rows m * cols m) (begin_ m) = Some (row_by_row (rows m) (cols m)).
Proof. apply loop_all. Qed.
Print Assumptions c169_loop.
Theorem c169_each_once r c : NoDup (row_by_row r c) /\ forall i j, In (i, j) (row_by_row r c) <-> i < r /\ j < c.
Proof.
  split; [|intros; apply in_row_by_row]. unfold row_by_row. generalize (seq_NoDup r 0). generalize (seq 0 r). intros l N.
  induction N as [|i l I N IH]; cbn; [constructor|]. apply nodup_app; auto.
  - apply FinFun.Injective_map_NoDup; [intros a b E; congruence|apply seq_NoDup].
  - intros (i', j) A B. apply in_map_iff in A as (j' & E & _). injection E as -> ->.
    apply in_flat_map in B as (i2 & B1 & B2). apply in_map_iff in B2 as (j2 & E & _). injection E as -> ->. contradiction.
Qed.
Print Assumptions c169_each_once.
(** Going back undoes going forward. *)
Theorem c169_back m i j : inside m i j -> decrement m (increment m (i, j)) = (i, j).
Proof.
  intros (A & B). unfold increment, decrement. cbn [fst snd]. destruct (Nat.ltb_spec j (cols m - 1)); cbn [fst snd].
  - change (Nat.ltb 0 (S j)) with true. cbn iota. f_equal. lia.
  - change (Nat.ltb 0 0) with false. cbn iota. f_equal; lia.
Qed.
Print Assumptions c169_back.
(** Adding columns keeps the entries; a change of the number of rows moves them. *)
Theorem c169_more_columns m c i j : reachable m -> cols m <= c -> inside m i j -> entry (resize (rows m) c m) i j = entry m i j.
Proof.
  intros H C I. pose proof (reachable_shaped m H) as SH. pose proof (place_lt m i j SH I) as L. unfold entry, look, resize, place_of in *. cbn.
  unfold shaped in SH. rewrite firstn_all2 by nia. now rewrite nth_error_app1 by exact L.
Qed.
Print Assumptions c169_more_columns.
Theorem c169_resize_keeps_refuted : exists m r c i j, reachable m /\ rows m <= r /\ cols m <= c /\ inside m i j /\
  entry (resize r c m) i j <> entry m i j.
Proof.
  exists (mklmat 1 2 [1; 2])%R, 2, 2, 0, 1. split; [|split; [cbn; lia|split; [cbn; lia|split; [split; cbn; lia|]]]].
  - exists 1, 2, 0%R, [SetEntry 0 0 1; SetEntry 0 1 2]%R. reflexivity.
  - cbv. intros E. injection E as E. lra.
Qed.
Print Assumptions c169_resize_keeps_refuted.
Example c169_meets : reachable (mklmat 2 2 [1; 0; 0; 3])%R /\ inside (mklmat 2 2 [1; 0; 0; 3])%R 1 1.
Proof. split; [|split; cbn; lia]. exists 2, 2, 0%R, [SetEntry 0 0 1; SetEntry 1 1 3]%R. reflexivity. Qed.

(** ** C170 *)
(** Whatever is accumulated through views of a vector, each entry is its old value plus all contributions to it, each times
    the weight of its view unless the weight is left out. *)
Theorem c170_sum s cs s' w : (forall k u f, nth_error (views s) k = Some (u, f) -> w k = u) -> foldM wstep (map call cs) s = Ok s' ->
  length (vec s') = length (vec s) /\
  forall i, i < length (vec s) -> nth i (vec s') 0%R = (nth i (vec s) 0 + total (map (share w i) cs))%R.
Proof.
  intros W E. destruct (calls cs s s' E) as (L & _ & A). split; [exact L|]. intros i I. rewrite (A i I). f_equal. f_equal.
  apply map_ext_in. intros c C. unfold share. destruct (nth_error (c_lfs c) (c_dof c)) as [i'|]; [|reflexivity].
  destruct (Nat.eqb i' i); [|reflexivity]. destruct (c_raw c) eqn:R; [reflexivity|]. f_equal.
  unfold weight_of. destruct (nth_error (views s) (c_view c)) as [(u, f)|] eqn:V; [symmetry; exact (W _ _ _ V)|].
  exfalso. apply in_split in C as (l1 & l2 & ->). rewrite map_app, foldM_app in E. destruct (foldM wstep (map call l1) s) as [s1| |] eqn:E1; try discriminate.
  cbn [map foldM bind] in E. assert (V1 : nth_error (views s1) (c_view c) = None).
  { apply nth_error_None. apply nth_error_None in V. clear -E1 V. revert s V E1. induction l1 as [|d l1 IH]; cbn; intros s V E1; [congruence|].
    destruct (wstep s (call d)) as [s2| |] eqn:S2; cbn in E1; try discriminate. apply (IH s2); auto.
    assert (length (views s2) = length (views s)); [|lia]. unfold call in S2. destruct (c_raw d); cbn in S2; destruct (view_at s (c_view d)) as [(u, b)| |]; cbn in S2; try discriminate;
      destruct (local_index _ _); cbn in S2; try discriminate; destruct (add_to _ _ _); cbn in S2; try discriminate; injection S2 as <-; cbn; apply upd_length. }
  unfold call in E. rewrite R in E. cbn [wstep] in E. unfold view_at in E. rewrite V1 in E. discriminate.
Qed.
Print Assumptions c170_sum.
(** A contribution to an entry of the vector through a view that exists succeeds. *)
Theorem c170_accepted s c u f i : nth_error (views s) (c_view c) = Some (u, f) -> nth_error (c_lfs c) (c_dof c) = Some i -> i < length (vec s) ->
  exists s', wstep s (call c) = Ok s'.
Proof.
  intros V L I. unfold call. destruct (c_raw c); cbn; unfold view_at, local_index; rewrite V, L; cbn; unfold add_to; rewrite look_in by exact I; cbn;
    rewrite put_ok by exact I; cbn; eauto.
Qed.
Print Assumptions c170_accepted.
(** The weights of views nested in each other multiply, at any depth; making them changes no entry. *)
Theorem c170_nested l w ws : exists s f, foldM wstep (nest w ws) (mkw l []) = Ok s /\ vec s = l /\
  nth_error (views s) (length ws) = Some ((w * product ws)%R, f).
Proof.
  unfold nest. cbn [foldM wstep bind vec views app]. destruct (nest_from ws (mkw l [(w, false)]) 0 w false) as (s & E & V & _ & f & N & _); auto.
  exists s, f. auto.
Qed.
Print Assumptions c170_nested.
(** The weight of a view is its own: changing it changes no other view and no entry. *)
Theorem c170_own_weight s k w s' : wstep s (SetWeight k w) = Ok s' ->
  vec s' = vec s /\ (exists f, nth_error (views s') k = Some (w, f) /\ exists u, nth_error (views s) k = Some (u, f)) /\
  forall k', k' <> k -> nth_error (views s') k' = nth_error (views s) k'.
Proof.
  cbn. destruct (view_at s k) as [(u, f)| |] eqn:V; cbn; try discriminate. intros E. injection E as <-. cbn. apply view_at_ok in V.
  split; [reflexivity|]. split; [exists f; split; [apply upd_nth_error_same; apply nth_error_Some; congruence|eauto]|].
  intros k' N. now apply upd_nth_error_other; auto.
Qed.
Print Assumptions c170_own_weight.
(** modified() says whether the view has been handed out for writing since it was made or reset, over any history without
    writes through data(). *)
Theorem c170_modified s0 w ops s f u :
  foldM wstep (MakeView w :: ops) s0 = Ok s -> existsb by_data ops = false -> nth_error (views s) (length (views s0)) = Some (u, f) ->
  f = written_since (length (views s0)) ops.
Proof.
  cbn. intros E D N. pose proof (flag_history ops _ s (length (views s0)) false E D) as H. cbn in H. rewrite app_length in H. cbn in H.
  specialize (H ltac:(lia)). unfold flag_of in H. cbn in H. rewrite nth_error_app2, Nat.sub_diag in H by lia. rewrite N in H. exact (H eq_refl).
Qed.
Print Assumptions c170_modified.
(** Writes through data() are not noticed. *)
Theorem c170_data_refuted : exists l w i v s, foldM wstep [WriteData 0 i v] (mkw l [(w, false)]) = Ok s /\ vec s <> l /\ nth_error (views s) 0 = Some (w, false).
Proof.
  exists [0%R], 1%R, 0, 1%R. eexists. split; [reflexivity|]. split; [|reflexivity]. cbn. intros E. injection E as E. lra.
Qed.
Print Assumptions c170_data_refuted.
(** Writes through a nested view are not noticed by the view it was made from, once that has been reset. *)
Theorem c170_nested_refuted : exists l w u ops s, foldM wstep ops (mkw l [(w, false)]) = Ok s /\ ops = [Nested 0 u; ResetModified 0; Accumulate 1 [0] 0 1%R] /\
  vec s <> l /\ nth_error (views s) 0 = Some (w, false).
Proof.
  exists [0%R], 1%R, 1%R. do 2 eexists. split; [|split; [reflexivity|]]; [reflexivity|]. split; [|reflexivity]. cbn. intros E. injection E as E. lra.
Qed.
Print Assumptions c170_nested_refuted.
Example c170_meets : exists s', foldM wstep (map call [mkc 0 [1; 0] 0 3%R false; mkc 1 [0] 0 5%R true]) (mkw [1; 2] [(2, false); (4, false)])%R = Ok s'.
Proof. eexists. reflexivity. Qed.

(** ** C171 *)
(** Reading fills the places of the part with the entries at their indices and nothing else. *)
Theorem c171_read s c idx p : ready s c idx p -> exists s', vstep s (Read p) = Ok s' /\ vectors s' = vectors s /\ vv s' = vv s /\
  length (local s') = length (local s) /\ (forall q k, linked idx p q k -> nth_error (local s') q = vectors s c k) /\
  (forall q, ~ In q (local_places idx p) -> nth_error (local s') q = nth_error (local s) q).
Proof. apply vread_ok. Qed.
Print Assumptions c171_read.
(** Writing stores the local values at their indices; other entries and other containers keep theirs. *)
Theorem c171_write s c idx p : ready s c idx p -> NoDup (global_indices idx p) -> exists s', vstep s (Write p) = Ok s' /\
  local s' = local s /\ vv s' = vv s /\
  (forall q k, linked idx p q k -> vectors s' c k = nth_error (local s) q) /\
  (forall k, ~ In k (global_indices idx p) -> vectors s' c k = vectors s c k) /\
  (forall c', c' <> c -> vectors s' c' = vectors s c').
Proof.
  intros H N. destruct (vwrite_ok s c idx p H) as (s' & E & L & V & O & C & W). exists s'. repeat split; auto.
  intros q k (j & A & B). destruct (W k) as (q' & (j' & A' & B') & ->); [eapply nth_error_In; exact B|].
  assert (j = j') by (eapply nth_error_inj; eauto). subst j'. congruence.
Qed.
Print Assumptions c171_write.
(** Adding adds to each entry all local values that belong to it, also if an index appears several times. *)
Theorem c171_add s c idx p : ready s c idx p -> exists s', vstep s (Add p) = Ok s' /\ local s' = local s /\ vv s' = vv s /\
  (forall c', c' <> c -> vectors s' c' = vectors s c') /\
  (forall k, vectors s' c k = match vectors s c k with
     | Some v => Some (v + total (map (fun q => nth (fst q) (local s) 0) (filter (fun q => Nat.eqb (snd q) k) (combine (local_places idx p) (global_indices idx p)))))%R
     | None => None end).
Proof. apply vadd_ok. Qed.
Print Assumptions c171_add.
(** What has been written is read again, whatever the local container holds in between. *)
Theorem c171_write_read s c idx p l : ready s c idx p -> NoDup (global_indices idx p) -> length l = length (local s) ->
  exists s', foldM vstep [Write p; LocalSet l; Read p] s = Ok s' /\
  (forall q, In q (local_places idx p) -> nth_error (local s') q = nth_error (local s) q) /\
  (forall q, ~ In q (local_places idx p) -> nth_error (local s') q = nth_error l q).
Proof.
  intros H N L. destruct (c171_write s c idx p H N) as (s1 & E & L1 & V1 & W & O & C).
  cbn [foldM]. rewrite E. cbn [bind]. change (vstep s1 (LocalSet l)) with (Ok (mkvworld (vectors s1) (vv s1) l)). cbn [bind].
  assert (R1 : ready (mkvworld (vectors s1) (vv s) l) c idx p).
  { apply ready_local; auto. exact (vstep_domain s _ s1 E c). }
  rewrite <- V1 in R1. destruct (c171_read _ c idx p R1) as (s2 & E2 & _ & _ & _ & R2 & O2). rewrite E2. cbn [bind]. exists s2. split; [reflexivity|]. split.
  - intros q Q. apply In_nth_error in Q as (j & Q). assert (J : exists k, nth_error (global_indices idx p) j = Some k).
    { destruct (nth_error (global_indices idx p) j) eqn:X; [eauto|]. apply nth_error_None in X. rewrite <- links_length in X.
      assert (j < length (local_places idx p)) by (apply nth_error_Some; congruence). lia. }
    destruct J as (k & J). assert (X : linked idx p q k) by (exists j; auto). rewrite (R2 q k X). cbn. exact (W q k X).
  - exact O2.
Qed.
Print Assumptions c171_write_read.
(** Reading and writing back changes no container, even if indices appear several times. *)
Theorem c171_read_write s c idx p : ready s c idx p -> exists s', foldM vstep [Read p; Write p] s = Ok s' /\
  forall c' k, vectors s' c' k = vectors s c' k.
Proof.
  intros H. destruct (c171_read s c idx p H) as (s1 & E & V & U & L & R1 & _). cbn [foldM]. rewrite E. cbn [bind].
  assert (H1 : ready s1 c idx p).
  { replace s1 with (mkvworld (vectors s1) (vv s) (local s1)) by (rewrite <- U; destruct s1; reflexivity). apply ready_local; auto. intros k. now rewrite V. }
  destruct (vwrite_ok s1 c idx p H1) as (s2 & E2 & _ & _ & O & C & W). rewrite E2. cbn [bind]. exists s2. split; [reflexivity|].
  intros c' k. destruct (Nat.eq_dec c' c) as [->|N]; [|rewrite C by exact N; now rewrite V].
  destruct (in_dec Nat.eq_dec k (global_indices idx p)) as [I|N]; [|rewrite O by exact N; now rewrite V].
  destruct (W k I) as (q & Q & ->). rewrite (R1 q k Q). reflexivity.
Qed.
Print Assumptions c171_read_write.
(** Over any history, a container changes only if the view has been attached to it, and no entry appears or disappears. *)
Theorem c171_history ops s s' : foldM vstep ops s = Ok s' ->
  (forall c k, vectors s' c k = None <-> vectors s c k = None) /\
  (forall c, container (vv s) <> Some c -> ~ In (Attach c) ops -> vectors s' c = vectors s c).
Proof.
  revert s. induction ops as [|o ops IH]; cbn; intros s E.
  - injection E as <-. split; [reflexivity|auto].
  - destruct (vstep s o) as [s1| |] eqn:S; cbn in E; try discriminate. destruct (IH s1 E) as (D & F). split.
    + intros c k. rewrite D. exact (vstep_domain s o s1 S c k).
    + intros c N A. destruct (vstep_frame s o s1 c S N) as (V & N1); [intros ->; tauto|]. rewrite F; auto.
Qed.
Print Assumptions c171_history.
(** Exchanges through a view that is not attached or was never bound are undefined behaviour. *)
Theorem c171_undefined s o : (exists p, o = Read p \/ o = Write p \/ o = Add p) \/ (exists i v, o = SetAt i v) ->
  container (vv s) = None \/ bound (vv s) = None -> vstep s o = UB.
Proof.
  intros [(p & [-> | [-> | ->]])|(i & v & ->)] [N|N]; cbn; rewrite ?N; cbn; auto; destruct (container (vv s)); reflexivity.
Qed.
Print Assumptions c171_undefined.
(** A view that has been unbound goes on using the indices it was bound to. *)
Theorem c171_unbind_refuted : exists s idx o s', foldM vstep [Bind idx; Unbind] s = Ok s' /\ o = Write Whole /\
  exists s2 c k, vstep s' o = Ok s2 /\ vectors s2 c k <> vectors s c k.
Proof.
  exists (mkvworld (fun _ _ => Some 0%R) (mkvview (Some 0) None) [1%R]), [5], (Write Whole). eexists. split; [reflexivity|]. split; [reflexivity|].
  eexists. exists 0, 5. split; [reflexivity|]. cbn. intros E. injection E as E. lra.
Qed.
Print Assumptions c171_unbind_refuted.
(** Matrix views: reading. *)
Theorem c171_matrix_read g ri ci m : reachable m -> rows m = length ri -> cols m = length ci ->
  (forall r c, In r ri -> In c ci -> g (r, c) <> None) -> exists m', mread g ri ci m = Ok m' /\ rows m' = rows m /\ cols m' = cols m /\
  forall i j, i < length ri -> j < length ci -> exists v, g (nth i ri 0, nth j ci 0) = Some v /\ entry m' i j = Ok v.
Proof.
  intros H A B P. destruct (mread_ok g ri ci m (reachable_shaped m H) A B P) as (m' & E & R1 & C1 & _ & V). exists m'. auto.
Qed.
Print Assumptions c171_matrix_read.
Theorem c171_matrix_write g ri ci m : reachable m -> rows m = length ri -> cols m = length ci ->
  (forall r c, In r ri -> In c ci -> g (r, c) <> None) -> NoDup ri -> NoDup ci -> exists g', mwrite m ri ci g = Ok g' /\
  (forall i j, i < length ri -> j < length ci -> exists v, entry m i j = Ok v /\ g' (nth i ri 0, nth j ci 0) = Some v) /\
  (forall r c, ~ (In r ri /\ In c ci) -> g' (r, c) = g (r, c)).
Proof. intros H A B P. exact (mwrite_ok g ri ci m (reachable_shaped m H) A B P). Qed.
Print Assumptions c171_matrix_write.
Theorem c171_matrix_add g ri ci m a : reachable m -> rows m = length ri -> cols m = length ci ->
  (forall r c, In r ri -> In c ci -> g (r, c) <> None) -> (forall i j, inside m i j -> entry m i j = Ok (a i j)) ->
  exists g', madd m ri ci g = Ok g' /\
  forall r c, g' (r, c) = match g (r, c) with
    | Some v => Some (v + total (map (fun q => a (fst q) (snd q))
        (filter (fun q => Nat.eqb (nth (fst q) ri 0%nat) r && Nat.eqb (nth (snd q) ci 0%nat) c) (row_by_row (length ri) (length ci)))))%R
    | None => None end.
Proof.
  intros H A B P V. pose proof (reachable_shaped m H) as SH. destruct (madd_ok g ri ci m SH A B P) as (g' & E & W). exists g'. split; [exact E|].
  intros r c. rewrite W. destruct (g (r, c)); [|reflexivity]. do 3 f_equal. apply map_ext_in. intros (i, j) I. apply filter_In in I as (I & _).
  apply in_row_by_row in I as (I & J). cbn. assert (X : inside m i j) by (split; lia). pose proof (V i j X) as V1. rewrite (entry_val m i j SH X) in V1. congruence.
Qed.
Print Assumptions c171_matrix_add.
Example c171_meets : ready (mkvworld (fun _ k => if Nat.ltb k 9 then Some 1%R else None) (mkvview (Some 3) (Some [4; 7; 2])) [1; 2; 3]%R) 3 [4; 7; 2] (Child [2; 0])
  /\ NoDup (global_indices [4; 7; 2] (Child [2; 0])).
Proof.
  split.
  - repeat split; cbn; repeat constructor; cbn; try lia; discriminate.
  - cbn. repeat constructor; cbn; intuition lia.
Qed.
