(** Applications of the wrapped operators, local blocks and the point diagonal. *)
From Coq Require Import FunctionalExtensionality Lra.
From Verif Require Import CommonFacts DiagModel EngineSpec EngineProofs EngineProofs2 EngineProofs3 ConsProofs2 ConsProofs3 DiagSpec DiagProofs.
Local Open Scope R_scope.

Lemma mv_zero n z i : mv n mzero z i = 0.
Proof. unfold mv. rewrite (nsum_ext _ _ (fun _ => 0)); [apply nsum_zero|]. intros. unfold mzero. ring. Qed.
Lemma mv_novec n a i : mv n a (fun _ => 0) i = 0.
Proof. unfold mv. rewrite (nsum_ext _ _ (fun _ => 0)); [apply nsum_zero|]. intros. ring. Qed.

Lemma diag_local_apply G L J LA : local_apply G L J LA -> local_apply G (diag_terms L) (diag_jterms J) (diag_apply LA).
Proof.
  intros (A & B & C & _ & _ & _ & _ & _ & _ & H). unfold local_apply.
  cbn [diag_terms diag_apply diag_flags do_alpha_volume do_alpha_skeleton do_alpha_boundary do_alpha_post do_two_sided do_lambda_volume do_lambda_skeleton do_lambda_boundary do_lambda_post].
  repeat (split; [assumption || reflexivity|]). intros c t p. destruct (H c t p) as (H1 & _ & H3 & H4).
  cbn [diag_apply diag_flags alpha_volume alpha_post alpha_boundary alpha_skeleton diag_jterms j_volume j_boundary j_post j_skeleton].
  split; [exact H1|]. split; [intros; unfold no_terms_v, vzero; now rewrite mv_zero|]. split; [exact H3|].
  intros f k q i. specialize (H4 f k (no_update q) i). unfold no_update in *. cbn [fst snd] in *.
  destruct (j_skeleton J c f k t (fun i0 => fst (p i0)) (fun i0 => fst (q i0))) as ((ss, sn), (ns, nn)). cbn [fst snd].
  split; intros I; [|unfold vzero; rewrite !mv_zero; ring].
  destruct H4 as [H4 _]. rewrite (H4 I), mv_zero, mv_novec. reflexivity.
Qed.

(** the terms that the application of the off-diagonal wrapper multiplies with *)
Definition sn_jterms (j : jterms) : jterms :=
  mkjterms (fun _ _ _ => mzero) (fun c f i t x y => ((mzero, snd (fst (j_skeleton j c f i t x y))), (mzero, mzero)))
    (fun _ _ _ _ _ => mzero) (fun _ _ _ => mzero).
Lemma off_local_apply G L J LA : local_apply G L J LA -> local_apply G (off_terms L) (sn_jterms J) (off_apply LA).
Proof.
  intros (A & B & C & _ & _ & _ & _ & _ & _ & H). unfold local_apply.
  cbn [off_terms off_apply off_flags do_alpha_volume do_alpha_skeleton do_alpha_boundary do_alpha_post do_two_sided do_lambda_volume do_lambda_skeleton do_lambda_boundary do_lambda_post].
  repeat (split; [assumption || reflexivity|]). intros c t p.
  cbn [off_apply off_flags alpha_volume alpha_post alpha_boundary alpha_skeleton sn_jterms j_volume j_boundary j_post j_skeleton].
  do 3 (split; [intros; unfold no_terms_v, vzero; now rewrite mv_zero|]).
  intros f k q i. destruct (H c t (no_update p)) as (_ & _ & _ & H4). specialize (H4 f k q i). unfold no_update in *. cbn [fst snd] in *.
  destruct (j_skeleton J c f k t (fun i0 => fst (p i0)) (fun i0 => fst (q i0))) as ((ss, sn), (ns, nn)). cbn [fst snd].
  split; intros I; [|unfold vzero; rewrite !mv_zero; ring].
  destruct H4 as [H4 _]. rewrite (H4 I), mv_zero, mv_novec. reflexivity.
Qed.

Lemma sn_value G e t x cells m J L g h : mirrored e cells m -> side_independent e cells m J ->
  jacobian_value G e (off_terms L) (sn_jterms J) t x cells g h = jacobian_value G e (off_terms L) (off_jterms J) t x cells g h.
Proof.
  intros HM HS. rewrite !jacobian_slots. f_equal.
  rewrite !(slots_split e cells) by (intros (c, (i, f)) Hc; cbn in *; now rewrite Hc). f_equal.
  2: { apply lsum_ext. intros s Hs. apply bd_class in Hs. destruct s as (c, (i, f)). cbn in *. now rewrite Hs. }
  destruct (do_alpha_skeleton L) eqn:D.
  - transitivity (lsum (b_sn G t x J g h) (interior_slots e cells)).
    + apply lsum_ext. intros s Hs. apply interior_class in Hs. unfold face_jac, b_sn, blocks, inn, out.
      destruct s as (c, (i, f)). cbn [fst snd] in *.
      cbn [off_terms off_flags do_two_sided do_alpha_skeleton sn_jterms j_skeleton]. rewrite D, orb_true_r. cbn [andb]. rewrite !mscatter_zero.
      destruct Hs as [-> | ->]; ring.
    + rewrite (sum_mirror e cells m HM (b_sn G t x J g h) (b_ns G t x J g h)) by (intros s Hs; apply (mirror_b G e t x cells m J HM HS s g h Hs)).
      apply lsum_ext. intros s Hs. apply interior_class in Hs. unfold face_jac, b_ns, blocks, inn, out.
      destruct s as (c, (i, f)). cbn [fst snd] in *.
      cbn [off_terms off_flags do_two_sided do_alpha_skeleton off_jterms j_skeleton]. rewrite D, orb_true_r. cbn [andb]. rewrite !mscatter_zero.
      destruct Hs as [-> | ->]; ring.
  - apply lsum_ext. intros s Hs. apply interior_class in Hs. destruct s as (c, (i, f)). cbn in *. rewrite D, andb_false_r.
    destruct Hs as [-> | ->]; reflexivity.
Qed.

Theorem off_applied N G L J LA e cells m a s s' x z g : mirrored e cells m -> side_independent e cells m J ->
  dofs_below N G -> local_apply G L J LA ->
  assemble_residual (0, 0) G (off_apply LA) e cells a s (fun h => (x h, z h)) vzero g =
  mv N (assemble_jacobian G (off_terms L) (off_jterms J) e cells a s' x mzero) z g.
Proof.
  intros HM HS DB LA'. rewrite (assembled_apply N G (off_terms L) (sn_jterms J) (off_apply LA) e cells a s s' x z g DB (off_local_apply _ _ _ _ LA')).
  apply mv_ext. intros h. rewrite !assembled_jacobian. now rewrite (sn_value G e (time a) x cells m J L g h HM HS).
Qed.

(** ** One cell's block *)
Lemma scatter_nth ds v i g : NoDup ds -> nth_error ds i = Some g -> scatter ds v g = v i.
Proof.
  unfold scatter. assert (K : forall n, NoDup ds -> nth_error ds i = Some g -> scatter_from n ds v g = v (n + i)%nat).
  { revert i. induction ds as [|d ds IH]; intros i n N E; [destruct i; discriminate|]. inversion N as [|? ? N1 N2]; subst.
    destruct i as [|i]; cbn [scatter_from nth_error] in *.
    - injection E as ->. rewrite Nat.eqb_refl, Nat.add_0_r.
      replace (scatter_from (S n) ds v g) with 0; [ring|].
      assert (Z : forall k, scatter_from k ds v g = 0).
      { clear -N1. induction ds as [|d ds IH]; intros k; cbn [scatter_from]; [reflexivity|]. rewrite IH by (intro; apply N1; now right).
        destruct (Nat.eqb_spec d g) as [->|]; [exfalso; apply N1; now left|ring]. }
      now rewrite Z.
    - destruct (Nat.eqb_spec d g) as [->|]; [exfalso; apply N1; eapply nth_error_In; eassumption|].
      rewrite (IH i (S n) N2 E). replace (n + S i)%nat with (S n + i)%nat by lia. ring. }
  apply (K 0%nat).
Qed.
Lemma mscatter_nth rows cols a i j g h : NoDup rows -> NoDup cols -> nth_error rows i = Some g -> nth_error cols j = Some h ->
  mscatter rows cols a g h = a i j.
Proof. intros A B C D. unfold mscatter. rewrite (scatter_nth rows _ i g A C). now apply (scatter_nth cols (a i) j h). Qed.

Lemma lsum_one {A} (f : A -> R) l a : NoDup l -> In a l -> (forall b, In b l -> b <> a -> f b = 0) -> lsum f l = f a.
Proof.
  intros N I Z. induction N as [|b l N1 N2 IH]; [destruct I|]. rewrite lsum_cons. destruct I as [->|I].
  - rewrite lsum_zero; [ring|]. intros b Hb. apply Z; [now right|]. intros ->. contradiction.
  - rewrite IH; [|assumption|intros; apply Z; auto; now right]. rewrite Z; [ring|now left|]. intros ->. contradiction.
Qed.
Lemma cells_nodup cells : distinct_cells cells -> NoDup cells.
Proof. unfold distinct_cells. apply NoDup_map_inv. Qed.
Lemma same_cell cells c c' : distinct_cells cells -> In c cells -> In c' cells -> cid c = cid c' -> c = c'.
Proof.
  unfold distinct_cells. induction cells as [|b l IH]; intros N A B E; [destruct A|]. inversion N as [|? ? N1 N2]; subst.
  destruct A as [->|A], B as [->|B]; auto.
  - exfalso. apply N1. rewrite E. now apply in_map.
  - exfalso. apply N1. rewrite <- E. now apply in_map.
Qed.
Lemma filter_true {A} (p : A -> bool) l : (forall a, p a = true) -> filter p l = l.
Proof. intros H. induction l as [|a l IH]; [reflexivity|]. cbn. now rewrite H, IH. Qed.
Lemma numbered_all e c : nothing_skipped e -> numbered e c = combine (seq 0 (length (faces c))) (faces c).
Proof.
  intros [_ H]. unfold numbered. rewrite filter_true; [reflexivity|]. intros f. now rewrite H.
Qed.

Lemma local_block_at e J c t x i j :
  local_block e J c t x i j = j_volume J c t x i j + lsum (fun p : nat * face => let (k, f) := p in
    match classify e f with
    | Skeleton => fst (fst (j_skeleton J c f k t x x)) i j
    | Boundary => j_boundary J c f k t x i j
    | _ => 0
    end) (combine (seq 0 (length (faces c))) (faces c)).
Proof.
  unfold local_block. cbn [diag_jterms j_skeleton j_boundary j_volume].
  generalize (combine (seq 0 (length (faces c))) (faces c)) as l, (j_volume J c t x) as m.
  induction l as [|(k, f) l IH]; intros m; cbn [fold_left]; [rewrite lsum_nil; ring|]. rewrite lsum_cons, IH. cbn [fst snd].
  destruct (classify e f); unfold madd; ring.
Qed.

Theorem local_block_assembled G owner e L J cells c t x i j g h :
  dg_space G owner -> nothing_skipped e -> no_periodic e cells -> distinct_cells cells -> outside_free J ->
  do_alpha_volume L = true -> do_alpha_skeleton L = true -> do_alpha_boundary L = true ->
  In c cells -> NoDup (lfsv G (cid c)) -> NoDup (lfsu G (cid c)) ->
  nth_error (lfsv G (cid c)) i = Some g -> nth_error (lfsu G (cid c)) j = Some h ->
  jacobian_value G e (diag_terms L) (diag_jterms J) t x cells g h = local_block e J c t (gather 0 x (lfsu G (cid c))) i j.
Proof.
  intros HG HE HP HD HJ FV FS FB HC NV NU Ei Ej.
  assert (Og : owner g = cid c) by (apply HG; right; eapply nth_error_In; eassumption).
  unfold jacobian_value. rewrite filter_true by (intros b; destruct HE as [H _]; now rewrite H).
  rewrite (lsum_one _ cells c).
  - rewrite local_block_at, (numbered_all e c HE). unfold cell_jac.
    cbn [diag_terms diag_flags do_alpha_volume do_alpha_post diag_jterms j_volume j_post]. rewrite FV. cbn [mopt]. rewrite mscatter_zero.
    rewrite (mscatter_nth _ _ _ i j g h NV NU Ei Ej). rewrite Rplus_0_r. f_equal. apply lsum_ext. intros (k, f) Hkf.
    assert (Hf : In f (faces c)) by (eapply in_combine_r; eassumption).
    unfold face_jac. cbn [diag_terms diag_flags do_two_sided do_alpha_skeleton do_alpha_boundary diag_jterms j_skeleton j_boundary].
    rewrite FS, FB, orb_true_r. cbn [andb mopt]. rewrite !mscatter_zero.
    rewrite !(mscatter_nth _ _ _ i j g h NV NU Ei Ej).
    pose proof (HP c f HC Hf) as NP.
    destruct (classify e f); try reflexivity; [|congruence].
    rewrite (HJ c f k t _ _ (gather 0 x (lfsu G (cid c)))). ring.
  - now apply cells_nodup.
  - assumption.
  - intros b Hb Nb. assert (Nbc : owner g <> cid b) by (rewrite Og; intros E; apply Nb; symmetry; eapply same_cell; eassumption).
    assert (Z : forall cols a, mscatter (lfsv G (cid b)) cols a g h = 0).
    { intros. apply mscatter_absent_row. intros I. apply Nbc. apply HG. now right. }
    rewrite lsum_zero.
    + unfold cell_jac. rewrite !Z. ring.
    + intros (k, f) Hkf. unfold face_jac. cbn [diag_jterms j_skeleton]. rewrite !mscatter_zero, !Z.
      destruct (classify e f); try reflexivity; destruct ((outside f <? cid b)%nat || _); cbn [andb]; try reflexivity; destruct (do_alpha_skeleton _); ring.
Qed.

(** ** Point diagonal *)
Lemma scatter_diagonal ds a g : NoDup ds -> scatter ds (fun i => a i i) g = mscatter ds ds a g g.
Proof.
  intros N. destruct (in_dec Nat.eq_dec g ds) as [I|I].
  - apply In_nth_error in I as [i E]. rewrite (scatter_nth ds _ i g N E). now rewrite (mscatter_nth ds ds a i i g g N N E E).
  - rewrite scatter_absent, mscatter_absent_row by assumption. reflexivity.
Qed.
Theorem point_value G e L J t x cells g : galerkin G ->
  operator_value 0 G e (point_terms L J) t x cells g = jacobian_value G e (diag_terms L) (diag_jterms J) t x cells g g.
Proof.
  intros HG. unfold operator_value, jacobian_value. apply lsum_ext. intros c _.
  assert (D : forall n a, scatter (lfsv G n) (fun i => a i i) g = mscatter (lfsv G n) (lfsu G n) a g g).
  { intros n a. destruct (HG n) as [E N]. rewrite <- E. now apply scatter_diagonal. }
  f_equal.
  - unfold cell_value, cell_jac, point_terms. cbn [diag_terms diag_flags do_alpha_volume do_alpha_post do_lambda_volume do_lambda_post alpha_volume alpha_post lambda_volume lambda_post diag_jterms j_volume j_post opt mopt].
    rewrite !scatter_zero, mscatter_zero. unfold vzero. destruct (do_alpha_volume L); cbn [opt mopt].
    + rewrite D. ring.
    + rewrite scatter_zero, mscatter_zero. unfold vzero. ring.
  - apply lsum_ext. intros (i, f) _. unfold face_value, face_jac, point_terms.
    cbn [diag_terms diag_flags do_two_sided do_alpha_skeleton do_alpha_boundary do_lambda_skeleton do_lambda_boundary alpha_skeleton alpha_boundary lambda_skeleton lambda_boundary diag_jterms j_skeleton j_boundary opt opt2 fst snd].
    rewrite orb_true_r. cbn [andb]. rewrite !mscatter_zero.
    assert (S : scatter (lfsv G (cid c)) (fst (opt2 (do_alpha_skeleton L) (fun k => fst (fst (j_skeleton J c f i t (gather 0 x (lfsu G (cid c))) (gather 0 x (lfsu G (outside f))))) k k, vzero))) g +
                scatter (lfsv G (outside f)) (snd (opt2 (do_alpha_skeleton L) (fun k => fst (fst (j_skeleton J c f i t (gather 0 x (lfsu G (cid c))) (gather 0 x (lfsu G (outside f))))) k k, vzero))) g +
                (scatter (lfsv G (cid c)) vzero g + scatter (lfsv G (outside f)) vzero g) =
                if do_alpha_skeleton L then mscatter (lfsv G (cid c)) (lfsu G (cid c)) (fst (fst (j_skeleton J c f i t (gather 0 x (lfsu G (cid c))) (gather 0 x (lfsu G (outside f)))))) g g + 0 + 0 + 0 else 0).
    { rewrite !scatter_zero. destruct (do_alpha_skeleton L); cbn [opt2 fst snd]; rewrite ?scatter_zero; unfold vzero; rewrite ?D; ring. }
    destruct (classify e f); try reflexivity; try exact S.
    rewrite scatter_zero. unfold vzero. destruct (do_alpha_boundary L); cbn [opt mopt].
    + rewrite D. ring.
    + rewrite scatter_zero, mscatter_zero. unfold vzero. ring.
Qed.
