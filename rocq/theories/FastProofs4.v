(** Proofs about the fast DG operator: the container index it assumes. *)
From Verif Require Import Common CommonFacts OrderingModel OrderingSpec OrderingProofs OrderingProofs2 OrderingProofs4.

Lemma number_children_nth {T} (f : T -> list (list nat)) cs : forall j k q, nth_error (number_children f j cs) k = Some q ->
  exists c t p k', nth_error cs c = Some t /\ nth_error (f t) k' = Some p /\ q = (j + c) :: p /\
    k = pre (map (fun t => length (f t)) cs) c + k'.
Proof.
  induction cs as [|t cs IH]; intros j k q E; cbn [number_children] in E; [destruct k; discriminate|].
  destruct (Nat.lt_ge_cases k (length (f t))) as [L|L].
  - rewrite nth_error_app1 in E by now rewrite map_length. rewrite nth_error_map in E.
    destruct (nth_error (f t) k) as [p|] eqn:P; [|discriminate]. injection E as <-.
    exists 0, t, p, k. rewrite Nat.add_0_r. auto.
  - rewrite nth_error_app2 in E by now rewrite map_length. rewrite map_length in E.
    destruct (IH (S j) _ q E) as (c & t' & p & k' & H1 & H2 & -> & H4).
    exists (S c), t', p, k'. repeat split; auto; [f_equal; lia|]. cbn [map]. unfold pre in *. cbn [firstn]. rewrite sum_nat_cons. lia.
Qed.
Lemma number_children_length {T} (f : T -> list (list nat)) cs : forall j, length (number_children f j cs) = sum_nat (map (fun t => length (f t)) cs).
Proof. induction cs as [|t cs IH]; intros j; auto. cbn [number_children map]. rewrite app_length, map_length, IH, sum_nat_cons. reflexivity. Qed.

Lemma local_order ents t : local_ok ents t -> forall gt e, gt < length ents -> e < nth gt ents 0 ->
  length (lentity_dofs t (gt, e)) = lsize ents t gt e /\
  forall k p, nth_error (lentity_dofs t (gt, e)) k = Some p -> map_local ents t (gt, e) p = Ok [k].
Proof.
  induction t as [s|b cs IH] using ltree_ind'; intros Hok gt e Hg He; inversion Hok as [s' Hs|cs' Hne Hcs]; subst.
  - cbn [lentity_dofs lsize map_local]. rewrite map_length, seq_length, (dofs_on_in_grid ents) by auto. split; auto.
    intros k p E. rewrite nth_error_map in E. destruct (nth_error _ k) as [i|] eqn:N; [|discriminate]. injection E as <-.
    assert (L : k < leaf_ent_size s gt e).
    { apply (nth_error_nth _ _ 0) in N as N'. pose proof (nth_error_Some (seq 0 (leaf_ent_size s gt e)) k) as Q. rewrite N, seq_length in Q. now apply Q. }
    apply (nth_error_nth _ _ 0) in N. rewrite seq_nth in N by assumption. now rewrite <- N.
  - cbn [lentity_dofs].
    assert (LEN : map (fun t => length (lentity_dofs t (gt, e))) cs = csizes ents cs gt e).
    { unfold csizes. apply map_ext_in. intros t Ht. rewrite Forall_forall in IH, Hcs. apply (IH t Ht (Hcs t Ht) gt e Hg He). }
    split.
    + rewrite number_children_length, LEN. symmetry. now apply lsize_node.
    + intros k q E. apply number_children_nth in E as (c & t & p & k' & E1 & E2 & -> & ->). rewrite LEN. cbn [Nat.add].
      pose proof (Forall_nth_error _ _ _ _ IH E1) as IHt. cbn in IHt. pose proof (Forall_nth_error _ _ _ _ Hcs E1) as Hokt.
      destruct (IHt Hokt gt e Hg He) as (A & B). pose proof (B k' p E2) as M.
      assert (Hk : k' < lsize ents t gt e) by (rewrite <- A; apply nth_error_Some; congruence).
      cbn [map_local]. erewrite at_map by eassumption. cbn [bind]. rewrite M. cbn [bind fst snd].
      erewrite local_offset_ok by eassumption. cbn. f_equal. f_equal. lia.
Qed.

(** [o] is a container-blocked ordering with the same number of DOFs on every cell. *)
Definition cell_blocks (o : ord) : Prop :=
  match o with
  | OLeaf true _ => True
  | OGV true _ t => lfixed t = true
  | _ => False
  end.

Lemma pre_zero w g : (forall i, i < g -> nth i w 0 = 0) -> pre w g = 0.
Proof. induction g as [|g IH]; intros H; [reflexivity|]. rewrite pre_S, IH by (intros; apply H; lia). now rewrite H by lia. Qed.

Lemma block_index o gt e k p : cell_blocks o -> well_formed o -> (forall gt' e', gt' <> gt -> entity_dofs o (gt', e') = []) ->
  nth_error (entity_dofs o (gt, e)) k = Some p -> mapIndex o (gt, e) p = Ok [e; k].
Proof.
  intros CB W Only E. destruct o as [b s|b ents t| | | |]; try contradiction; destruct b; try contradiction; cbn [entity_dofs mapIndex] in *.
  - apply wf_leaf_inv in W; auto. destruct s as [gts|]; [|contradiction].
    rewrite nth_error_map in E. destruct (nth_error _ k) as [i|] eqn:N; [|discriminate]. injection E as <-.
    assert (L : k < dofs_on (FixedSizes gts) (gt, e)).
    { pose proof (nth_error_Some (seq 0 (dofs_on (FixedSizes gts) (gt, e))) k) as Q. rewrite N, seq_length in Q. now apply Q. }
    apply (nth_error_nth _ _ 0) in N. rewrite seq_nth in N by assumption. cbn in N. subst i.
    apply dofs_on_fixed in L as (n & d & E & Hn & Hd). rewrite (leaf_fixed_map true gts gt e k n d) by assumption.
    rewrite pre_zero; [reflexivity|]. intros g' Hg'. destruct (nth_error gts g') as [(n', d')|] eqn:E'.
    + rewrite (gt_width true gts g' n' d' E'). destruct n' as [|n']; [lia|].
      assert (Z : entity_dofs (OLeaf true (FixedSizes gts)) (g', 0) = []) by (apply Only; lia). cbn [entity_dofs] in Z.
      destruct d' as [|d']; auto. unfold dofs_on in Z. cbn [fst snd] in Z. rewrite E' in Z. cbn in Z. discriminate.
    + apply nth_error_None in E'. apply nth_overflow. unfold gt_widths. now rewrite map_length.
  - apply wf_gv_inv in W as [OK _]. cbn [cell_blocks] in CB.
    assert (LD : ldof t (gt, e) p) by (apply in_lentity_dofs; eapply nth_error_In; eassumption).
    apply ldof_disable in LD. destruct (ldof_grid _ _ _ _ OK LD) as [Hg He]. cbn [fst snd] in Hg, He.
    destruct (local_order ents _ OK gt e Hg He) as (A & B). rewrite lentity_dofs_disable in A, B. specialize (B k p E).
    assert (Hk : k < lsize ents (disable_blocking t) gt e) by (rewrite <- A; apply nth_error_Some; congruence).
    rewrite (gv_map_ok true ents t gt e p k) by assumption. rewrite CB, pre_zero; [reflexivity|].
    intros g' Hg'. rewrite gvw_nth by lia. destruct (nth g' ents 0) as [|n'] eqn:N; [lia|].
    destruct (local_order ents _ OK g' 0) as (A' & _); [lia|lia|]. rewrite lentity_dofs_disable in A'.
    assert (Z : lentity_dofs t (g', 0) = []) by (apply (Only g' 0); lia). rewrite Z in A'. cbn [length] in A'. rewrite <- A'. reflexivity.
Qed.
