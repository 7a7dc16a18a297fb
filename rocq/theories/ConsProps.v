(** Properties C23-C27, C46, C49: constraints. *)
From Coq Require Import Lra Permutation.
From Verif Require Import ConsModel ConsSpec EngineSpec EngineProofs EngineProofs3 ConsProofs ConsProofs2 ConsProofs3 ConsProofs4.
Local Open Scope R_scope.

(** * C23 *)
(** After any history: which DOFs are constrained, which are Dirichlet, and the weights of all others. *)
Theorem c23_merge os g :
  let cs := contributions os in
  (find g (entries (after_history os)) = None <-> rows_for g cs = []) /\
  (find g (entries (after_history os)) = Some [] <-> In [] (rows_for g cs)) /\
  (forall r, find g (entries (after_history os)) = Some r -> r <> [] -> merge_of (rows_for g cs) r).
Proof.
  pose proof (history_merged os) as M. split; [apply (mg_none _ _ M)|]. split; [apply (mg_dirichlet _ _ M)|apply (mg_row _ _ M)].
Qed.
(** The container is a map of maps. *)
Theorem c23_proper os : proper (entries (after_history os)).
Proof. exact (mg_proper _ _ (history_merged os)). Qed.
(** The flag is set whenever needed, and never without a non-Dirichlet contribution since the last clear. *)
Theorem c23_flag os :
  ((exists g r, find g (entries (after_history os)) = Some r /\ r <> []) -> nd (after_history os) = true) /\
  (nd (after_history os) = true -> exists g r, In (g, r) (contributions os) /\ r <> []).
Proof. exact (conj (mg_flag _ _ (history_merged os)) (mg_source _ _ (history_merged os))). Qed.
(** The flag of a local transformation is exact, and says whether importing it sets the global flag. *)
Theorem c23_local_flag ci (l : container) :
  (local_non_dirichlet l = true <-> exists g r, In (g, r) l /\ r <> []) /\
  (local_non_dirichlet l = false -> forall t, nd (import ci l t) = nd t).
Proof.
  unfold local_non_dirichlet. split.
  - rewrite existsb_exists. split.
    + intros ([g r] & I & E). exists g, r. split; [exact I|]. cbn in E. destruct r; discriminate.
    + intros (g & r & I & N). exists (g, r). split; [exact I|]. destruct r; [congruence|reflexivity].
  - unfold import. induction l as [|[g r] l IH]; cbn [existsb fold_left]; [reflexivity|].
    intros E t. apply orb_false_iff in E. destruct E as [E1 E2]. rewrite (IH E2). cbn [snd] in E1.
    destruct r; [|discriminate]. unfold import_entry. cbn [fst snd]. destruct (find (ci g) (entries t)) as [[|]|]; reflexivity.
Qed.
Print Assumptions c23_local_flag.
Example c23_local_flag_meets : local_non_dirichlet [(3%nat, []); (1%nat, [(2%nat, 1)])] = true /\ local_non_dirichlet [(3%nat, [])] = false.
Proof. split; reflexivity. Qed.
Theorem c23_clear os : after_history (os ++ [Clear]) = mktr [] false.
Proof. unfold after_history. rewrite fold_left_app. reflexivity. Qed.
(** Visiting the elements in another order gives the same constraints. *)
Theorem c23_order os os' : Permutation (contributions os) (contributions os') -> agree (contributions os) ->
  forall g, match find g (entries (after_history os)), find g (entries (after_history os')) with
            | None, None => True
            | Some r, Some r' => (r = [] <-> r' = []) /\ forall c, find c r = find c r'
            | _, _ => False
            end.
Proof. exact (merge_order _ _ _ _ (history_merged os) (history_merged os')). Qed.
(** The flag is not exact: a Dirichlet contribution after a hanging one leaves it set. *)
Theorem c23_flag_exact_refuted : exists os, nd (after_history os) = true /\
  forall g r, find g (entries (after_history os)) = Some r -> r = [].
Proof.
  exists [Import (fun i => i) [(0%nat, [(1%nat, 1)])]; Import (fun i => i) [(0%nat, [])]]. split; [reflexivity|].
  intros [|g] r; cbn; [congruence|discriminate].
Qed.
(** Two elements share a hanging DOF 5 (constrained by 1 and 2), the second one also has a Dirichlet DOF 7. *)
Definition hanging : list op :=
  [Import (fun i => (i + 1)%nat) [(4%nat, [(0%nat, 1/2); (1%nat, 1/2)])];
   Import (fun i => i) [(5%nat, [(2%nat, 1/2); (1%nat, 1/2)]); (7%nat, [])]].
Example c23_meets : agree (contributions hanging) /\
  Permutation (contributions hanging) (contributions (rev hanging)) /\
  find 5 (entries (after_history hanging)) = Some [(1%nat, 1/2); (2%nat, 1/2)] /\
  find 7 (entries (after_history hanging)) = Some [] /\ nd (after_history hanging) = true.
Proof.
  split; [|split; [|split; [|split]]]; try reflexivity.
  - intros g c w w'. change (contributions hanging) with
      [(5%nat, [(1%nat, 1/2); (2%nat, 1/2)]); (5%nat, [(2%nat, 1/2); (1%nat, 1/2)]); (7%nat, @nil (nat * R))].
    unfold rows_for. cbn [filter fst]. destruct (5 =? g)%nat, (7 =? g)%nat; cbn; intros H H';
      repeat match goal with K : _ \/ _ |- _ => destruct K end; try contradiction;
      repeat match goal with K : (_, _) = (_, _) |- _ => injection K as K end; congruence.
  - exact (Permutation_app_comm [(5%nat, [(1%nat, 1/2); (2%nat, 1/2)])] [(5%nat, [(2%nat, 1/2); (1%nat, 1/2)]); (7%nat, [])]).
Qed.

(** * C24 *)
Section C24.
  Context {X : Type}.
  Theorem c24_set_constrained (cg : container) (x : X) xg g :
    (constrained cg g -> set_constrained cg x xg g = x) /\ (~ constrained cg g -> set_constrained cg x xg g = xg g).
  Proof. exact (copy_spec cg (fun _ => x) xg g). Qed.
  Theorem c24_copy_constrained (cg : container) (xin xout : nat -> X) g :
    (constrained cg g -> copy_constrained cg xin xout g = xin g) /\ (~ constrained cg g -> copy_constrained cg xin xout g = xout g).
  Proof. exact (copy_spec cg xin xout g). Qed.
  Theorem c24_set_nonconstrained (cg : container) (x : X) xg g :
    (constrained cg g -> set_nonconstrained cg x xg g = xg g) /\ (~ constrained cg g -> set_nonconstrained cg x xg g = x).
  Proof. exact (copy_spec cg xg (fun _ => x) g). Qed.
  Theorem c24_copy_nonconstrained (cg : container) (xin xout : nat -> X) g :
    (constrained cg g -> copy_nonconstrained cg xin xout g = xout g) /\
    (~ constrained cg g -> copy_nonconstrained cg xin xout g = xin g).
  Proof. exact (copy_spec cg xout xin g). Qed.
  (** Copying both parts reassembles the source. *)
  Theorem c24_reassemble (cg : container) (xin xout : nat -> X) g :
    copy_nonconstrained cg xin (copy_constrained cg xin xout) g = xin g.
  Proof.
    destruct (copy_spec cg (copy_constrained cg xin xout) xin g) as (A & B). destruct (in_dec Nat.eq_dec g (keys cg)) as [I|I].
    - unfold copy_nonconstrained. rewrite A by exact I. apply (proj1 (copy_spec cg xin xout g)), I.
    - apply B, I.
  Qed.
  (** Shifted DOFs: the non-Dirichlet entries get the value. *)
  Theorem c24_set_shifted (cg : container) (x : X) xg g :
    (dirichlet cg g -> set_shifted cg x xg g = xg g) /\ (~ dirichlet cg g -> set_shifted cg x xg g = x).
  Proof. exact (shifted_spec cg x xg g). Qed.
  Theorem c24_check ne (cg : container) (x : X) xg :
    check_constrained ne cg x xg = true <-> forall g, constrained cg g -> ne (xg g) x = false.
  Proof. exact (check_spec ne cg x xg). Qed.
End C24.
(** Finding: for EmptyTransformation set_shifted_dofs leaves all entries, for a container without entries it sets all. *)
Theorem c24_shifted_empty_refuted : exists (x : nat) xg g, set_shifted [] x xg g <> set_shifted_empty x xg g.
Proof. exists 1%nat, (fun _ => 0%nat), 0%nat. cbn. discriminate. Qed.
Example c24_meets : let cg := entries (after_history hanging) in
  constrained cg 5 /\ dirichlet cg 7 /\ ~ constrained cg 6 /\ ~ dirichlet cg 5.
Proof.
  cbn. unfold constrained, dirichlet. cbn. split; [auto|]. split; [auto|]. split; [intros [|[|[]]]; discriminate|].
  intros [H|[H|[]]]; discriminate.
Qed.

(** * C25 *)
Theorem c25_formula cg x g :
  (constrained cg g -> constrain_residual cg x g = 0) /\
  (flat cg -> ~ constrained cg g -> constrain_residual cg x g = x g + received cg x g).
Proof. exact (conj (constrain_zero cg x g) (constrain_free cg x g)). Qed.
Theorem c25_order cg cg' x g : flat cg -> Permutation cg cg' -> constrain_residual cg' x g = constrain_residual cg x g.
Proof. exact (constrain_perm cg cg' x g). Qed.
Theorem c25_linear cg a b x y g :
  constrain_residual cg (fun k => a * x k + b * y k) g = a * constrain_residual cg x g + b * constrain_residual cg y g.
Proof. exact (constrain_linear cg a b x y g). Qed.
Theorem c25_idempotent cg x g : constrain_residual cg (constrain_residual cg x) g = constrain_residual cg x g.
Proof. exact (constrain_idempotent cg x g). Qed.
Theorem c25_adjoint N cg x u : proper cg -> flat cg -> below N cg -> no_boundary_part cg u ->
  dot N (constrain_residual cg x) u = dot N x (extend cg u).
Proof. exact (adjoint N cg x u). Qed.
(** Chained constraints: the result depends on the order in which the container is traversed. *)
Definition chain : container := [(0%nat, [(1%nat, 1)]); (1%nat, [(2%nat, 1)])].
Theorem c25_chained_refuted : exists cg cg' x g, proper cg /\ Permutation cg cg' /\
  constrain_residual cg x g <> constrain_residual cg' x g.
Proof.
  exists chain, (rev chain), (fun g => if (g =? 0)%nat then 1 else 0), 2%nat. split; [|split].
  - split; [repeat constructor; cbn; intuition discriminate|].
    intros g r [E|[E|[]]]; injection E as <- <-; repeat constructor; cbn; auto.
  - apply Permutation_rev.
  - unfold constrain_residual, chain, rev, set_constrained, spread, setv. cbn. lra.
Qed.
Example c25_meets : let cg := entries (after_history hanging) in
  proper cg /\ flat cg /\ below 8 cg /\ constrain_residual cg (fun _ => 1) 1%nat = 3/2.
Proof.
  cbn zeta. split; [apply c23_proper|]. split; [|split].
  - intros g r c w r'. cbn. intros [E|[E|[]]]; injection E as <- <-; cbn; [|contradiction].
    intros [E|[E|[]]]; injection E as <- <-; cbn; intros [J|[J|[]]]; congruence.
  - intros g r. cbn. intros [E|[E|[]]]; injection E as <- <-; (split; [lia|]); cbn; [|contradiction].
    intros c w [E|[E|[]]]; injection E as <- <-; lia.
  - unfold constrain_residual, set_constrained, spread, setv. cbn. lra.
Qed.

(** * C26 *)
Theorem c26_adjoint N cg restrict x y : proper cg -> flat cg -> below N cg -> (restrict = true -> no_boundary_part cg y) ->
  dot N (forward restrict cg x) y = dot N x (backward restrict cg y).
Proof. exact (transform_adjoint N cg restrict x y). Qed.
(** Back transformation computes the constrained values. *)
Theorem c26_backward cg u g : proper cg -> flat cg -> no_boundary_part cg u -> backward true cg u g = extend cg u g.
Proof. intros (ND & _) F. exact (backward_extend cg u g F ND). Qed.
(** Without the restriction, values of Dirichlet DOFs are kept and used by the DOFs they contribute to. *)
Theorem c26_backward_values cg u g : proper cg -> flat cg ->
  backward false cg u g = match find g cg with None => u g | Some r => u g + lsum (fun e => snd e * u (fst e)) r end.
Proof. intros (ND & _) F. apply (pull_all _ false cg (flat_split _ F) ND). discriminate. Qed.
(** Finding: with the restriction, a Dirichlet contributor is read before or after it is set to zero, depending on the order
    of the container. *)
Definition boundary_contributor : container := [(0%nat, [(1%nat, 1)]); (1%nat, [])].
Theorem c26_restricted_order_refuted : exists cg cg' x g, proper cg /\ flat cg /\ Permutation cg cg' /\
  backward true cg x g <> backward true cg' x g.
Proof.
  exists boundary_contributor, (rev boundary_contributor), (fun _ => 1), 0%nat. split; [|split; [|split]].
  - split; [repeat constructor; cbn; intuition discriminate|].
    intros g r [E|[E|[]]]; injection E as <- <-; repeat constructor; cbn; auto.
  - intros g r c w r' [E|[E|[]]]; injection E as <- <-; [|intros []]. intros [J|[]]; injection J as <- <-.
    intros [K|[K|[]]]; congruence.
  - apply Permutation_rev.
  - unfold backward, boundary_contributor, rev, spread, setv. cbn. lra.
Qed.
Example c26_backward_meets : proper boundary_contributor /\ flat boundary_contributor /\
  backward false boundary_contributor (fun g => if (g =? 1)%nat then 5 else 0) 0%nat = 5.
Proof.
  split; [|split].
  - split; [repeat constructor; cbn; intuition discriminate|].
    intros g r [E|[E|[]]]; injection E as <- <-; repeat constructor; cbn; auto.
  - intros g r c w r' [E|[E|[]]]; injection E as <- <-; [|intros []]. intros [J|[]]; injection J as <- <-.
    intros [K|[K|[]]]; congruence.
  - unfold backward, boundary_contributor, spread, setv. cbn. lra.
Qed.
(** Scattering one element matrix adds T_V^T A T_U. *)
Theorem c26_element cu cv sym gv gu V U m A g h : cache_for cv true gv V -> cache_for cu true gu U ->
  add_all (scatter_jacobian cu V U sym m) A g h = A g h + galerkin sym cv cu gv gu m g h.
Proof. intros CV CU. rewrite add_all_sum, (scatter_enabled cu cv sym gv gu) by assumption. reflexivity. Qed.
(** The assembled matrix, for all constraint histories and with the caching mode chosen by the engines. *)
Theorem c26_assembled osu osv sym els cs A g h :
  let tu := after_history osu in let tv := after_history osv in
  caches_of (entries tu) (entries tv) (needs_caching tu tv) els cs ->
  assemble_constrained (entries tu) (entries tv) sym cs A g h =
  if in_dec Nat.eq_dec g (keys (entries tv)) then delta g h
  else A g h + lsum (fun e => galerkin sym (entries tv) (entries tu) (vs e) (us e) (em e) g h) els.
Proof.
  cbn zeta. intros C. apply assembled with (1 := C). unfold needs_caching. intros E. apply Bool.orb_false_iff in E.
  split; eapply merged_only_dirichlet; try apply history_merged; apply E.
Qed.
(** Chained constraints: the transformations are not adjoint. *)
Theorem c26_chained_refuted : exists N cg x y, proper cg /\ below N cg /\
  dot N (forward true cg x) y <> dot N x (backward true cg y).
Proof.
  exists 3%nat, (rev chain), (fun g => if (g =? 0)%nat then 1 else 0), (fun g => if (g =? 2)%nat then 1 else 0). split; [|split].
  - split; [repeat constructor; cbn; intuition discriminate|].
    intros g r [E|[E|[]]]; injection E as <- <-; repeat constructor; cbn; auto.
  - intros g r [E|[E|[]]]; injection E as <- <-; (split; [lia|]); intros c w [E|[]]; injection E as <- <-; lia.
  - unfold dot, forward, backward, chain, rev, set_constrained, spread, setv. cbn. lra.
Qed.
(** One element with a hanging DOF in both spaces. *)
Definition hang_container : container := entries (after_history hanging).
Definition hang_cache : cache := update hang_container [1; 5; 7]%nat (update hang_container [5; 5]%nat (new_cache true)).
Definition hang_element : element := mkel [1; 5; 7]%nat [1; 5; 7]%nat (fun _ _ => 1).
Lemma hang_cache_for : cache_for hang_container true [1; 5; 7]%nat hang_cache.
Proof. exists [[5; 5]%nat]. reflexivity. Qed.
Example c26_meets :
  let t := after_history hanging in
  caches_of (entries t) (entries t) (needs_caching t t) [hang_element] [(hang_cache, hang_cache, fun _ _ => 1)] /\
  assemble_constrained (entries t) (entries t) false [(hang_cache, hang_cache, fun _ _ => 1)] mzero 1%nat 1%nat = 9/4 /\
  assemble_constrained (entries t) (entries t) false [(hang_cache, hang_cache, fun _ _ => 1)] mzero 1%nat 7%nat = 3/2 /\
  assemble_constrained (entries t) (entries t) true [(hang_cache, hang_cache, fun _ _ => 1)] mzero 1%nat 7%nat = 0.
Proof.
  assert (C : caches_of (entries (after_history hanging)) (entries (after_history hanging))
                (needs_caching (after_history hanging) (after_history hanging)) [hang_element] [(hang_cache, hang_cache, fun _ _ => 1)]).
  { constructor; [|constructor]. split; [exact hang_cache_for|]. split; [exact hang_cache_for|reflexivity]. }
  cbn zeta. split; [exact C|].
  rewrite !(c26_assembled hanging hanging _ [hang_element]) by exact C.
  destruct (in_dec _ _ _) as [I|_]; [exfalso; cbn in I; intuition discriminate|].
  unfold galerkin, test_basis, trial_basis, weight, delta, mzero. cbn. repeat split; lra.
Qed.

(** * C27 *)
(** Every entry written for an element is in the pattern of the element, both with and without constraint caching. *)
Theorem c27_in_pattern cu cv en sym same gv gu V U m p g h x :
  cache_for cv en gv V -> cache_for cu en gu U -> supported p V U m ->
  In (g, h, x) (scatter_jacobian cu V U sym m) -> In (g, h) (add_pattern same V U p).
Proof. exact (scatter_in_pattern cu cv en sym same gv gu V U m p g h x). Qed.
(** The diagonal entries needed for the rows of constrained DOFs. *)
Theorem c27_diagonal V U p i j : In (i, j) p -> ci V i = ci U j -> In (ci V i, ci V i) (add_pattern true V U p).
Proof. exact (diagonal_in_pattern V U p i j). Qed.
(** Finding: if only one of the spaces caches constraints (the other has no constraints at all), hanging rows are written
    to entries that are not in the pattern. *)
Theorem c27_mixed_caching_refuted : exists cu cv gv gu V U m p g h x,
  cache_for cv true gv V /\ cache_for cu false gu U /\ cu = [] /\ supported p V U m /\
  In (g, h, x) (scatter_jacobian cu V U false m) /\ ~ In (g, h) (add_pattern false V U p).
Proof.
  exists [], [(0%nat, [(1%nat, 1)])], [0%nat], [5%nat], (update [(0%nat, [(1%nat, 1)])] [0%nat] (new_cache true)),
    (update [] [5%nat] (new_cache false)), (fun _ _ => 1), [(0, 0)]%nat, 0%nat, 5%nat, 1.
  split; [exists []; reflexivity|]. split; [exists []; reflexivity|]. split; [reflexivity|]. split; [|split].
  - intros i j I J _. cbn in I, J. left. f_equal; lia.
  - unfold scatter_jacobian, plain, nonzero. cbn. destruct (Req_EM_T 1 0); [lra|]. left. reflexivity.
  - cbn. intros [H|[]]. discriminate.
Qed.
Example c27_meets : supported (all_pairs 3 3) hang_cache hang_cache (fun _ _ => 1) /\
  exists x, In (2%nat, 7%nat, x) (scatter_jacobian hang_container hang_cache hang_cache false (fun _ _ => 1)).
Proof.
  split; [intros i j I J _; apply in_pairs; cbn in I, J; lia|]. exists (1 * (1/2)).
  unfold scatter_jacobian, etadd. cbn [hang_cache enabled update new_cache andb].
  apply in_flat_map. exists (1, 2)%nat. split; [apply in_pairs; cbn; lia|]. cbn [fst snd]. unfold etadd_one.
  destruct (Req_EM_T 1 0); [lra|]. cbn. unfold nonzero. destruct (Req_EM_T (1 * (1/2)) 0); [lra|]. cbn. auto.
Qed.

(** * C46 *)
Theorem c46_exact cg gs c n : cache_for cg true gs c -> (n < length gs)%nat ->
  match find (nth n gs O) cg with
  | None => is_constrained c n = false
  | Some r => is_constrained c n = true /\ (is_dirichlet c n = true <-> r = []) /\ constraints_of c n = r
  end.
Proof. exact (cache_on cg gs c n). Qed.
Theorem c46_disabled cg gs c n : cache_for cg false gs c -> is_constrained c n = false /\ is_dirichlet c n = false.
Proof. exact (cache_off cg gs c n). Qed.
Example c46_meets : cache_for hang_container true [1; 5; 7]%nat hang_cache /\
  is_constrained hang_cache 1 = true /\ constraints_of hang_cache 1 = [(1%nat, 1/2); (2%nat, 1/2)] /\ is_dirichlet hang_cache 2 = true.
Proof. split; [exact hang_cache_for|]. repeat split. Qed.

(** * C49 *)
(** The constrained matrix represents the constrained operator. *)
Theorem c49_product osu osv N els cs z g :
  let tu := after_history osu in let tv := after_history osv in
  caches_of (entries tu) (entries tv) (needs_caching tu tv) els cs ->
  flat (entries tv) -> below N (entries tu) -> (forall e h, In e els -> In h (us e) -> (h < N)%nat) ->
  ~ constrained (entries tv) g ->
  mv N (assemble_constrained (entries tu) (entries tv) false cs mzero) z g =
  constrain_residual (entries tv) (apply_elements els (full (entries tu) z)) g.
Proof.
  cbn zeta. intros C F B L Fr. apply (constrained_product N _ _ _ els cs z g C); try assumption; [|apply c23_proper].
  unfold needs_caching. intros E. apply Bool.orb_false_iff in E.
  split; eapply merged_only_dirichlet; try apply history_merged; apply E.
Qed.
Theorem c49_constrained_rows N cu cv sym cs A z g : constrained cv g -> (g < N)%nat ->
  mv N (assemble_constrained cu cv sym cs A) z g = z g.
Proof. exact (constrained_row_product N cu cv sym cs A z g). Qed.
Example c49_meets : let t := after_history hanging in flat (entries t) /\ below 8 (entries t) /\
  (forall e h, In e [hang_element] -> In h (us e) -> (h < 8)%nat) /\ ~ constrained (entries t) 1 /\
  constrain_residual (entries t) (apply_elements [hang_element] (full (entries t) (fun _ => 1))) 1%nat = 9/2.
Proof.
  cbn zeta. destruct c25_meets as (_ & F & B & _). split; [exact F|]. split; [exact B|]. split; [|split].
  - intros e h [<-|[]]. cbn. intros [|[|[|[]]]]; lia.
  - unfold constrained. cbn. intuition discriminate.
  - rewrite constrain_free; [|exact F|unfold constrained; cbn; intuition discriminate].
    unfold received, apply_elements, weight, scatter, mv, gather, full, vzero. cbn. unfold vzero. lra.
Qed.

Print Assumptions c23_merge.
Print Assumptions c23_proper.
Print Assumptions c23_flag.
Print Assumptions c23_clear.
Print Assumptions c23_order.
Print Assumptions c23_flag_exact_refuted.
Print Assumptions c24_set_constrained.
Print Assumptions c24_copy_constrained.
Print Assumptions c24_set_nonconstrained.
Print Assumptions c24_copy_nonconstrained.
Print Assumptions c24_reassemble.
Print Assumptions c24_set_shifted.
Print Assumptions c24_check.
Print Assumptions c24_shifted_empty_refuted.
Print Assumptions c25_formula.
Print Assumptions c25_order.
Print Assumptions c25_linear.
Print Assumptions c25_idempotent.
Print Assumptions c25_adjoint.
Print Assumptions c25_chained_refuted.
Print Assumptions c26_adjoint.
Print Assumptions c26_backward.
Print Assumptions c26_backward_values.
Print Assumptions c26_restricted_order_refuted.
Print Assumptions c26_element.
Print Assumptions c26_assembled.
Print Assumptions c26_chained_refuted.
Print Assumptions c27_in_pattern.
Print Assumptions c27_diagonal.
Print Assumptions c27_mixed_caching_refuted.
Print Assumptions c46_exact.
Print Assumptions c46_disabled.
Print Assumptions c49_product.
Print Assumptions c49_constrained_rows.
