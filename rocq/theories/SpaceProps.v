(** C143-C146: the life of grid function spaces. *)
From Verif Require Import Common CommonFacts SpaceModel SpaceSpec SpaceProofs SpaceProofs2 SpaceProofs3.

(** ** C143: after an update the sizes are those of the spaces on the current grid *)

(** Whatever the program did before (entity sets shared or not, changed, reset; spaces built, updated,
    nested; the grid changed), a call update(true) that returns leaves the space and its descendants with
    the sizes of the current grid. *)
Theorem c143_update_forced dim g ops k w' :
  copies_early ops ->
  step dim (run dim ops (start g)) (Update k true) = (w', Done) ->
  up_to_date dim w' k.
Proof.
  intros H. destruct (history dim g ops H) as [I _]. cbn [step]. destruct (Nat.ltb_spec k (w_n (run dim ops (start g)))) as [L|]; [|discriminate].
  apply update_up_to_date; auto.
Qed.
Print Assumptions c143_update_forced.

(** As long as the grid has not changed update() is enough, and so is the first call of ordering(). *)
Theorem c143_grid_unchanged dim g ops k w' :
  copies_early ops -> grid_unchanged ops ->
  (exists f, step dim (run dim ops (start g)) (Update k f) = (w', Done)) \/
  (step dim (run dim ops (start g)) (GetOrdering k) = (w', Done) /\ ordering_size (run dim ops (start g)) k = None) ->
  up_to_date dim w' k.
Proof.
  intros H Hg. destruct (history dim g ops H) as [I _]. destruct (run_good dim g ops Hg) as [Eg G]. set (w := run dim ops (start g)) in *. rewrite <- Eg in G.
  intros [[f E]|[E N]]; cbn [step] in E; destruct (Nat.ltb_spec k (w_n w)) as [L|]; try discriminate.
  - eapply update_up_to_date; eauto.
  - unfold ordering in E. destruct (negb _); [discriminate|]. unfold ordering_size in N. destruct (w_ord w k) as [o|] eqn:Eo; [discriminate|].
    destruct (create (w_tree w k)) as [ot|] eqn:C; [|discriminate].
    eapply (update_ordering_up_to_date dim (add_ord w k ot)); [|exact L|cbn; apply put_same|intros s _; apply G|exact E].
    apply inv_add_ord; assumption.
Qed.
Print Assumptions c143_grid_unchanged.

(** update() returns for every root space whose entity-blocked parts have one entity set each and which
    has no interleaved blocks. *)
Theorem c143_update_returns dim g ops k f :
  copies_early ops -> let w := run dim ops (start g) in
  k < w_n w -> isRootSpace w k = true -> consistent (w_tree w k) -> not_interleaved (w_tree w k) ->
  snd (step dim w (Update k f)) = Done.
Proof.
  intros H w L R C N. destruct (history dim g ops H) as [I _]. fold w in I. cbn [step]. apply Nat.ltb_lt in L as L'. rewrite L'.
  unfold update. set (Ss := snd (fold_left _ _ _)). clearbody Ss. cbn [set_sets w_ord w_nords].
  assert (U : forall w0 o, inv w0 -> w_data w0 = w_data w -> w_tree w0 = w_tree w -> w_n w0 = w_n w -> w_ord w0 k = Some o -> snd (update_ordering dim w0 k o) = Done).
  { intros w0 o I0 E1 E2 E3 Eo. unfold update_ordering. rewrite E1. unfold isRootSpace in R. rewrite R. cbn [negb].
    destruct (iv_ord _ I0 k o) as [_ Cr]; [lia|exact Eo|]. rewrite E2 in Cr.
    pose proof (oupdate_succeeds dim (w_grid w0) (w_tree w k) (w_otree w0 o) (w_sets w0) N Cr) as Q.
    destruct (oupdate dim (w_grid w0) (w_otree w0 o) (w_sets w0)) as [[t S1] ok]. cbn in Q. subst ok. reflexivity. }
  destruct (w_ord w k) as [o|] eqn:Eo.
  - apply U; auto. apply inv_sets, I.
  - destruct (create_consistent (w_tree w k)) as [ot Cr]; [apply run_shaped, L|exact C|]. rewrite Cr.
    apply U; try reflexivity; [|cbn; apply put_same]. apply inv_add_ord; [apply inv_sets, I|exact L|exact Eo|exact Cr].
Qed.
Print Assumptions c143_update_returns.

(** It throws if two leaves below an entity-blocked space were given different entity sets. *)
Theorem c143_update_refuses dim g ops k f :
  copies_early ops -> let w := run dim ops (start g) in
  k < w_n w -> ~ consistent (w_tree w k) ->
  snd (step dim w (Update k f)) = Threw /\ snd (step dim w (GetOrdering k)) = Threw.
Proof.
  intros H w L C. destruct (history dim g ops H) as [I _]. fold w in I. cbn [step]. apply Nat.ltb_lt in L as L'. rewrite L'.
  unfold update, ordering. cbn [set_sets w_ord w_nords].
  assert (Cn : create (w_tree w k) = None) by (destruct (create (w_tree w k)) eqn:E; [exfalso; eapply C, create_inconsistent, E|reflexivity]).
  destruct (w_ord w k) as [o|] eqn:Eo; [exfalso|rewrite Cn; split; [reflexivity|destruct (negb _); reflexivity]].
  destruct (iv_ord _ I k o L Eo) as [_ Q]. congruence.
Qed.
Print Assumptions c143_update_refuses.

(** *** A concrete program *)
(** Cells and vertices of an interval with 2 cells, which is refined to 4 cells. *)
Definition ex_g (c : nat) : nat := match c with 0 => 2 | 1 => 3 | _ => 0 end.
Definition ex_g2 (c : nat) : nat := match c with 0 => 4 | 1 => 5 | _ => 0 end.
Definition p0 : fem := mkfem (fun c => if c =? 0 then 1 else 0) 1.
Definition p1 : fem := mkfem (fun c => if c =? 1 then 1 else 0) 2.
(** Two P1 components, entity-blocked (space 2), and a P0 space (3), in a lexicographic space (4). *)
Definition ex_ops : list op :=
  [NewSet 3 true; NewLeaf 0 p1 false; NewLeaf 0 p1 false; NewNode (EntityBlocked true) 0 [1]; NewLeaf 0 p0 false;
   NewNode (Lexicographic false) 2 [3]; Update 4 false; ChangeGrid ex_g2].

Example c143_example :
  let w := run 1 ex_ops (start ex_g) in
  let '(w', r) := step 1 w (Update 4 true) in
  copies_early ex_ops /\ r = Done /\ consistent (w_tree w 4) /\ not_interleaved (w_tree w 4) /\
  size w 4 = Ok 8 /\ size w' 4 = Ok 14 /\ blockCount w' 4 = Ok 9 /\ size w' 2 = Ok 10 /\ size w' 3 = Ok 4 /\
  size w' 0 = Throw /\ globalSize w' 0 = Ok 14 /\ maxLocalSize w' 4 = Ok 5.
Proof.
  cbn zeta. destruct (step 1 (run 1 ex_ops (start ex_g)) (Update 4 true)) as [w' r] eqn:E.
  vm_compute in E. injection E as <- <-.
  split; [|split; [reflexivity|split; [|split; [|vm_compute; repeat split; reflexivity]]]].
  - intros pre c post Q. exfalso. assert (In (CopySpace c) ex_ops) by (rewrite Q; apply in_or_app; right; left; reflexivity).
    cbn in H. repeat destruct H as [H|H]; try discriminate H; exact H.
  - vm_compute. split; [exists 0; intros x [<-|[<-|[]]]; reflexivity|auto].
  - vm_compute. auto.
Qed.

(** Without the flag the sizes may be those of neither grid: one component is counted on the old grid, the
    other on the new one.  (The flag is documented.) *)
Example c143_force_needed :
  let ops := [NewSet 1 true; NewLeaf 0 p0 false; NewLeaf 0 p1 false; NewNode (Lexicographic false) 0 [1]; ChangeGrid ex_g2] in
  let w := run 1 ops (start ex_g) in
  let '(w', r) := step 1 w (Update 2 false) in
  r = Done /\ size w' 2 = Ok 7 /\ dimension 1 ex_g (w_tree w' 2) = 5 /\ dimension 1 ex_g2 (w_tree w' 2) = 9.
Proof. vm_compute. repeat split; reflexivity. Qed.

(** ** C144: a space that is part of a larger space cannot be used as a root *)

(** Once a space is a child it stays one and refuses update() and ordering(), whatever happens later. *)
Theorem c144_child_refuses dim g ops ops2 k f :
  k < w_n (run dim ops (start g)) -> isRootSpace (run dim ops (start g)) k = false ->
  let w := run dim (ops ++ ops2) (start g) in
  isRootSpace w k = false /\ snd (step dim w (Update k f)) = Threw /\ snd (step dim w (GetOrdering k)) = Threw.
Proof.
  intros L R. cbn zeta. rewrite run_app. set (w := run dim ops (start g)) in *. destruct (run_root dim ops2 w k L) as (L2 & R2 & _).
  specialize (R2 R). split; [exact R2|]. cbn [step]. apply Nat.ltb_lt in L2. rewrite L2. split.
  - apply (update_data dim (run dim ops2 w) k f), R2.
  - apply (ordering_data dim (run dim ops2 w) k), R2.
Qed.
Print Assumptions c144_child_refuses.

(** Building a power or composite space makes its children children and the new space a root; it throws
    exactly if one of them is a root that already reports sizes. *)
Theorem c144_construction dim g ops kd c cs :
  let w := run dim ops (start g) in
  (forall j, In j (c :: cs) -> j < w_n w) ->
  let '(w', r) := step dim w (NewNode kd c cs) in
  (r = Done \/ r = Threw) /\
  (r = Threw <-> exists j, In j (c :: cs) /\ isRootSpace w j = true /\ globalSize w j <> Throw) /\
  (r = Done -> w_n w' = S (w_n w) /\ isRootSpace w' (w_n w) = true /\ globalSize w' (w_n w) = Throw /\
     w_tree w' (w_n w) = SNode (w_n w) kd (map (w_tree w) (c :: cs)) /\ forall j, In j (c :: cs) -> isRootSpace w' j = false).
Proof.
  intros w Hc. cbn [step].
  assert (F : forallb (fun j => j <? w_n w) (c :: cs) = true) by (apply forallb_forall; intros j Hj; apply Nat.ltb_lt, Hc, Hj). rewrite F.
  assert (U : forall cs D D' ok, adopt D cs = (D', ok) -> ok = false -> exists j, In j cs /\ d_root (D j) = true /\ d_init (D j) = true).
  { clear. induction cs as [|c cs IH]; intros D D' ok; cbn; [congruence|]. destruct (d_init (D c) && d_root (D c)) eqn:E.
    - intros _ _. apply andb_true_iff in E as [E1 E2]. exists c. auto.
    - intros A Hok. destruct (IH _ _ _ A Hok) as (j & Hj & J1 & J2). destruct (Nat.eq_dec j c) as [->|Hn].
      + rewrite put_same in J1. discriminate J1.
      + rewrite put_other in J1, J2 by assumption. eauto. }
  set (l := c :: cs) in *. clearbody l. clear c cs. destruct (adopt (w_data w) l) as [D ok] eqn:A.
  destruct (adopt_spec _ _ _ _ A) as (A1 & A2 & A3 & A4). specialize (U _ _ _ _ A).
  assert (Gi : forall j, globalSize w j <> Throw <-> d_init (w_data w j) = true).
  { intros j. unfold globalSize. destruct (d_init (w_data w j)); cbn; split; congruence. }
  destruct ok; cbv zeta.
  - split; [left; reflexivity|]. split.
    + split; [discriminate|]. intros (j & Hj & J1 & J2). apply Gi in J2. exfalso. specialize (A4 j Hj J2 J1). discriminate A4.
    + intros _. unfold isRootSpace, globalSize. cbn [add_space set_data w_n w_tree w_data]. rewrite !put_same. repeat split.
      intros j Hj. rewrite put_other by (specialize (Hc j Hj); lia). apply (A3 eq_refl j Hj).
  - split; [right; reflexivity|]. split; [|discriminate]. split; [intros _|reflexivity].
    destruct (U eq_refl) as (j & Hj & J1 & J2). exists j. split; [exact Hj|]. split; [exact J1|apply Gi, J2].
Qed.
Print Assumptions c144_construction.

(** Nothing else takes the root status away: only a constructor that was given the space. *)
Theorem c144_only_construction dim g ops o k :
  let w := run dim ops (start g) in
  k < w_n w -> isRootSpace w k = true -> isRootSpace (fst (step dim w o)) k = false ->
  exists kd c cs, o = NewNode kd c cs /\ In k (c :: cs).
Proof. intros w L R R'. destruct (step_root dim w o k L) as (_ & _ & S & _). exact (S R R'). Qed.
Print Assumptions c144_only_construction.

(** A root space that reports sizes stays a root and keeps reporting sizes. *)
Theorem c144_initialised_root dim g ops ops2 k :
  let w := run dim ops (start g) in
  k < w_n w -> isRootSpace w k = true -> globalSize w k <> Throw ->
  isRootSpace (run dim (ops ++ ops2) (start g)) k = true /\ globalSize (run dim (ops ++ ops2) (start g)) k <> Throw.
Proof.
  intros w L R G. rewrite run_app. fold w. unfold globalSize in *. destruct (d_init (w_data w k)) eqn:D; [|cbn in G; congruence].
  destruct (run_root dim ops2 w k L) as (_ & _ & R3 & R4). split; [apply R4; assumption|]. rewrite R3 by exact D. discriminate.
Qed.
Print Assumptions c144_initialised_root.

Example c144_example :
  let w := run 1 ex_ops (start ex_g) in
  isRootSpace w 2 = false /\ isRootSpace w 4 = true /\ globalSize w 4 = Ok 8 /\
  snd (step 1 w (NewNode (Lexicographic true) 4 [3])) = Threw /\ snd (step 1 w (NewNode (Lexicographic true) 3 [2])) = Done.
Proof. vm_compute. repeat split; reflexivity. Qed.

(** ** C145: the reported sizes change only when the space itself is updated *)

(** The sizes a root space reports after an update stay as they are until the next update() of that very
    space, whatever the program does with the grid, the entity sets and other spaces. *)
Theorem c145_sizes_stable dim g ops ops2 k :
  let w := run dim ops (start g) in
  let w2 := run dim (ops ++ ops2) (start g) in
  copies_early (ops ++ ops2) -> (forall f, ~ In (Update k f) ops2) ->
  k < w_n w -> isRootSpace w k = true -> globalSize w k <> Throw ->
  size w2 k = size w k /\ blockCount w2 k = blockCount w k /\ globalSize w2 k = globalSize w k /\ maxLocalSize w2 k = maxLocalSize w k.
Proof.
  intros w w2 H Hu L R G. unfold globalSize in G. destruct (d_init (w_data w k)) eqn:D; [|cbn in G; congruence].
  pose proof (run_stable dim g ops ops2 k H Hu L R D) as Q. fold w2 w in Q.
  unfold size, blockCount, globalSize, maxLocalSize. rewrite Q. auto.
Qed.
Print Assumptions c145_sizes_stable.

(** A space reports sizes only after update() or ordering() was called on a space it belongs to. *)
Theorem c145_sizes_need_update dim g ops k :
  no_copies ops -> let w := run dim ops (start g) in
  (forall r, (exists t, In t (members (w_tree w r)) /\ root_id t = k) -> ~ In (GetOrdering r) ops /\ forall f, ~ In (Update r f) ops) ->
  size w k = Throw /\ blockCount w k = Throw /\ globalSize w k = Throw /\ maxLocalSize w k = Throw.
Proof.
  intros H w N. destruct (d_init (w_data w k)) eqn:D.
  - exfalso. destruct (run_initialised dim g ops H k D) as (r & _ & A & T). destruct (N r T) as [N1 N2].
    destruct A as [A|[f A]]; [exact (N1 A)|exact (N2 f A)].
  - unfold size, blockCount, globalSize, maxLocalSize. rewrite D. auto.
Qed.
Print Assumptions c145_sizes_need_update.

Example c145_example :
  let ops2 := [NewSet 3 true; ChangeGrid ex_g2; UpdateSet 0 true; NewLeaf 0 p1 false; NewNode (Lexicographic true) 3 [5]; Update 6 true; GetOrdering 4] in
  let w2 := run 1 (ex_ops ++ ops2) (start ex_g) in
  size w2 4 = Ok 8 /\ size w2 6 = Ok 9 /\ set_size w2 0 0 = Ok 4 /\ size w2 7 = Throw.
Proof. vm_compute. repeat split; reflexivity. Qed.

(** A space that is copied after its first update does not follow its own updates: the copy shares the
    ordering, which reports to the original.  update(true) returns, the copy keeps the sizes of the old
    grid, and the original, which nobody updated, changes. *)
Theorem c145_copy_refuted : exists ops k w',
  let w := run 1 ops (start ex_g) in
  isRootSpace w k = true /\ step 1 w (Update k true) = (w', Done) /\ size w' k <> Ok (dimension 1 (w_grid w') (w_tree w' k)) /\
  exists j, j <> k /\ size w' j <> size w j.
Proof.
  exists [NewSet 3 true; NewLeaf 0 p1 false; Update 0 false; CopySpace 0; ChangeGrid ex_g2], 1. eexists. cbv zeta.
  split; [reflexivity|]. split; [vm_compute; reflexivity|]. split; [vm_compute; discriminate|]. exists 0. split; [discriminate|vm_compute; discriminate].
Qed.
Print Assumptions c145_copy_refuted.

(** The sizes of a child that belongs to two spaces are those of the one updated last: updating one root
    changes what the child says about the other one. *)
Theorem c145_shared_child_refuted : exists ops a b c w',
  let w := run 1 ops (start ex_g) in
  a <> b /\ (forall r, r = a \/ r = b -> exists t, In t (below (w_tree w r)) /\ root_id t = c) /\
  globalSize w c = globalSize w a /\ step 1 w (Update b false) = (w', Done) /\ globalSize w' a = globalSize w a /\ globalSize w' c <> globalSize w' a.
Proof.
  exists [NewSet 3 true; NewLeaf 0 p1 false; NewLeaf 0 p1 false; NewNode (Lexicographic false) 0 [1]; NewNode (Lexicographic false) 0 []; Update 2 false], 2, 3, 0.
  eexists. cbv zeta. split; [discriminate|]. split; [|split; [reflexivity|split; [vm_compute; reflexivity|split; [reflexivity|vm_compute; discriminate]]]].
  intros r [->| ->]; eexists; (split; [left; reflexivity|reflexivity]).
Qed.
Print Assumptions c145_shared_child_refuted.

(** ** C146: calls that throw *)

(** A call that throws changes no size that any space reports. *)
Theorem c146_failed_call_keeps_sizes dim g ops o k :
  let w := run dim ops (start g) in
  let '(w', r) := step dim w o in
  r = Threw -> size w' k = size w k /\ blockCount w' k = blockCount w k /\ globalSize w' k = globalSize w k /\ maxLocalSize w' k = maxLocalSize w k.
Proof.
  intros w. destruct (step dim w o) as [w' r] eqn:E. intros ->.
  assert (Q : w_data w' k = w_data w k \/ w_data w' k = mkdata (d_size (w_data w k)) (d_blocks (w_data w k)) (d_global (w_data w k)) (d_max (w_data w k)) false (d_init (w_data w k)) (d_avail (w_data w k))).
  { destruct o as [mask init|s c|s c|s|s force|g'|es f b|kd c cs|c|j force|j]; cbn [step] in E; try discriminate E;
      try (destruct (s <? w_nsets w); discriminate E).
    - destruct (es <? w_nsets w); discriminate E.
    - destruct (forallb _ _); [|discriminate E]. destruct (adopt (w_data w) (c :: cs)) as [D ok] eqn:A. destruct (adopt_spec _ _ _ _ A) as (A1 & _).
      destruct ok; [discriminate E|]. injection E as <-. cbn. destruct (A1 k) as [Q|[_ Q]]; auto.
    - destruct (c <? w_n w); discriminate E.
    - destruct (j <? w_n w); [|discriminate E]. left. destruct (update_data dim w j force) as (U & _). rewrite E in U. cbn in U. rewrite U; [reflexivity|discriminate].
    - destruct (j <? w_n w); [|discriminate E]. left. destruct (ordering_data dim w j) as (U & _). rewrite E in U. cbn in U. rewrite U; [reflexivity|discriminate]. }
  unfold size, blockCount, globalSize, maxLocalSize. destruct Q as [-> | ->]; cbn; auto.
Qed.
Print Assumptions c146_failed_call_keeps_sizes.

(** But update() of a child, which throws, has updated the entity sets: the entities are renumbered below
    the root space, whose ordering still belongs to the old grid. *)
Theorem c146_failed_update_refuted : exists ops k s c w',
  let w := run 1 ops (start ex_g) in
  step 1 w (Update k true) = (w', Threw) /\ set_size w' s c <> set_size w s c /\
  exists r, size w' r = size w r /\ isRootSpace w r = true /\ size w r <> Throw /\ tree_es (w_tree w r) = s.
Proof.
  exists [NewSet 3 true; NewLeaf 0 p1 false; NewNode (Lexicographic false) 0 []; Update 1 false; ChangeGrid ex_g2], 0, 0, 0. eexists. cbv zeta.
  split; [vm_compute; reflexivity|]. split; [vm_compute; discriminate|]. exists 1. split; [reflexivity|]. split; [reflexivity|]. split; [vm_compute; discriminate|reflexivity].
Qed.
Print Assumptions c146_failed_update_refuted.

(** A constructor that throws has already taken over the children before the offending one: a space that
    could be used on its own refuses update() for ever, although it belongs to no other space. *)
Theorem c146_failed_construction_refuted : exists ops kd c cs w',
  let w := run 1 ops (start ex_g) in
  step 1 w (NewNode kd c cs) = (w', Threw) /\
  snd (step 1 w (Update c true)) = Done /\ snd (step 1 w' (Update c true)) = Threw /\ w_n w' = w_n w.
Proof.
  exists [NewSet 3 true; NewLeaf 0 p1 false; NewLeaf 0 p0 false; Update 1 false], (Lexicographic false), 0, [1]. eexists. cbv zeta.
  split; [vm_compute; reflexivity|]. split; [vm_compute; reflexivity|]. split; vm_compute; reflexivity.
Qed.
Print Assumptions c146_failed_construction_refuted.

(** If the first ordering() throws because the blocks cannot be interleaved, the second call returns the
    ordering that was never set up. *)
Theorem c146_ordering_after_failure_refuted : exists ops k w1 w2,
  let w := run 1 ops (start ex_g) in
  step 1 w (GetOrdering k) = (w1, Threw) /\ step 1 w1 (GetOrdering k) = (w2, Done) /\
  ordering_size w2 k <> Some (dimension 1 (w_grid w2) (w_tree w2 k)) /\ size w2 k = Throw.
Proof.
  exists [NewSet 3 true; NewLeaf 0 p1 false; NewLeaf 0 p0 false; NewNode (Interleaved true 1) 0 [1]], 2. do 2 eexists. cbv zeta.
  split; [vm_compute; reflexivity|]. split; [vm_compute; reflexivity|]. split; [vm_compute; discriminate|reflexivity].
Qed.
Print Assumptions c146_ordering_after_failure_refuted.

(** The inner spaces of an entity-blocked tree are never initialized: they answer no question about sizes,
    not even the one for the size of the whole space which the leaves next to them answer. *)
Theorem c146_inner_space_refuted : exists ops r k w',
  let w := run 1 ops (start ex_g) in
  step 1 w (Update r true) = (w', Done) /\ (exists t, In t (below (w_tree w' r)) /\ root_id t = k) /\
  globalSize w' r <> Throw /\ globalSize w' k = Throw /\ maxLocalSize w' k = Throw.
Proof.
  exists [NewSet 3 true; NewLeaf 0 p1 false; NewNode (EntityBlocked false) 0 []; NewNode (EntityBlocked true) 1 []], 2, 1. eexists. cbv zeta.
  split; [vm_compute; reflexivity|]. split; [eexists; split; [left; reflexivity|reflexivity]|]. split; [vm_compute; discriminate|]. split; reflexivity.
Qed.
Print Assumptions c146_inner_space_refuted.
