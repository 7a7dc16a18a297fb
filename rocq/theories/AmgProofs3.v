(** Proofs about the life of AMG hierarchies in the backends (C136). *)
From Coq Require Import Reals Lra.
From Verif Require Import Common CommonFacts ParSpec AmgModel AmgSpec.

Section life.
  Context {A : Type}.
  Variables galerkin cg_rows dg_rows : A -> A.
  Variable r : bool.
  Implicit Types (l pre : list (event A)).

  Lemma matrices_snoc l e : matrices (l ++ [e]) = match e with Assign m a => fun i => if i =? m then Some a else matrices l i
                                  | Destroy m => fun i => if i =? m then None else matrices l i
                                  | _ => matrices l end.
  Proof. unfold matrices. rewrite fold_left_app. reflexivity. Qed.
  Lemma reusing_snoc l e : reusing r (l ++ [e]) = match e with SetReuse b => b | _ => reusing r l end.
  Proof. unfold reusing. rewrite fold_left_app. reflexivity. Qed.
  Lemma solves_snoc l e : solves (l ++ [e]) = solves l || match e with Solve _ => true | _ => false end.
  Proof. unfold solves. rewrite existsb_app. cbn. now rewrite orb_false_r. Qed.
  Lemma legal_snoc l e : legal (l ++ [e]) -> legal l /\ forall m, e = Solve m -> matrices l m <> None.
  Proof.
    intros H. split.
    - intros pre m post E. apply (H pre m (post ++ [e])). rewrite E, <- app_assoc. reflexivity.
    - intros m ->. now apply (H l m []).
  Qed.
  Lemma run_snoc apply l e s : run apply r l = Ok s -> run apply r (l ++ [e]) = step apply s e.
  Proof. intros H. unfold run in *. rewrite foldM_app, H. cbn. destruct (step apply s e); reflexivity. Qed.
  Lemma run_snoc_inv apply l e s : run apply r (l ++ [e]) = Ok s -> exists s0, run apply r l = Ok s0 /\ step apply s0 e = Ok s.
  Proof.
    unfold run. rewrite foldM_app. destruct (foldM _ l _) as [s0| |]; cbn; try discriminate. intros H. exists s0. split; auto.
    destruct (step apply s0 e); auto.
  Qed.

  Lemma setup_now l m : solves l = false \/ reusing r l = false -> setup_at r (l ++ [Solve m]) l m.
  Proof. intros H. exists []. split; auto. split; auto. intros mid k rest E. now destruct mid. Qed.
  Lemma setup_later l e pre m : (forall k, e = Solve k -> reusing r l = true) -> setup_at r l pre m -> setup_at r (l ++ [e]) pre m.
  Proof.
    intros H (post & E & W & K). exists (post ++ [e]). split; [rewrite E, <- app_assoc; reflexivity|]. split; auto.
    intros mid k rest Q. destruct rest as [|x rest] using rev_ind.
    - apply app_inj_tail in Q as [Q1 Q2]. rewrite <- Q1, <- E. eapply H; eauto.
    - clear IHrest. apply (K mid k rest). change (mid ++ Solve k :: rest ++ [x]) with (mid ++ (Solve k :: rest) ++ [x]) in Q.
      rewrite app_assoc in Q. apply app_inj_tail in Q as [Q _]. exact Q.
  Qed.

  (** ** The sequential DG backend *)
  Definition dg_inv l (s : heap A * backend A * list (solve A)) : Prop :=
    match s with (h, b, out) =>
      (forall i, h i = matrices l i) /\ reuse b = reusing r l /\ firstapply b = negb (solves l) /\
      (solves l = true -> exists pre m a, setup_at r l pre m /\ matrices pre m = Some a /\ acg b = Some (galerkin a) /\
         hierarchy b = Some {| amg_matrix := Acg; amg_frame := None; amg_setup := galerkin a |})
    end.

  Lemma dg_solve h b out l m : dg_inv l (h, b, out) -> matrices l m <> None ->
    exists b' o, seq_dg_apply galerkin h b m = Ok (h, b', o) /\ dg_inv (l ++ [Solve m]) (h, b', out ++ [o]) /\ matrices l m = Some (system o) /\
      exists pre m0 a, setup_at r (l ++ [Solve m]) pre m0 /\ matrices pre m0 = Some a /\ finest o = galerkin a /\ made_for o = galerkin a.
  Proof.
    intros (H1 & H2 & H3 & H4) L. unfold seq_dg_apply. destruct (matrices l m) as [a|] eqn:Em; [|easy]. rewrite H1, Em.
    unfold rebuild. cbn [enter reuse firstapply calls oop acg hierarchy].
    destruct (negb (reuse b) || firstapply b) eqn:B.
    - unfold solve_with, use_amg, matrix_of. cbn [hierarchy amg_frame amg_matrix amg_setup acg]. rewrite H1, Em. cbn [bind].
      eexists _, _. split; [reflexivity|].
      assert (SU : setup_at r (l ++ [Solve m]) l m).
      { apply setup_now. apply orb_true_iff in B as [B|B]; [right|left]; [rewrite H2 in B; now destruct (reusing r l)|rewrite H3 in B; now destruct (solves l)]. }
      split.
      + unfold dg_inv. cbn [reuse firstapply acg hierarchy]. rewrite matrices_snoc, reusing_snoc, solves_snoc, orb_true_r. repeat split; auto.
        intros _. exists l, m, a. auto.
      + split; [reflexivity|]. exists l, m, a. auto.
    - apply orb_false_iff in B as [B1 B2]. assert (SV : solves l = true) by (rewrite H3 in B2; now destruct (solves l)).
      assert (RE : reusing r l = true) by (rewrite H2 in B1; now destruct (reusing r l)).
      destruct (H4 SV) as (pre & m0 & a0 & S1 & S2 & S3 & S4).
      unfold solve_with, use_amg, matrix_of. rewrite H1, Em. cbn [bind]. change (hierarchy (enter b)) with (hierarchy b). rewrite S4. cbn [amg_frame amg_matrix amg_setup]. change (acg (enter b)) with (acg b). rewrite S3. cbn [bind].
      eexists _, _. split; [reflexivity|].
      assert (SU : setup_at r (l ++ [Solve m]) pre m0) by (apply setup_later; auto).
      split.
      + unfold dg_inv. cbn [enter reuse firstapply acg hierarchy]. rewrite matrices_snoc, reusing_snoc, solves_snoc, orb_true_r.
        split; [auto|split; [auto|split; [rewrite SV in H3; exact H3|]]]. intros _. exists pre, m0, a0. auto.
      + split; [reflexivity|]. exists pre, m0, a0. auto.
  Qed.

  Lemma dg_run l : legal l -> exists s, run (seq_dg_apply galerkin) r l = Ok s /\ dg_inv l s.
  Proof.
    induction l as [|e l IH] using rev_ind; intros L.
    - exists (fun _ => None, fresh r, []). split; [reflexivity|]. cbn. repeat split; auto. discriminate.
    - apply legal_snoc in L as [L1 L2]. destruct (IH L1) as ([[h b] out] & E & I). rewrite (run_snoc _ _ _ _ E).
      destruct e as [m|q|m a|m]; cbn [step].
      + destruct (dg_solve h b out l m I (L2 m eq_refl)) as (b' & o & E' & I' & _). rewrite E'. cbn [bind]. eauto.
      + eexists. split; [reflexivity|]. destruct I as (H1 & H2 & H3 & H4). unfold dg_inv. cbn [set_reuse reuse firstapply acg hierarchy].
        rewrite matrices_snoc, reusing_snoc, solves_snoc, orb_false_r. repeat split; auto. intros SV.
        destruct (H4 SV) as (pre & m0 & a0 & S1 & S2). exists pre, m0, a0. split; auto. apply setup_later; auto. discriminate.
      + eexists. split; [reflexivity|]. destruct I as (H1 & H2 & H3 & H4). unfold dg_inv.
        rewrite matrices_snoc, reusing_snoc, solves_snoc, orb_false_r. split; [|split; [auto|split; auto]].
        * intros i. unfold put. now rewrite H1.
        * intros SV. destruct (H4 SV) as (pre & m0 & a0 & S1 & S2). exists pre, m0, a0. split; auto. apply setup_later; auto. discriminate.
      + eexists. split; [reflexivity|]. destruct I as (H1 & H2 & H3 & H4). unfold dg_inv.
        rewrite matrices_snoc, reusing_snoc, solves_snoc, orb_false_r. split; [|split; [auto|split; auto]].
        * intros i. unfold put. now rewrite H1.
        * intros SV. destruct (H4 SV) as (pre & m0 & a0 & S1 & S2). exists pre, m0, a0. split; auto. apply setup_later; auto. discriminate.
  Qed.

  (** ** The sequential AMG backend *)
  Definition seq_inv m l (s : heap A * backend A * list (solve A)) : Prop :=
    match s with (h, b, out) =>
      (forall i, h i = matrices l i) /\ reuse b = reusing r l /\ firstapply b = negb (solves l) /\
      (solves l = true -> oop b = Some m /\ exists pre a, setup_at r l pre m /\ matrices pre m = Some a /\
         hierarchy b = Some {| amg_matrix := User m; amg_frame := None; amg_setup := a |})
    end.

  Lemma seq_solve h b out l m : seq_inv m l (h, b, out) -> matrices l m <> None ->
    exists b' o, seq_amg_apply h b m = Ok (h, b', o) /\ seq_inv m (l ++ [Solve m]) (h, b', out ++ [o]) /\
      matrices l m = Some (system o) /\ finest o = system o /\
      exists pre a, setup_at r (l ++ [Solve m]) pre m /\ matrices pre m = Some a /\ made_for o = a.
  Proof.
    intros (H1 & H2 & H3 & H4) L. unfold seq_amg_apply. destruct (matrices l m) as [a|] eqn:Em; [|easy]. rewrite H1, Em.
    unfold rebuild. cbn [enter reuse firstapply calls oop acg hierarchy].
    destruct (negb (reuse b) || firstapply b) eqn:B.
    - cbn [oop]. unfold solve_with, use_amg, matrix_of. cbn [hierarchy amg_frame amg_matrix amg_setup acg]. rewrite H1, Em. cbn [bind].
      eexists _, _. split; [reflexivity|].
      assert (SU : setup_at r (l ++ [Solve m]) l m).
      { apply setup_now. apply orb_true_iff in B as [B|B]; [right|left]; [rewrite H2 in B; now destruct (reusing r l)|rewrite H3 in B; now destruct (solves l)]. }
      split.
      + unfold seq_inv. cbn [reuse firstapply oop hierarchy]. rewrite matrices_snoc, reusing_snoc, solves_snoc, orb_true_r. repeat split; auto.
        exists l, a. auto.
      + split; [reflexivity|]. split; [reflexivity|]. exists l, a. auto.
    - apply orb_false_iff in B as [B1 B2]. assert (SV : solves l = true) by (rewrite H3 in B2; now destruct (solves l)).
      assert (RE : reusing r l = true) by (rewrite H2 in B1; now destruct (reusing r l)).
      destruct (H4 SV) as (O & pre & a0 & S1 & S2 & S4). cbn [enter oop]. rewrite O.
      unfold solve_with, use_amg, matrix_of. cbn [enter hierarchy acg]. rewrite S4. cbn [amg_frame amg_matrix amg_setup]. rewrite H1, Em. cbn [bind].
      eexists _, _. split; [reflexivity|].
      assert (SU : setup_at r (l ++ [Solve m]) pre m) by (apply setup_later; auto).
      split.
      + unfold seq_inv. cbn [enter reuse firstapply oop hierarchy]. rewrite matrices_snoc, reusing_snoc, solves_snoc, orb_true_r.
        split; [auto|split; [auto|split; [rewrite SV in H3; exact H3|]]]. intros _. split; [exact O|]. exists pre, a0. auto.
      + split; [reflexivity|]. split; [reflexivity|]. exists pre, a0. auto.
  Qed.

  Lemma seq_run m l : legal l -> (forall k, In (Solve k) l -> k = m) -> exists s, run seq_amg_apply r l = Ok s /\ seq_inv m l s.
  Proof.
    induction l as [|e l IH] using rev_ind; intros L K.
    - exists (fun _ => None, fresh r, []). split; [reflexivity|]. cbn. repeat split; auto; discriminate.
    - apply legal_snoc in L as [L1 L2]. destruct IH as ([[h b] out] & E & I); auto. { intros k Hk. apply K, in_or_app. auto. }
      rewrite (run_snoc _ _ _ _ E). destruct e as [k|q|k a|k]; cbn [step].
      + assert (k = m) as -> by (apply K, in_or_app; cbn; auto).
        destruct (seq_solve h b out l m I (L2 m eq_refl)) as (b' & o & E' & I' & _). rewrite E'. cbn [bind]. eauto.
      + eexists. split; [reflexivity|]. destruct I as (H1 & H2 & H3 & H4). unfold seq_inv. cbn [set_reuse reuse firstapply oop hierarchy].
        rewrite matrices_snoc, reusing_snoc, solves_snoc, orb_false_r. split; [auto|split; [auto|split; [auto|]]]. intros SV.
        destruct (H4 SV) as (O & pre & a0 & S1 & S2). split; auto. exists pre, a0. split; auto. apply setup_later; auto. discriminate.
      + eexists. split; [reflexivity|]. destruct I as (H1 & H2 & H3 & H4). unfold seq_inv.
        rewrite matrices_snoc, reusing_snoc, solves_snoc, orb_false_r. split; [|split; [auto|split; auto]].
        * intros i. unfold put. now rewrite H1.
        * intros SV. destruct (H4 SV) as (O & pre & a0 & S1 & S2). split; auto. exists pre, a0. split; auto. apply setup_later; auto. discriminate.
      + eexists. split; [reflexivity|]. destruct I as (H1 & H2 & H3 & H4). unfold seq_inv.
        rewrite matrices_snoc, reusing_snoc, solves_snoc, orb_false_r. split; [|split; [auto|split; auto]].
        * intros i. unfold put. now rewrite H1.
        * intros SV. destruct (H4 SV) as (O & pre & a0 & S1 & S2). split; auto. exists pre, a0. split; auto. apply setup_later; auto. discriminate.
  Qed.

  (** ** Backends whose operator lives on the stack of apply *)
  Definition flags l (b : backend A) : Prop :=
    reuse b = reusing r l /\ firstapply b = negb (solves l) /\
    (solves l = true -> exists g f, hierarchy b = Some g /\ amg_frame g = Some f /\ f <= calls b).

  Definition on_stack (apply : heap A -> backend A -> nat -> res (heap A * backend A * solve A)) : Prop :=
    forall h b m, match apply h b m with
      | Throw => False
      | UB => True
      | Ok (h', b', o) => reuse b' = reuse b /\ calls b' = S (calls b) /\
          (rebuild b = true -> firstapply b' = false /\ exists g, hierarchy b' = Some g /\ amg_frame g = Some (calls b')) /\
          (rebuild b = false -> forall g f, hierarchy b = Some g -> amg_frame g = Some f -> f = S (calls b))
      end.

  Lemma flags_rebuild l b : flags l b -> rebuild b = negb (reusing r l && solves l).
  Proof. intros (F1 & F2 & _). unfold rebuild. rewrite F1, F2. now destruct (reusing r l), (solves l). Qed.

  Lemma stack_dead apply l h b m : on_stack apply -> flags l b -> solves l = true -> reusing r l = true -> apply h b m = UB.
  Proof.
    intros OS F SV RE. pose proof (OS h b m) as O. destruct (apply h b m) as [[[h' b'] o]| |]; [|easy|reflexivity].
    exfalso. destruct O as (_ & _ & _ & O). pose proof (flags_rebuild l b F) as RB. rewrite SV, RE in RB.
    destruct F as (_ & _ & F3). destruct (F3 SV) as (g & f & G1 & G2 & G3). pose proof (O RB g f G1 G2). lia.
  Qed.

  Lemma stack_flags apply l : on_stack apply ->
    run apply r l = UB \/ exists h b out, run apply r l = Ok (h, b, out) /\ flags l b.
  Proof.
    intros OS. induction l as [|e l IH] using rev_ind.
    - right. exists (fun _ => None), (fresh r), []. split; [reflexivity|]. repeat split; auto. discriminate.
    - destruct IH as [E|(h & b & out & E & F)].
      { left. unfold run in *. rewrite foldM_app, E. reflexivity. }
      rewrite (run_snoc _ _ _ _ E). destruct e as [m|q|m a|m]; cbn [step].
      + destruct (reusing r l && solves l) eqn:RS.
        { apply andb_true_iff in RS as [RE SV]. left. rewrite (stack_dead apply l h b m OS F SV RE). reflexivity. }
        pose proof (flags_rebuild l b F) as RB. rewrite RS in RB. destruct F as (F1 & F2 & F3).
        pose proof (OS h b m) as O. destruct (apply h b m) as [[[h' b'] o]| |]; [|easy|now left]. cbn [bind].
        right. eexists _, _, _. split; [reflexivity|]. destruct O as (O1 & O2 & O3 & _). destruct (O3 RB) as (O4 & g & O5 & O6).
        unfold flags. rewrite reusing_snoc, solves_snoc, orb_true_r. repeat split; auto; [now rewrite O1|].
        intros _. exists g, (calls b'). auto.
      + right. destruct F as (F1 & F2 & F3). eexists _, _, _. split; [reflexivity|]. unfold flags. rewrite reusing_snoc, solves_snoc, orb_false_r. repeat split; auto.
      + right. destruct F as (F1 & F2 & F3). eexists _, _, _. split; [reflexivity|]. unfold flags. rewrite reusing_snoc, solves_snoc, orb_false_r. repeat split; auto.
      + right. destruct F as (F1 & F2 & F3). eexists _, _, _. split; [reflexivity|]. unfold flags. rewrite reusing_snoc, solves_snoc, orb_false_r. repeat split; auto.
  Qed.

  Lemma stack_reuse apply l m : on_stack apply -> solves l = true -> reusing r l = true -> run apply r (l ++ [Solve m]) = UB.
  Proof.
    intros OS SV RE. destruct (stack_flags apply l OS) as [E|(h & b & out & E & F)].
    - unfold run in *. rewrite foldM_app, E. reflexivity.
    - rewrite (run_snoc _ _ _ _ E). cbn [step]. now rewrite (stack_dead apply l h b m OS F SV RE).
  Qed.

  Lemma bind_ok {B C} (x : res B) (f : B -> res C) c : bind x f = Ok c -> exists y, x = Ok y /\ f y = Ok c.
  Proof. destruct x; try discriminate. eauto. Qed.

  Lemma stack_use (h : heap A) (b : backend A) k o s : solve_with h b o k = Ok s -> s = (h, b, snd s) /\
    forall g f, hierarchy b = Some g -> amg_frame g = Some f -> f = k.
  Proof.
    unfold solve_with. intros H. apply bind_ok in H as (a & _ & H). apply bind_ok in H as ([f g] & U & H). inversion H; subst. split; auto.
    intros g' f' E1 E2. unfold use_amg in U. rewrite E1, E2 in U. destruct (Nat.eqb_spec f' k); auto. discriminate.
  Qed.
  Lemma solve_throw (h : heap A) (b : backend A) k o : solve_with h b o k <> Throw.
  Proof.
    unfold solve_with, use_amg, matrix_of. destruct (match o with User m => h m | Acg => acg b end); [|discriminate]. cbn [bind].
    destruct (hierarchy b) as [g|]; [|discriminate]. destruct (match amg_frame g with Some f => f =? k | None => true end); [|discriminate].
    destruct (match amg_matrix g with User m => h m | Acg => acg b end); discriminate.
  Qed.

  Lemma par_on_stack prepare : on_stack (par_amg_apply prepare).
  Proof.
    intros h b m. unfold par_amg_apply. destruct (h m) as [a|]; [|exact I]. cbv zeta.
    match goal with |- context [solve_with ?h' ?b' ?o ?k] => pose proof (stack_use h' b' k o) as U; pose proof (solve_throw h' b' k o) as T;
      destruct (solve_with h' b' o k) as [[[h2 b2] o2]| |]; [|now destruct T|exact I]; destruct (U _ eq_refl) as [E N]; inversion E; subst h2 b2 end.
    change (rebuild (enter b)) with (rebuild b) in *. change (calls (enter b)) with (S (calls b)) in *. destruct (rebuild b) eqn:RB.
    - split; [reflexivity|split; [reflexivity|split; [|discriminate]]]. intros _. split; [reflexivity|]. eexists. split; reflexivity.
    - split; [reflexivity|split; [reflexivity|split; [discriminate|]]]. intros _ g f G F. exact (N g f G F).
  Qed.

  Lemma ovlp_dg_on_stack : on_stack (ovlp_dg_apply galerkin cg_rows dg_rows).
  Proof.
    intros h b m. unfold ovlp_dg_apply. destruct (h m) as [a|]; [|exact I]. cbv zeta.
    match goal with |- context [solve_with ?h' ?b' ?o ?k] => pose proof (stack_use h' b' k o) as U; pose proof (solve_throw h' b' k o) as T;
      destruct (solve_with h' b' o k) as [[[h2 b2] o2]| |]; [|now destruct T|exact I]; destruct (U _ eq_refl) as [E N]; inversion E; subst h2 b2 end.
    change (rebuild (enter b)) with (rebuild b) in *. change (calls (enter b)) with (S (calls b)) in *. destruct (rebuild b) eqn:RB.
    - split; [reflexivity|split; [reflexivity|split; [|discriminate]]]. intros _. split; [reflexivity|]. eexists. split; reflexivity.
    - split; [reflexivity|split; [reflexivity|split; [discriminate|]]]. intros _ g f G F. exact (N g f G F).
  Qed.

  (** The flag is off at every solve. *)
  Definition off_at_solves l : Prop := forall pre m post, l = pre ++ Solve m :: post -> reusing r pre = false.

  Lemma off_snoc l e : off_at_solves (l ++ [e]) -> off_at_solves l /\ forall m, e = Solve m -> reusing r l = false.
  Proof.
    intros H. split.
    - intros pre m post E. apply (H pre m (post ++ [e])). rewrite E, <- app_assoc. reflexivity.
    - intros m ->. now apply (H l m []).
  Qed.

  Definition par_inv l (s : heap A * backend A * list (solve A)) : Prop :=
    match s with (h, b, out) => (forall i, h i = matrices l i) /\ reuse b = reusing r l end.

  Lemma par_solve h b out l m : par_inv l (h, b, out) -> matrices l m <> None -> reusing r l = false ->
    exists h' b' o, par_amg_apply (fun a => a) h b m = Ok (h', b', o) /\ par_inv (l ++ [Solve m]) (h', b', out ++ [o]) /\
      matrices l m = Some (system o) /\ finest o = system o /\ made_for o = system o.
  Proof.
    intros (H1 & H2) L O. unfold par_amg_apply. destruct (matrices l m) as [a|] eqn:Em; [|easy]. rewrite H1, Em. cbv zeta.
    unfold rebuild. cbn [enter reuse firstapply calls oop acg hierarchy]. rewrite H2, O. cbn [negb orb].
    unfold solve_with, use_amg, matrix_of. cbn [hierarchy amg_frame amg_matrix amg_setup]. rewrite Nat.eqb_refl. unfold put. rewrite Nat.eqb_refl. cbn [bind].
    eexists _, _, _. split; [reflexivity|]. split.
    - unfold par_inv. rewrite matrices_snoc, reusing_snoc. split; auto. intros i. destruct (Nat.eqb_spec i m) as [->|]; auto.
    - repeat split.
  Qed.

  Lemma par_run l : legal l -> off_at_solves l -> exists s, run (par_amg_apply (fun a => a)) r l = Ok s /\ par_inv l s.
  Proof.
    induction l as [|e l IH] using rev_ind; intros L K.
    - exists (fun _ => None, fresh r, []). split; [reflexivity|]. cbn. auto.
    - apply legal_snoc in L as [L1 L2]. apply off_snoc in K as [K1 K2]. destruct IH as ([[h b] out] & E & I); auto.
      rewrite (run_snoc _ _ _ _ E). destruct e as [m|q|m a|m]; cbn [step].
      + destruct (par_solve h b out l m I (L2 m eq_refl) (K2 m eq_refl)) as (h' & b' & o & E' & I' & _). rewrite E'. cbn [bind]. eauto.
      + eexists. split; [reflexivity|]. destruct I as (H1 & H2). unfold par_inv. rewrite matrices_snoc, reusing_snoc. auto.
      + eexists. split; [reflexivity|]. destruct I as (H1 & H2). unfold par_inv. rewrite matrices_snoc, reusing_snoc. split; auto. intros i. unfold put. now rewrite H1.
      + eexists. split; [reflexivity|]. destruct I as (H1 & H2). unfold par_inv. rewrite matrices_snoc, reusing_snoc. split; auto. intros i. unfold put. now rewrite H1.
  Qed.
End life.
