(** The deprecated and the new Newton solver agree. *)
From Coq Require Import Lra.
From Verif Require Import NewtonModel NewtonSpec CommonFacts NewtonProofs NewtonProofs2 OldModel OldSpec OldProofs OldProofs2.
Local Open Scope R_scope.

Definition translate (f : failure) : ofailure :=
  match f with
  | AssemblyError => OAssembly | LinearSolverError => OLinear | LineSearchError => OSearch | TerminateError => ONotConverged
  end.

Section Same.
  Context {V W : Type} (repair : V -> V) (residual : V -> option W) (jacobian_ok : V -> bool) (norm : bool -> W -> ext)
          (axpy : R -> V -> V -> V) (r0 : W)
          (linear_solver : list (event (V := V)) -> option (list V) -> W -> ext -> bool * V * Z).
  Notation run := (run (V := V) (W := W)).
  Notation core := (core (V := V) (W := W)).
  Context (p : oparams).
  Hypothesis Hh : hang_defect p = Some (hanging_nodes (opt p)).
  Hypothesis Hp : hang_prepare p = Some (hanging_nodes (opt p)).
  Hypothesis Hm : matrix_free (opt p) = false.
  Hypothesis Hn : forall b r, finite (norm b r).
  Hypothesis Hd : strat p = NoLineSearch \/ (0 < damp p < 1 /\ tries p <> 0%nat).

  Definition alike (a b : core) : Prop := sol a = sol b /\ res a = res b /\ defect a = defect b.
  Lemma alike_sol a b x : alike a b -> alike (with_sol x a) (with_sol x b).
  Proof. intros (_ & ? & ?). split; auto. Qed.

  Lemma defect_same a b : alike a b ->
    match update_defect repair residual norm (opt p) a, odefect repair residual norm p b with
    | Normal a', ONorm b' => alike a' b'
    | Raised AssemblyError a', ORaise OAssembly b' => alike a' b'
    | _, _ => False
    end.
  Proof.
    intros (E1 & E2 & E3). unfold update_defect, odefect. rewrite Hh, <- E1.
    destruct (residual _) as [r|]; cbn [defect].
    - destruct (Hn (use_max_norm (opt p)) r) as (d & Ed). rewrite Ed. split; auto.
    - rewrite <- E2, <- E3. split; auto.
  Qed.
  (** a successful evaluation does not depend on what was stored *)
  Lemma defect_normal x a b a' : update_defect repair residual norm (opt p) (with_sol x a) = Normal a' ->
    exists b', update_defect repair residual norm (opt p) (with_sol x b) = Normal b' /\ alike a' b'.
  Proof.
    unfold update_defect. cbn [with_sol sol]. destruct (residual _) as [r|]; [|discriminate]. injection 1 as <-.
    eexists. split; [reflexivity|]. split; auto.
  Qed.

  Lemma trials_same corr x0 d0 q m : damping q = damp p -> forall lambda best dbest a b, alike a b -> sol a = x0 ->
    match trials repair residual norm axpy (opt p) q corr x0 d0 (S m) lambda best dbest a,
          otrials repair residual norm axpy p corr x0 d0 m lambda best dbest b with
    | Accepted a', TAccepted b' => alike a' b'
    | Broken a', TRaised OAssembly b' => alike a' b'
    | Exhausted _ be a', TExhausted la' be' b' => be = be' /\ alike (with_sol x0 a') (with_sol x0 b') /\ sol a' = x0 /\
        forall c, exists b1, update_defect repair residual norm (opt p) (with_sol (axpy (- la') corr x0) c) = Normal b1 /\
                             alike b1 b'
    | _, _ => False
    end.
  Proof.
    intros Hq. induction m as [|m IH]; intros lambda best dbest a b AB Hs.
    - cbn [trials otrials].
      pose proof (defect_same _ _ (alike_sol a b (axpy (- lambda) corr (sol a)) AB)) as D.
      assert (ES : sol b = sol a) by (symmetry; apply AB). rewrite ES.
      destruct (update_defect repair residual norm (opt p) (with_sol (axpy (- lambda) corr (sol a)) a)) as [a1|[] a1] eqn:U;
        destruct (odefect repair residual norm p (with_sol (axpy (- lambda) corr (sol a)) b)) as [b1|[] b1|]; try contradiction; auto.
      assert (Ed : defect b1 = defect a1) by (symmetry; apply D). rewrite Ed.
      destruct (le (defect a1) (mul (Fin (1 - lambda / 4)) d0)); [exact D|].
      split; [reflexivity|]. split; [destruct D as (_ & ? & ?); split; auto|].
      split; [reflexivity|]. intros c. rewrite Hs in U. destruct (defect_normal _ _ c _ U) as (b2 & U2 & A2).
      exists b2. split; [exact U2|]. destruct D as (? & ? & ?), A2 as (? & ? & ?). split; [congruence|split; congruence].
    - change (trials repair residual norm axpy (opt p) q corr x0 d0 (S (S m)) lambda best dbest a) with
        (match update_defect repair residual norm (opt p) (with_sol (axpy (- lambda) corr (sol a)) a) with
         | Raised _ c1 => Broken c1
         | Normal c1 =>
             if le (defect c1) (mul (Fin (1 - lambda / 4)) d0) then Accepted c1
             else
               let better := lt (defect c1) dbest in
               trials repair residual norm axpy (opt p) q corr x0 d0 (S m) (lambda * damping q)
                      (if better then lambda else best)
                      (if better then defect c1 else dbest) (with_sol x0 c1)
         end).
      cbn [otrials].
      pose proof (defect_same _ _ (alike_sol a b (axpy (- lambda) corr (sol a)) AB)) as D.
      assert (ES : sol b = sol a) by (symmetry; apply AB). rewrite ES.
      destruct (update_defect repair residual norm (opt p) (with_sol (axpy (- lambda) corr (sol a)) a)) as [a1|[] a1] eqn:U;
        destruct (odefect repair residual norm p (with_sol (axpy (- lambda) corr (sol a)) b)) as [b1|[] b1|]; try contradiction; auto.
      assert (Ed : defect b1 = defect a1) by (symmetry; apply D). rewrite Ed.
      destruct (le (defect a1) (mul (Fin (1 - lambda / 4)) d0)); [exact D|].
      cbv zeta. rewrite Hq. apply IH; [apply alike_sol; exact D|reflexivity].
  Qed.

  Lemma give_up_same x a b : alike (with_sol x a) (with_sol x b) ->
    match give_up repair residual norm (opt p) x a, ogive_up repair residual norm p x b with
    | Raised f a', ORaise g b' => g = translate f /\ alike a' b'
    | _, _ => False
    end.
  Proof.
    intros AB. unfold give_up, ogive_up. pose proof (defect_same _ _ AB) as D.
    destruct (update_defect repair residual norm (opt p) (with_sol x a)) as [a1|[] a1];
      destruct (odefect repair residual norm p (with_sol x b)) as [b1|[] b1|]; try contradiction; auto.
  Qed.

  Lemma hr_same (acc : bool) a b corr : strat p = (if acc then HackbuschReuskenAcceptBest else HackbuschReusken) -> alike a b ->
    match search_hr repair residual norm axpy (mkls (tries p) (damp p) acc) (opt p) a corr,
          osearch repair residual norm axpy p (defect b) b corr with
    | Normal a', ONorm b' => alike a' b'
    | Raised f a', ORaise g b' => g = translate f /\ alike a' b'
    | _, _ => False
    end.
  Proof.
    intros St AB. destruct Hd as [E|(Dd & Tn)]; [rewrite E in St; destruct acc; discriminate St|].
    unfold search_hr, osearch.
    assert (Es : sol b = sol a) by (symmetry; apply AB). assert (Ed : defect b = defect a) by (symmetry; apply AB).
    rewrite Es, Ed.
    replace (match strat p with NoLineSearch => true | _ => false end || lt (defect a) (Fin (absolute_limit (opt p))))
      with (lt (defect a) (Fin (absolute_limit (opt p)))) by (rewrite St; destruct acc; reflexivity).
    destruct (lt (defect a) (Fin (absolute_limit (opt p)))).
    { pose proof (defect_same _ _ (alike_sol a b (axpy (-1) corr (sol a)) AB)) as D.
      destruct (update_defect repair residual norm (opt p) (with_sol (axpy (-1) corr (sol a)) a)) as [a1|[] a1];
        destruct (odefect repair residual norm p (with_sol (axpy (-1) corr (sol a)) b)) as [b1|[] b1|]; try contradiction; auto. }
    cbn [ls_max accept].
    pose proof (trials_same corr (sol a) (defect a) (mkls (tries p) (damp p) acc) (pred (tries p)) eq_refl 1 0 (defect a) a b AB eq_refl) as T.
    assert (Et : S (pred (tries p)) = tries p) by lia. rewrite Et in T.
    assert (B0 : booked repair residual norm axpy (opt p) (mkls (tries p) (damp p) acc) corr (sol a) (defect a) 0 0 (defect a)) by (split; [intros; lia|auto]).
    pose proof (trials_spec repair residual norm axpy (opt p) (mkls (tries p) (damp p) acc) corr (sol a) (defect a) (tries p) 0 0 (defect a) a eq_refl B0) as TS.
    cbn [damping] in TS. change (damp p ^ 0) with 1 in TS.
    destruct (trials repair residual norm axpy (opt p) (mkls (tries p) (damp p) acc) corr (sol a) (defect a) (tries p) 1 0 (defect a) a)
      as [a1|la be a1|a1];
      destruct (otrials repair residual norm axpy p corr (sol a) (defect a) (pred (tries p)) 1 0 (defect a) b) as [b1|la' be' b1|[] b1|];
      try contradiction; auto.
    destruct T as (<- & T1 & T2 & T3). cbn [result_of damping] in TS. destruct TS as (Tl & _ & _ & db & _ & Tb).
    rewrite Nat.add_0_l in *. pose proof (give_up_same (sol a) a1 b1 T1) as G.
    assert (G' : match give_up repair residual norm (opt p) (sol a) a1, ogive_up repair residual norm p (sol a) b1 with
                 | Normal a', ONorm b' => alike a' b' | Raised f a', ORaise g b' => g = translate f /\ alike a' b' | _, _ => False end).
    { destruct (give_up repair residual norm (opt p) (sol a) a1), (ogive_up repair residual norm p (sol a) b1); auto; contradiction. }
    rewrite St. destruct acc; cbn [negb]; [|exact G'].
    destruct (Req_EM_T be 0) as [->|Nb]; [exact G'|].
    destruct Tb as [(-> & _)|(k & Hk & Ek & _ & _)]; [contradiction|].
    destruct (Req_EM_T be la) as [El|_].
    { exfalso. cbn [damping] in Ek, Tl. apply (pow_distinct axpy (damp p) k (tries p) Dd Hk). congruence. }
    destruct (Req_EM_T be la') as [El|_].
    - destruct (T3 a1) as (b2 & U & A2). rewrite El, U. exact A2.
    - assert (AB1 : alike (with_sol (axpy (- be) corr (sol a)) a1) (with_sol (axpy (- be) corr (sol a)) b1)).
      { destruct T1 as (_ & ? & ?). split; auto. }
      pose proof (defect_same _ _ AB1) as D.
      destruct (update_defect repair residual norm (opt p) (with_sol (axpy (- be) corr (sol a)) a1)) as [a2|[] a2];
        destruct (odefect repair residual norm p (with_sol (axpy (- be) corr (sol a)) b1)) as [b2|[] b2|]; try contradiction; auto.
  Qed.

  Lemma search_same a b corr : alike a b ->
    match same_search repair residual norm axpy p (opt p) a corr, osearch repair residual norm axpy p (defect b) b corr with
    | Normal a', ONorm b' => alike a' b'
    | Raised f a', ORaise g b' => g = translate f /\ alike a' b'
    | _, _ => False
    end.
  Proof.
    intros AB. unfold same_search. case_eq (strat p); intros St.
    - unfold search_none, osearch. rewrite St. cbn [orb].
      assert (Es : sol b = sol a) by (symmetry; apply AB). rewrite Es.
      pose proof (defect_same _ _ (alike_sol a b (axpy (-1) corr (sol a)) AB)) as D.
      destruct (update_defect repair residual norm (opt p) (with_sol (axpy (-1) corr (sol a)) a)) as [a1|[] a1];
        destruct (odefect repair residual norm p (with_sol (axpy (-1) corr (sol a)) b)) as [b1|[] b1|]; try contradiction; auto.
    - apply (hr_same false); auto.
    - apply (hr_same true); auto.
  Qed.

  Definition together (a b : run) : Prop := same_state a b /\ previous a = previous b.

  Lemma iterate_same a b : together a b ->
    match iterate repair jacobian_ok linear_solver (opt p) (same_search repair residual norm axpy p) a,
          oiterate repair residual jacobian_ok norm axpy linear_solver p b with
    | Normal a', ONorm b' => together a' b'
    | Raised f a', ORaise g b' => g = translate f /\ together a' b'
    | Raised LineSearchError _, ONorm _ => True
    | _, _ => False
    end.
  Proof.
    intros ((E1 & E2 & E3 & E4 & E5 & E6 & E7 & E8 & E9 & E10) & E11).
    unfold iterate, reassemble, oiterate, oreassemble. rewrite Hm, Hp. unfold ratio. rewrite <- E3, <- E11.
    (* the rest of the pass *)
    assert (REST : forall a1 b1, together a1 b1 -> reassembled a1 = reassembled b1 ->
      match match linear_solve linear_solver (opt p) (linear_reduction (opt p) a1) a1 with
            | Raised f (s2, _) => Raised f s2
            | Normal (s2, corr) =>
                match same_search repair residual norm axpy p (opt p) (vecs s2) corr with
                | Raised f c => Raised f (set_vecs c s2)
                | Normal c =>
                    Normal (mkrun c (matrix s2) (reassembled s2) (previous s2) (first s2) (converged s2)
                                  (S (iterations s2)) (div (defect c) (first s2)) (linear_its s2) (log s2))
                end
            end,
            match osolve linear_solver p (olinear_reduction p b1) b1 with
            | (false, s2, _) => ORaise OLinear s2
            | (true, s2, corr) =>
                match osearch repair residual norm axpy p (previous s2) (vecs s2) corr with
                | OUndef => OUndef
                | ORaise OSearch c => if reassembled s2 then ORaise OSearch (set_vecs c s2) else ONorm (set_vecs c s2)
                | ORaise f c => ORaise f (set_vecs c s2)
                | ONorm c =>
                    ONorm (mkrun c (matrix s2) (reassembled s2) (previous s2) (first s2) (converged s2)
                                 (S (iterations s2)) (div (defect c) (first s2)) (linear_its s2) (log s2))
                end
            end with
      | Normal a', ONorm b' => together a' b'
      | Raised f a', ORaise g b' => g = translate f /\ together a' b'
      | Raised LineSearchError _, ONorm _ => True
      | _, _ => False
      end).
    { clear E1 E2 E3 E4 E5 E6 E7 E8 E9 E10 E11 a b. intros a b ((E1 & E2 & E3 & E4 & E5 & E6 & E7 & E8 & E9 & E10) & E11) E12.
      rewrite olinear_reduction_eq.
      assert (LR : linear_reduction (opt p) b = linear_reduction (opt p) a).
      { unfold linear_reduction. rewrite <- E3, <- E7, <- E5, <- E11. reflexivity. }
      rewrite LR. unfold linear_solve, osolve. rewrite Hm. cbn [negb andb].
      rewrite <- E4, <- E9, <- E2, <- E1, <- E3, <- E5, <- E6, <- E7, <- E8, <- E11, <- E12.
      destruct (linear_solver (log a) _ (res (vecs a)) _) as ((ok & corr) & its). destruct ok.
      - cbn [vecs previous].
        pose proof (search_same (vecs a) (vecs b) corr (conj E1 (conj E2 E3))) as SS. rewrite <- E3 in SS.
        destruct (same_search repair residual norm axpy p (opt p) (vecs a) corr) as [c|f c];
          destruct (osearch repair residual norm axpy p (defect (vecs a)) (vecs b) corr) as [c'|g c'|]; try contradiction.
        + destruct SS as (S1 & S2 & S3). split; [|reflexivity]. repeat split; cbn; auto; congruence.
        + destruct SS as (-> & S1 & S2 & S3). destruct f; cbn [translate reassembled];
            try (split; [reflexivity|]; split; [|reflexivity]; repeat split; cbn; auto; congruence).
          destruct (reassembled a); [|exact Logic.I].
          split; [reflexivity|]. split; [|reflexivity]. repeat split; cbn; auto; congruence.
      - split; [reflexivity|]. split; [|reflexivity]. repeat split; cbn; auto; congruence. }
    destruct (lt (Fin (reassemble_threshold (opt p))) (div (defect (vecs a)) (previous a))).
    - rewrite <- E1.
      set (x := if hanging_nodes (opt p) then repair (sol (vecs a)) else sol (vecs a)).
      destruct (jacobian_ok x).
      + apply REST; [|reflexivity]. split; [|exact E11]. repeat split; cbn; auto.
      + split; [reflexivity|]. split; [|exact E11]. repeat split; cbn; auto.
    - apply REST; [|reflexivity]. split; [|exact E11]. repeat split; cbn; auto.
  Qed.

  Lemma terminate_same a b : together a b ->
    fst (terminate (opt p) a) = fst (oterminate p b) /\ together (snd (terminate (opt p) a)) (snd (oterminate p b)).
  Proof.
    intros TO. pose proof TO as ((E1 & E2 & E3 & E4 & E5 & E6 & E7 & E8 & E9 & E10) & E11).
    unfold terminate, oterminate. rewrite <- E3, <- E5, <- E7.
    destruct (force_iteration (opt p) && (iterations a =? 0)%nat); [split; [reflexivity|exact TO]|].
    destruct ((max_iterations (opt p) <=? iterations a)%nat && negb _); (split; [reflexivity|]; split; [|exact E11]; repeat split; cbn; auto).
  Qed.

  Lemma loop_same fuel : forall k a b, together a b ->
    match loop repair jacobian_ok linear_solver (opt p) (same_search repair residual norm axpy p) fuel a with
    | Some (Normal a') => exists b', oloop repair residual jacobian_ok norm axpy linear_solver p (fuel + k) b = Some (ONorm b') /\ together a' b'
    | Some (Raised f a') => f <> LineSearchError ->
        exists b', oloop repair residual jacobian_ok norm axpy linear_solver p (fuel + k) b = Some (ORaise (translate f) b') /\ together a' b'
    | None => True
    end.
  Proof.
    induction fuel as [|fuel IH]; intros k a b TO; cbn [loop Nat.add].
    - destruct (terminate_same a b TO) as (T1 & T2).
      destruct (terminate (opt p) a) as [[[|]|] a1]; cbn [fst snd] in T1, T2; [|exact Logic.I|intros _];
        destruct k; cbn [oloop]; destruct (oterminate p b) as [o b1]; cbn [fst snd] in T1, T2; subst o; eauto.
    - cbn [oloop]. destruct (terminate_same a b TO) as (T1 & T2).
      destruct (terminate (opt p) a) as [[[|]|] a1]; destruct (oterminate p b) as [o b1]; cbn [fst snd] in T1, T2; subst o; eauto.
      pose proof (iterate_same a1 b1 T2) as I1.
      destruct (iterate repair jacobian_ok linear_solver (opt p) _ a1) as [a2|f a2];
        destruct (oiterate repair residual jacobian_ok norm axpy linear_solver p b1) as [b2|g b2|]; try contradiction.
      + apply IH, I1.
      + destruct f; try contradiction; intros H; destruct (H eq_refl).
      + destruct f; try contradiction; destruct I1 as (-> & I1); eauto.
      + destruct f; contradiction.
  Qed.

  Theorem apply_same s x fuel : (S (max_iterations (opt p)) <= fuel)%nat ->
    match apply repair residual jacobian_ok norm r0 linear_solver (opt p) (same_search repair residual norm axpy p)
                (matrix s) (log s) x with
    | Some (Normal a) => exists b, oapply repair residual jacobian_ok norm axpy linear_solver p fuel s x = Some (ONorm b) /\
                                   same_state a b
    | Some (Raised f a) => f <> LineSearchError ->
        exists b, oapply repair residual jacobian_ok norm axpy linear_solver p fuel s x = Some (ORaise (translate f) b) /\
          sol (vecs a) = sol (vecs b) /\ iterations a = iterations b /\ log a = log b
    | None => False
    end.
  Proof.
    intros Hf. pose proof (apply_terminates repair residual jacobian_ok norm r0 linear_solver (opt p) (same_search repair residual norm axpy p) (matrix s) (log s) x) as AT.
    unfold apply in *. unfold oapply. cbn [vecs].
    pose proof (odefect_cases repair residual norm p (mkcore x (res (vecs s)) (defect (vecs s)) [])) as OC.
    assert (D : match update_defect repair residual norm (opt p) (mkcore x r0 (Fin 0) []), odefect repair residual norm p (mkcore x (res (vecs s)) (defect (vecs s)) []) with
      | Normal a', ONorm b' => alike a' b'
      | Raised AssemblyError a', ORaise OAssembly b' => sol a' = sol b'
      | _, _ => False end).
    { unfold update_defect, odefect. rewrite Hh. cbn [sol]. destruct (residual _) as [r|]; cbn [defect].
      - destruct (Hn (use_max_norm (opt p)) r) as (d & Ed). rewrite Ed. split; auto.
      - reflexivity. }
    destruct (update_defect repair residual norm (opt p) (mkcore x r0 (Fin 0) [])) as [c|[] c];
      destruct (odefect repair residual norm p (mkcore x (res (vecs s)) (defect (vecs s)) [])) as [c'|[] c'|]; try contradiction.
    - cbn [matrix reassembled log converged iterations result_reduction linear_its].
      assert (TO : together (begin_loop (opt p) (matrix s) (log s) c) (started s c')).
      { destruct D as (D1 & D2 & D3). split; [|exact D3]. unfold begin_loop, started. rewrite Hm. repeat split; cbn; auto.
        - destruct (matrix s); reflexivity.
        - intros H. destruct (H eq_refl). }
      pose proof (loop_same (S (max_iterations (opt p))) (fuel - S (max_iterations (opt p))) _ _ TO) as L.
      replace (S (max_iterations (opt p)) + (fuel - S (max_iterations (opt p))))%nat with fuel in L by lia. unfold started in L.
      destruct (loop repair jacobian_ok linear_solver (opt p) _ _ _) as [[a|f a]|]; [| |congruence].
      + destruct L as (b & -> & L). eexists. split; [reflexivity|]. destruct L as ((E1 & E2 & E3 & E4 & E5 & E6 & E7 & E8 & E9 & E10) & _).
        unfold end_loop. rewrite Hm. cbn [orb]. destruct (keep_matrix (opt p)); repeat split; cbn; auto.
      + intros H. destruct (L H) as (b & -> & (E1 & _ & _ & _ & _ & _ & E7 & _ & E9 & _) & _). eauto.
    - intros _. eexists. split; [reflexivity|]. cbn. auto.
  Qed.
End Same.
