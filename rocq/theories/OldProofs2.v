(** The iteration of the deprecated Newton solver. *)
From Coq Require Import Lra.
From Verif Require Import NewtonModel NewtonSpec CommonFacts NewtonProofs NewtonProofs2 NewtonProofs3 OldModel OldSpec OldProofs.
Local Open Scope R_scope.

Section Old.
  Context {V W : Type} (repair : V -> V) (residual : V -> option W) (jacobian_ok : V -> bool) (norm : bool -> W -> ext)
          (axpy : R -> V -> V -> V)
          (linear_solver : list (event (V := V)) -> option (list V) -> W -> ext -> bool * V * Z).
  Notation run := (run (V := V) (W := W)).
  Notation event := (event (V := V)).
  Notation oiterate := (oiterate repair residual jacobian_ok norm axpy linear_solver).
  Notation oloop := (oloop repair residual jacobian_ok norm axpy linear_solver).
  Notation oapply := (oapply repair residual jacobian_ok norm axpy linear_solver).
  Notation opoint := (opoint repair).
  Notation value p := (value residual norm (opt p)).
  Notation consistent p := (consistent residual norm (opt p)).
  Notation must p s := (must_reassemble (opt p) s).

  Lemma olinear_reduction_eq p (s : run) : olinear_reduction p s = linear_reduction (opt p) s.
  Proof.
    unfold olinear_reduction, linear_reduction.
    destruct (fixed_linear_reduction (opt p)), (_ && _); reflexivity.
  Qed.
  Lemma oterminate_eq p (s : run) : oterminate p s = terminate (opt p) s.
  Proof. reflexivity. Qed.

  (** one pass *)
  Definition advanced (p : oparams) (s s' : run) (e : event) : Prop :=
    iterations s' = S (iterations s) /\ result_reduction s' = div (defect (vecs s')) (first s') /\
    consistent p (vecs s') /\ (exists y, sol (vecs s') = opoint p y) /\
    exists corr,
      ((strat p = NoLineSearch \/ lt (e_defect e) (Fin (absolute_limit (opt p))) = true) /\
       sol (vecs s') = ostep_to repair axpy p (e_at e) corr 1 /\ finite (defect (vecs s'))) \/
      (lt (e_defect e) (Fin (absolute_limit (opt p))) = false /\
       good_step repair residual norm axpy p (e_at e) corr (e_defect e) (sol (vecs s')) (defect (vecs s'))).
  Definition stuck (p : oparams) (s' : run) (e : event) : Prop :=
    lt (e_defect e) (Fin (absolute_limit (opt p))) = false /\
    sol (vecs s') = opoint p (e_at e) /\ consistent p (vecs s') /\ finite (defect (vecs s')) /\
    (damp p <> 0 -> exists corr, no_good_step repair residual norm axpy p (e_at e) corr (e_defect e)).

  Lemma oiterate_spec p s : matrix_free (opt p) = false ->
    match oiterate p s with
    | ONorm s' => exists e, step_ok (opt p) s s' e /\ (must p s = false -> e_at e = sol (vecs s)) /\
        (advanced p s s' e \/
         (must p s = false /\ iterations s' = iterations s /\ result_reduction s' = result_reduction s /\ stuck p s' e))
    | ORaise f s' => converged s' = converged s /\ first s' = first s /\
        ((f = OAssembly /\ log s' = log s /\ linear_its s' = linear_its s /\ matrix s' = Some None) \/
         exists e, step_ok (opt p) s s' e /\ f <> ONotConverged /\
           (f = OSearch -> must p s = true /\ stuck p s' e) /\
           (f = ODefect -> consistent p (vecs s') /\ ~ finite (defect (vecs s'))))
    | OUndef => hang_defect p = None \/ hang_prepare p = None
    end.
  Proof.
    intros F. unfold OldModel.oiterate, oreassemble. fold (ratio s). fold (must p s).
    (* the rest of a pass *)
    assert (REST : forall s1, matrix s1 = (if must p s then Some (Some [sol (vecs s1)]) else matrix s) ->
        reassembled s1 = must p s -> defect (vecs s1) = defect (vecs s) -> previous s1 = previous s ->
        first s1 = first s -> converged s1 = converged s -> iterations s1 = iterations s ->
        result_reduction s1 = result_reduction s -> linear_its s1 = linear_its s -> log s1 = log s ->
        (must p s = false -> sol (vecs s1) = sol (vecs s)) ->
        match match osolve linear_solver p (olinear_reduction p s1) s1 with
              | (false, s2, _) => ORaise OLinear s2
              | (true, s2, corr) =>
                  match osearch repair residual norm axpy p (previous s2) (vecs s2) corr with
                  | OUndef => OUndef
                  | ORaise OSearch c => if reassembled s2 then ORaise OSearch (set_vecs c s2) else ONorm (set_vecs c s2)
                  | ORaise f c => ORaise f (set_vecs c s2)
                  | ONorm c =>
                      ONorm (mkrun c (matrix s2) (reassembled s2) (previous s2) (first s2) (converged s2)
                                   (S (iterations s2)) (div (defect c) (first s2)) (linear_its s2) (log s2))
                  end
              end with
        | ONorm s' => exists e, step_ok (opt p) s s' e /\ (must p s = false -> e_at e = sol (vecs s)) /\
            (advanced p s s' e \/
             (must p s = false /\ iterations s' = iterations s /\ result_reduction s' = result_reduction s /\ stuck p s' e))
        | ORaise f s' => converged s' = converged s /\ first s' = first s /\
            ((f = OAssembly /\ log s' = log s /\ linear_its s' = linear_its s /\ matrix s' = Some None) \/
             exists e, step_ok (opt p) s s' e /\ f <> ONotConverged /\
               (f = OSearch -> must p s = true /\ stuck p s' e) /\
               (f = ODefect -> consistent p (vecs s') /\ ~ finite (defect (vecs s'))))
        | OUndef => hang_defect p = None \/ hang_prepare p = None
        end).
    { intros s1 Em Er Ed Ep Ef Ec Ei Err El Elg Es. rewrite olinear_reduction_eq.
      assert (LR : linear_reduction (opt p) s1 = linear_reduction (opt p) s).
      { unfold linear_reduction. rewrite Ed, Ei, Ef, Ep. reflexivity. }
      unfold osolve. set (m := match matrix s1 with Some m => m | None => None end).
      destruct (linear_solver (log s1) m (res (vecs s1)) (linear_reduction (opt p) s1)) as ((ok & corr) & its).
      set (e := mkevent m (sol (vecs s1)) (defect (vecs s1)) (previous s1) (reassemble_threshold (opt p))
                        (negb (reassembled s1)) (linear_reduction (opt p) s1) its (iterations s1)).
      assert (EV : event_ok (opt p) s e).
      { split; cbn [e e_defect e_previous e_threshold e_iteration e_reduction e_matrix e_reuse e_at]; auto.
        - rewrite F. unfold m. rewrite Em. destruct (must p s); reflexivity.
        - rewrite F, Er. reflexivity. }
      assert (SM : matrix s1 = if negb (matrix_free (opt p)) && must p s then Some (e_matrix e) else matrix s).
      { rewrite F. cbn [negb andb e e_matrix]. unfold m. rewrite Em. destruct (must p s); reflexivity. }
      destruct ok.
      2:{ cbn [converged first log]. split; [exact Ec|]. split; [exact Ef|]. right. exists e.
          split; [|split; [discriminate|split; discriminate]]. split; cbn [log linear_its matrix previous first converged]; auto.
          - rewrite Elg. reflexivity.
          - rewrite El. reflexivity. }
      cbn [previous vecs]. pose proof (osearch_cases repair residual norm axpy p (vecs s1) corr) as OC.
      destruct (osearch repair residual norm axpy p (defect (vecs s1)) (vecs s1) corr) as [c|f c|]; [| |auto].
      - exists e. split; [|split; [exact Es|left]].
        + split; cbn [log linear_its matrix previous first converged]; auto; [rewrite Elg|rewrite El]; reflexivity.
        + destruct OC as (Oc & Oy & Og). unfold advanced. cbn [iterations result_reduction vecs first e e_defect e_at].
          rewrite Ei. split; [reflexivity|]. split; [reflexivity|]. split; [exact Oc|]. split; [exact Oy|].
          exists corr. exact Og.
      - assert (ST : f = OSearch -> forall s', vecs s' = c -> stuck p s' e).
        { intros -> s' <-. destruct OC as [(E & _)|[(E & _)|(_ & _ & Ol & Os & Oc & Of & On)]]; try discriminate E.
          unfold stuck. cbn [e e_defect e_at]. split; [exact Ol|]. split; [exact Os|]. split; [exact Oc|]. split; [exact Of|].
          intros Hd. exists corr. auto. }
        assert (SO : forall s', log s' = e :: log s1 -> linear_its s' = (linear_its s1 + its)%Z -> matrix s' = matrix s1 ->
                  previous s' = defect (vecs s1) -> first s' = first s1 -> converged s' = converged s1 -> step_ok (opt p) s s' e).
        { intros s' E1 E2 E3 E4 E5 E6. split; auto; try congruence. rewrite E2, El. reflexivity. }
        assert (NE : f = OSearch \/ f <> OSearch) by (destruct f; auto; right; discriminate).
        destruct NE as [->|NE].
        + cbn [reassembled]. rewrite Er. destruct (must p s) eqn:M; cbn [set_vecs converged first log linear_its matrix vecs].
          * split; [exact Ec|]. split; [exact Ef|]. right. exists e. split; [apply SO; reflexivity|].
            split; [discriminate|]. split; [|discriminate]. intros _. split; [reflexivity|]. apply ST; reflexivity.
          * exists e. split; [apply SO; reflexivity|]. split; [exact Es|]. right. split; [reflexivity|].
            cbn [iterations result_reduction]. split; [exact Ei|]. split; [exact Err|]. apply ST; reflexivity.
        + assert (FN : f <> ONotConverged).
          { destruct OC as [(-> & _)|[(-> & _)|(-> & _)]]; discriminate. }
          assert (FD : f = ODefect -> consistent p c /\ ~ finite (defect c)).
          { intros ->. destruct OC as [(E & _)|[(_ & Oc & Of & _)|(E & _)]]; try discriminate E. auto. }
          destruct f; try contradiction;
            (split; [exact Ec|]; split; [exact Ef|]; right; exists e; split; [apply SO; reflexivity|];
             split; [discriminate|]; split; [discriminate|]; try discriminate; exact FD). }
    destruct (must p s) eqn:M.
    - destruct (hang_prepare p) as [h|]; [|auto].
      destruct (jacobian_ok _) eqn:J.
      + apply REST; try reflexivity. discriminate.
      + cbn. auto 8.
    - apply REST; reflexivity.
  Qed.

  (** terminate let the loop go on *)
  Definition busy (p : oparams) (s : run) : Prop :=
    (iterations s < max_iterations (opt p))%nat \/ (force_iteration (opt p) = true /\ iterations s = 0%nat).
  (** Invariant rule. *)
  Record inductive (p : oparams) (I : run -> Prop) (Q : ofailure -> run -> Prop) (U : Prop) : Prop := {
    in_test : forall s, I s -> I (set_converged false s);
    in_end : forall s, I s -> (max_iterations (opt p) <= iterations s)%nat ->
      ~ criterion (opt p) (first s) (defect (vecs s)) -> Q ONotConverged (set_converged false s);
    in_step : forall s s', I s -> busy p s -> oiterate p s = ONorm s' -> I s';
    in_raise : forall s f s', I s -> oiterate p s = ORaise f s' -> Q f s';
    in_undef : forall s, I s -> oiterate p s = OUndef -> U }.
  Lemma oloop_inv p I Q U : inductive p I Q U -> forall fuel s, I s ->
    match oloop p fuel s with
    | Some (ONorm s') => exists s1, I s1 /\ s' = set_converged true s1 /\ criterion (opt p) (first s1) (defect (vecs s1))
    | Some (ORaise f s') => Q f s'
    | Some OUndef => U
    | None => True
    end.
  Proof.
    intros [HT HX HN HR HU]. induction fuel as [|fuel IH]; intros s HI; cbn [OldModel.oloop]; rewrite oterminate_eq;
      pose proof (terminate_spec norm (res (vecs s)) (opt p) s) as T; destruct (terminate (opt p) s) as [[[|]|] s1]; auto.
    - exists s. tauto.
    - destruct T as (-> & T1 & T2). auto.
    - exists s. tauto.
    - assert (I1 : I s1) by (destruct T as ([->| ->] & _); [exact HI|apply HT, HI]).
      assert (B1 : busy p s1) by (unfold busy; destruct T as ([->| ->] & T); exact T).
      destruct (oiterate p s1) as [s2|f s2|] eqn:E; [apply IH; eauto|eauto|eauto].
    - destruct T as (-> & T1 & T2). auto.
  Qed.

  (** the object when the loop starts *)
  Definition started (s : run) (c : core) : run :=
    mkrun c (match matrix s with None => Some None | m => m end) (reassembled s) (defect c) (defect c) false 0 (Fin 1) 0 (log s).
  Definition finish (p : oparams) (s : run) : run :=
    if keep_matrix (opt p) then s else set_matrix None (reassembled s) s.
  Lemma oapply_inv p fuel s x I Q (U : Prop) : inductive p I Q U ->
    (forall c, sol c = opoint p x -> consistent p c -> finite (defect c) -> I (started s c)) -> (hang_defect p = None -> U) ->
    match oapply p fuel s x with
    | Some (ONorm s') => exists s1, I s1 /\ s' = finish p (set_converged true s1) /\
                                    criterion (opt p) (first s1) (defect (vecs s1))
    | Some (ORaise f s') => Q f s' \/
        (log s' = log s /\ linear_its s' = 0%Z /\ converged s' = false /\ sol (vecs s') = opoint p x /\ iterations s' = 0%nat /\
         ((f = OAssembly /\ value p (sol (vecs s')) = None) \/
          (f = ODefect /\ consistent p (vecs s') /\ ~ finite (defect (vecs s')))))
    | Some OUndef => U
    | None => True
    end.
  Proof.
    intros HI H0 HU. unfold OldModel.oapply. cbn [vecs].
    pose proof (odefect_cases repair residual norm p (mkcore x (res (vecs s)) (defect (vecs s)) [])) as D.
    destruct (odefect _ _ _ _ _) as [c|f c|]; cbn [sol] in D; [| |auto].
    - destruct D as (Ds & Dc & Df & _). specialize (H0 c Ds Dc Df).
      pose proof (oloop_inv p I Q U HI fuel _ H0) as L. unfold started in L. cbn [matrix reassembled log converged iterations result_reduction linear_its].
      destruct (OldModel.oloop _ _ _ _ _ _ _ _ _) as [[s2|f s2|]|]; auto.
      destruct L as (s1 & ? & -> & ?). exists s1. auto.
    - right. cbn [set_vecs log linear_its converged vecs iterations]. destruct D as (Ds & D & _). auto 8.
  Qed.

  Lemma fin_vecs p (s : run) : vecs (finish p s) = vecs s.
  Proof. unfold finish. destruct (keep_matrix _); reflexivity. Qed.
  Lemma fin_converged p (s : run) : converged (finish p s) = converged s.
  Proof. unfold finish. destruct (keep_matrix _); reflexivity. Qed.
  Lemma fin_first p (s : run) : first (finish p s) = first s.
  Proof. unfold finish. destruct (keep_matrix _); reflexivity. Qed.
  Lemma fin_iterations p (s : run) : iterations (finish p s) = iterations s.
  Proof. unfold finish. destruct (keep_matrix _); reflexivity. Qed.
  Lemma fin_log p (s : run) : log (finish p s) = log s.
  Proof. unfold finish. destruct (keep_matrix _); reflexivity. Qed.
  Lemma fin_its p (s : run) : linear_its (finish p s) = linear_its s.
  Proof. unfold finish. destruct (keep_matrix _); reflexivity. Qed.
  Lemma fin_reduction p (s : run) : result_reduction (finish p s) = result_reduction s.
  Proof. unfold finish. destruct (keep_matrix _); reflexivity. Qed.
End Old.
