(** Merging of constraints, helpers on constrained DOFs. *)
From Coq Require Import Lra Permutation.
From Verif Require Import ConsModel ConsSpec EngineSpec EngineProofs CommonFacts.
Local Open Scope R_scope.

Lemma find_in {A} k (v : A) l : find k l = Some v -> In (k, v) l.
Proof.
  induction l as [|[k' v'] t IH]; cbn [find]; [discriminate|]. destruct (Nat.eqb_spec k' k) as [->|]; [|intros; right; auto].
  injection 1 as ->. left. reflexivity.
Qed.
Lemma find_none {A} k (l : list (nat * A)) : find k l = None <-> ~ In k (keys l).
Proof.
  induction l as [|[k' v'] t IH]; cbn [find keys map fst]; [split; auto|].
  destruct (Nat.eqb_spec k' k) as [->|N].
  - split; [discriminate|]. intros H. exfalso. apply H. left. reflexivity.
  - rewrite IH. split; [intros H [E|I]; auto|intros H I; apply H; right; exact I].
Qed.
Lemma in_find {A} k (v : A) l : NoDup (keys l) -> In (k, v) l -> find k l = Some v.
Proof.
  induction l as [|[k' v'] t IH]; cbn [find keys map fst]; [contradiction|]. intros ND [E|I].
  - injection E as -> ->. rewrite Nat.eqb_refl. reflexivity.
  - inversion_clear ND as [|? ? N1 N2]. destruct (Nat.eqb_spec k' k) as [->|]; [|apply IH; auto].
    exfalso. apply N1. apply (in_map fst) in I. exact I.
Qed.
Lemma in_keys {A} k (v : A) l : In (k, v) l -> In k (keys l).
Proof. intros H. apply (in_map fst) in H. exact H. Qed.
Lemma keys_in {A} k (l : list (nat * A)) : In k (keys l) -> exists v, In (k, v) l.
Proof. unfold keys. rewrite in_map_iff. intros ((k', v) & <- & H). exists v. exact H. Qed.

Lemma find_put {A} k k' (v : A) l : find k' (put k v l) = if (k =? k')%nat then Some v else find k' l.
Proof.
  induction l as [|[k1 v1] t IH]; cbn [put find]; [reflexivity|]. destruct (Nat.eqb_spec k1 k) as [->|N]; cbn [find].
  - destruct (Nat.eqb_spec k k'); reflexivity.
  - destruct (Nat.eqb_spec k1 k') as [->|]; [|exact IH]. destruct (Nat.eqb_spec k k'); [congruence|reflexivity].
Qed.
Lemma keys_put {A} k (v : A) l x : In x (keys (put k v l)) <-> x = k \/ In x (keys l).
Proof.
  unfold keys. induction l as [|[k1 v1] t IH]; cbn [put map fst In]; [intuition|].
  destruct (Nat.eqb_spec k1 k) as [->|N]; cbn [map fst In]; [intuition|]. rewrite IH. intuition.
Qed.
Lemma nodup_put {A} k (v : A) l : NoDup (keys l) -> NoDup (keys (put k v l)).
Proof.
  unfold keys. induction l as [|[k1 v1] t IH]; cbn [put map fst]; intros ND; [constructor; auto; constructor|].
  inversion_clear ND as [|? ? N1 N2]. destruct (Nat.eqb_spec k1 k) as [->|N]; cbn [map fst]; constructor; auto.
  rewrite (keys_put k v t k1). intros [|]; auto.
Qed.
Lemma in_put {A} k (v : A) l x y : NoDup (keys l) -> In (x, y) (put k v l) -> (x = k /\ y = v) \/ In (x, y) l.
Proof.
  intros ND H. pose proof (in_find _ _ _ (nodup_put k v l ND) H) as F. rewrite find_put in F.
  destruct (Nat.eqb_spec k x) as [->|]; [injection F as ->; auto|]. right. apply find_in, F.
Qed.

(** rows *)
Lemma find_rev_snoc {A} c (l : list (nat * A)) x : find c (rev (l ++ [x])) = if (fst x =? c)%nat then Some (snd x) else find c (rev l).
Proof. rewrite rev_app_distr. destruct x. reflexivity. Qed.
Lemma merge_row ci r : forall base all, (forall c, find c base = find c (rev all)) ->
  forall c, find c (fold_left (fun acc e => put (ci (fst e)) (snd e) acc) r base) =
            find c (rev (all ++ map (fun e : nat * R => (ci (fst e), snd e)) r)).
Proof.
  induction r as [|e r IH]; intros base all H c; cbn [fold_left map]; [rewrite app_nil_r; apply H|].
  rewrite (IH (put (ci (fst e)) (snd e) base) (all ++ [(ci (fst e), snd e)])).
  - rewrite <- app_assoc. reflexivity.
  - intros c'. rewrite find_put, find_rev_snoc. cbn [fst snd]. rewrite H. reflexivity.
Qed.
Lemma merge_row_nonempty (ci : nat -> nat) r : forall base : row, base <> [] \/ r <> [] ->
  fold_left (fun acc e => put (ci (fst e)) (snd e) acc) r base <> [].
Proof.
  induction r as [|e r IH]; intros base H; cbn [fold_left]; [destruct H as [H|H]; congruence|].
  apply IH. left. destruct base as [|[? ?] ?]; cbn; [discriminate|]. destruct (_ =? _)%nat; discriminate.
Qed.
Lemma merge_row_nodup (ci : nat -> nat) r : forall base : row, NoDup (keys base) ->
  NoDup (keys (fold_left (fun acc e => put (ci (fst e)) (snd e) acc) r base)).
Proof. induction r as [|e r IH]; intros base H; cbn [fold_left]; [exact H|]. apply IH, nodup_put, H. Qed.

(** Invariant of the container with respect to the contributions so far. *)
Record merged (cs : container) (t : transformation) : Prop := {
  mg_proper : proper (entries t);
  mg_none : forall g, find g (entries t) = None <-> rows_for g cs = [];
  mg_dirichlet : forall g, find g (entries t) = Some [] <-> In [] (rows_for g cs);
  mg_row : forall g r, find g (entries t) = Some r -> r <> [] -> merge_of (rows_for g cs) r;
  mg_flag : (exists g r, find g (entries t) = Some r /\ r <> []) -> nd t = true;
  mg_source : nd t = true -> exists g r, In (g, r) cs /\ r <> [] }.

Lemma rows_snoc g cs c : rows_for g (cs ++ [c]) = rows_for g cs ++ (if (fst c =? g)%nat then [snd c] else []).
Proof. unfold rows_for. rewrite filter_app, map_app. cbn [filter]. destruct (fst c =? g)%nat; reflexivity. Qed.

Lemma map_nil_iff {A B} (f : A -> B) l : map f l = [] <-> l = [].
Proof. destruct l; split; intros; try discriminate; reflexivity. Qed.

Lemma import_entry_merged ci cs t l : merged cs t ->
  merged (cs ++ globally ci [l]) (import_entry ci t l).
Proof.
  intros [(ND & NDr) Hn Hd Hr Hf Hs]. destruct l as (k, r). cbn [globally map fst snd].
  set (gr := map (fun e : nat * R => (ci (fst e), snd e)) r). unfold import_entry. cbn [fst snd].
  set (g := ci k).
  assert (R : forall h, rows_for h (cs ++ [(g, gr)]) = rows_for h cs ++ (if (g =? h)%nat then [gr] else [])) by (intros; apply rows_snoc).
  assert (Src : nd t = true -> exists g0 r0, In (g0, r0) (cs ++ [(g, gr)]) /\ r0 <> []).
  { intros H. destruct (Hs H) as (g0 & r0 & I & N). exists g0, r0. split; [apply in_or_app; auto|exact N]. }
  assert (Same : forall h, (g =? h)%nat = false -> rows_for h (cs ++ [(g, gr)]) = rows_for h cs).
  { intros h E. rewrite R, E, app_nil_r. reflexivity. }
  destruct (find g (entries t)) as [[|e0 r0]|] eqn:F.
  - (* existing Dirichlet constraint *)
    assert (Dg : In [] (rows_for g cs)) by (apply Hd, F).
    split; cbn [entries nd]; [split; assumption| | | |exact Hf|exact Src].
    + intros h. rewrite R. destruct (Nat.eqb_spec g h) as [<-|N]; [|rewrite app_nil_r; apply Hn].
      rewrite F. split; [discriminate|]. intros E. destruct (rows_for g cs); discriminate.
    + intros h. rewrite R. destruct (Nat.eqb_spec g h) as [<-|N]; [|rewrite app_nil_r; apply Hd].
      rewrite F. split; [|reflexivity]. intros _. apply in_or_app. left. exact Dg.
    + intros h rr Fh Nr. rewrite Same; [apply Hr; assumption|]. apply Nat.eqb_neq. intros <-. rewrite F in Fh. congruence.
  - (* existing row *)
    assert (Ng : ~ In [] (rows_for g cs)) by (intros H; apply Hd in H; congruence).
    assert (Ne : rows_for g cs <> []) by (intros H; apply Hn in H; congruence).
    destruct r as [|e r'].
    + split; cbn [entries nd].
      * split; [apply nodup_put, ND|]. intros h rr I. apply in_put in I; [|exact ND]. destruct I as [(-> & ->)|I]; [constructor|eauto].
      * intros h. rewrite find_put, R. destruct (Nat.eqb_spec g h) as [<-|N]; [|rewrite app_nil_r; apply Hn].
        split; [discriminate|]. intros E. destruct (rows_for g cs); discriminate.
      * intros h. rewrite find_put, R. destruct (Nat.eqb_spec g h) as [<-|N]; [|rewrite app_nil_r; apply Hd].
        split; [|reflexivity]. intros _. apply in_or_app. right. left. reflexivity.
      * intros h rr. rewrite find_put. destruct (Nat.eqb_spec g h) as [<-|N]; [congruence|]. intros.
        rewrite Same; [apply Hr; assumption|]. apply Nat.eqb_neq, N.
      * intros (h & rr & Fh & Nr). apply Hf. exists h, rr. rewrite find_put in Fh.
        destruct (Nat.eqb_spec g h) as [<-|N]; [congruence|]. auto.
      * exact Src.
    + set (new := fold_left _ _ _).
      assert (Nn : new <> []) by (apply merge_row_nonempty; left; discriminate).
      split; cbn [entries nd].
      * split; [apply nodup_put, ND|]. intros h rr I. apply in_put in I; [|exact ND]. destruct I as [(-> & ->)|I]; [|eauto].
        apply merge_row_nodup. eapply NDr, find_in, F.
      * intros h. rewrite find_put, R. destruct (Nat.eqb_spec g h) as [<-|N]; [|rewrite app_nil_r; apply Hn].
        split; [discriminate|]. intros E. destruct (rows_for g cs); discriminate.
      * intros h. rewrite find_put, R. destruct (Nat.eqb_spec g h) as [<-|N]; [|rewrite app_nil_r; apply Hd].
        split; [congruence|]. intros I. apply in_app_or in I. destruct I as [I|[I|[]]]; [contradiction|discriminate].
      * intros h rr. rewrite find_put. destruct (Nat.eqb_spec g h) as [<-|N].
        -- injection 1 as <-. intros _ c. rewrite R, Nat.eqb_refl, concat_app. cbn [concat]. rewrite app_nil_r.
           apply merge_row. apply Hr; [exact F|discriminate].
        -- intros. rewrite Same; [apply Hr; assumption|]. apply Nat.eqb_neq, N.
      * reflexivity.
      * intros _. exists g, gr. split; [apply in_or_app; right; left; reflexivity|discriminate].
  - (* new *)
    assert (E0 : rows_for g cs = []) by (apply Hn, F).
    assert (FF : forall h (v w : row), find h (put g v (put g w (entries t))) = if (g =? h)%nat then Some v else find h (entries t)).
    { intros h v w. rewrite !find_put. destruct (g =? h)%nat; reflexivity. }
    assert (PP : forall v : row, NoDup (keys v) -> proper (put g v (put g [] (entries t)))).
    { intros v Hv. split; [apply nodup_put, nodup_put, ND|]. intros h rr I. apply in_put in I; [|apply nodup_put, ND].
      destruct I as [(-> & ->)|I]; [exact Hv|]. apply in_put in I; [|exact ND]. destruct I as [(-> & ->)|I]; [constructor|eauto]. }
    destruct r as [|e r'].
    + split; cbn [entries nd].
      * apply PP. constructor.
      * intros h. rewrite FF, R. destruct (Nat.eqb_spec g h) as [<-|N]; [|rewrite app_nil_r; apply Hn].
        split; [discriminate|]. intros E. destruct (rows_for g cs); discriminate.
      * intros h. rewrite FF, R. destruct (Nat.eqb_spec g h) as [<-|N]; [|rewrite app_nil_r; apply Hd].
        split; [|reflexivity]. intros _. apply in_or_app. right. left. reflexivity.
      * intros h rr. rewrite FF. destruct (Nat.eqb_spec g h) as [<-|N]; [congruence|]. intros.
        rewrite Same; [apply Hr; assumption|]. apply Nat.eqb_neq, N.
      * intros (h & rr & Fh & Nr). apply Hf. exists h, rr. rewrite FF in Fh.
        destruct (Nat.eqb_spec g h) as [<-|N]; [congruence|]. auto.
      * exact Src.
    + set (new := fold_left _ _ _).
      assert (Nn : new <> []) by (apply merge_row_nonempty; right; discriminate).
      split; cbn [entries nd].
      * apply PP. apply merge_row_nodup. constructor.
      * intros h. rewrite FF, R. destruct (Nat.eqb_spec g h) as [<-|N]; [|rewrite app_nil_r; apply Hn].
        split; [discriminate|]. intros E. destruct (rows_for g cs); discriminate.
      * intros h. rewrite FF, R. destruct (Nat.eqb_spec g h) as [<-|N]; [|rewrite app_nil_r; apply Hd].
        rewrite E0. split; [congruence|]. intros [I|[]]. discriminate.
      * intros h rr. rewrite FF. destruct (Nat.eqb_spec g h) as [<-|N].
        -- injection 1 as <-. intros _ c. rewrite R, Nat.eqb_refl, E0. cbn [app concat]. rewrite app_nil_r.
           apply (merge_row ci (e :: r') [] []). reflexivity.
        -- intros. rewrite Same; [apply Hr; assumption|]. apply Nat.eqb_neq, N.
      * reflexivity.
      * intros _. exists g, gr. split; [apply in_or_app; right; left; reflexivity|discriminate].
Qed.

Lemma import_merged ci l : forall cs t, merged cs t -> merged (cs ++ globally ci l) (import ci l t).
Proof.
  induction l as [|c l IH]; intros cs t H; [unfold globally; cbn; rewrite app_nil_r; exact H|].
  change (globally ci (c :: l)) with (globally ci [c] ++ globally ci l). rewrite app_assoc.
  unfold import. cbn [fold_left]. apply IH, import_entry_merged, H.
Qed.
Lemma cleared_merged : merged [] cleared.
Proof.
  split; cbn; try tauto; try discriminate.
  - split; [constructor|contradiction].
  - intros _. split; [discriminate|contradiction].
  - intros (g & r & H & _). discriminate.
Qed.
Theorem history_merged os : merged (contributions os) (after_history os).
Proof.
  unfold contributions, after_history.
  set (step := fun acc o => match o with Clear => [] | Import ci l => acc ++ globally ci l end).
  cut (forall cs t, merged cs t -> merged (fold_left step os cs) (fold_left exec os t)).
  { intros H. apply H, cleared_merged. }
  induction os as [|o os IH]; intros cs t H; [exact H|]. cbn [fold_left]. apply IH. destruct o as [|ci l]; cbn [step exec].
  - apply cleared_merged.
  - apply import_merged, H.
Qed.

(** Order independence *)
Lemma rows_perm g cs cs' : Permutation cs cs' -> Permutation (rows_for g cs) (rows_for g cs').
Proof.
  intros H. unfold rows_for. apply Permutation_map. induction H; cbn [filter].
  - constructor.
  - destruct (fst x =? g)%nat; [constructor; exact IHPermutation|exact IHPermutation].
  - destruct (fst y =? g)%nat, (fst x =? g)%nat; try apply Permutation_refl. apply perm_swap.
  - eapply Permutation_trans; eassumption.
Qed.
Lemma concat_perm_in {A} (x : A) l l' : Permutation l l' -> In x (concat l) -> In x (concat l').
Proof. intros P. rewrite !in_concat. intros (r & I & J). exists r. split; [eapply Permutation_in; eassumption|exact J]. Qed.
Lemma find_agree l l' c : (forall x, In x l <-> In x l') ->
  (forall (w w' : R), In (c, w) l -> In (c, w') l -> w = w') -> find c l = find c l'.
Proof.
  intros H U. destruct (find c l) as [w|] eqn:E.
  - destruct (find c l') as [w'|] eqn:E'.
    + f_equal. apply U; [apply find_in, E|apply H, find_in, E'].
    + exfalso. apply find_none in E'. apply E'. eapply in_keys, H, find_in, E.
  - destruct (find c l') as [w'|] eqn:E'; [|reflexivity].
    exfalso. apply find_none in E. apply E. eapply in_keys, H, find_in, E'.
Qed.
Theorem merge_order cs cs' t t' : merged cs t -> merged cs' t' -> Permutation cs cs' -> agree cs ->
  forall g, match find g (entries t), find g (entries t') with
            | None, None => True
            | Some r, Some r' => (r = [] <-> r' = []) /\ forall c, find c r = find c r'
            | _, _ => False
            end.
Proof.
  intros M M' P A g. pose proof (rows_perm g _ _ P) as Q.
  destruct (find g (entries t)) as [r|] eqn:E, (find g (entries t')) as [r'|] eqn:E'.
  - assert (D : r = [] <-> r' = []).
    { split; intros ->.
      - apply (mg_dirichlet _ _ M) in E. eapply Permutation_in in E; [|exact Q]. apply (mg_dirichlet _ _ M') in E. congruence.
      - apply (mg_dirichlet _ _ M') in E'. eapply Permutation_in in E'; [|symmetry; exact Q]. apply (mg_dirichlet _ _ M) in E'. congruence. }
    split; [exact D|]. intros c. destruct r as [|e0 r0].
    + rewrite (proj1 D eq_refl). reflexivity.
    + assert (r' <> []) by (intros Z; apply D in Z; discriminate).
      rewrite (mg_row _ _ M g _ E ltac:(discriminate) c), (mg_row _ _ M' g _ E' ltac:(assumption) c).
      apply find_agree.
      * intros x. rewrite <- !in_rev. split; apply concat_perm_in; [exact Q|symmetry; exact Q].
      * intros w w'. rewrite <- !in_rev. apply A.
  - apply (mg_none _ _ M') in E'. rewrite E' in Q. apply Permutation_sym, Permutation_nil in Q. apply (mg_none _ _ M) in Q. congruence.
  - apply (mg_none _ _ M) in E. rewrite E in Q. apply Permutation_nil in Q. apply (mg_none _ _ M') in Q. congruence.
  - exact I.
Qed.

(** Helpers *)
Section Helpers.
  Context {X : Type}.
  Lemma setv_eq k (x : X) v : setv k x v k = x. Proof. unfold setv. rewrite Nat.eqb_refl. reflexivity. Qed.
  Lemma setv_neq k (x : X) v h : k <> h -> setv k x v h = v h.
  Proof. intros N. unfold setv. destruct (Nat.eqb_spec k h); [contradiction|reflexivity]. Qed.
  Lemma copy_spec (cg : container) (xin : nat -> X) : forall xout g,
    (constrained cg g -> copy_constrained cg xin xout g = xin g) /\
    (~ constrained cg g -> copy_constrained cg xin xout g = xout g).
  Proof.
    unfold copy_constrained, constrained. induction cg as [|(k, r) cg IH]; intros xout g; cbn [fold_left keys map fst].
    - split; [contradiction|reflexivity].
    - destruct (IH (setv k (xin k) xout) g) as (H1 & H2). destruct (in_dec Nat.eq_dec g (keys cg)) as [I|I].
      + split; [intros _; apply H1, I|intros H; exfalso; apply H; right; exact I].
      + split.
        * intros [<-|J]; [|contradiction]. rewrite H2 by assumption. apply setv_eq.
        * intros H. rewrite H2 by assumption. apply setv_neq. intros E. apply H. left. exact E.
  Qed.
  Lemma set_as_copy (cg : container) (x : X) xg : set_constrained cg x xg = copy_constrained cg (fun _ => x) xg.
  Proof. reflexivity. Qed.
  Lemma check_spec ne (cg : container) (x : X) xg :
    check_constrained ne cg x xg = true <-> forall g, constrained cg g -> ne (xg g) x = false.
  Proof.
    unfold constrained. induction cg as [|(k, r) cg IH]; cbn [check_constrained keys map fst]; [split; [contradiction|reflexivity]|].
    destruct (ne (xg k) x) eqn:E.
    - split; [discriminate|]. intros H. rewrite (H k) in E; [discriminate|left; reflexivity].
    - rewrite IH. split; [intros H g [<-|I]; auto|intros H g I; apply H; right; exact I].
  Qed.
  Lemma shifted_spec (cg : container) (x : X) xg g :
    (dirichlet cg g -> set_shifted cg x xg g = xg g) /\ (~ dirichlet cg g -> set_shifted cg x xg g = x).
  Proof.
    unfold set_shifted, dirichlet. 
    cut (forall tmp : nat -> X, (In (g, []) cg -> fold_left (fun tmp col => if (length (snd col) =? 0)%nat then setv (fst col) (xg (fst col)) tmp else tmp) cg tmp g = xg g)
        /\ (~ In (g, []) cg -> fold_left (fun tmp col => if (length (snd col) =? 0)%nat then setv (fst col) (xg (fst col)) tmp else tmp) cg tmp g = tmp g)).
    { intros H. apply (H (fun _ => x)). }
    induction cg as [|(k, r) cg IH]; intros tmp; cbn [fold_left fst snd]; [split; [contradiction|reflexivity]|].
    assert (DecIn : {In (g, []) cg} + {~ In (g, []) cg}).
    { clear. induction cg as [|(k, [|e r]) cg IH]; [right; intros []| |].
      - destruct (Nat.eq_dec k g) as [->|N]; [left; left; reflexivity|]. destruct IH as [I|I]; [left; right; exact I|].
        right. intros [E|J]; [congruence|contradiction].
      - destruct IH as [I|I]; [left; right; exact I|]. right. intros [E|J]; [discriminate|contradiction]. }
    destruct r as [|e r]; cbn [length Nat.eqb].
    - destruct (IH (setv k (xg k) tmp)) as (H1 & H2). destruct DecIn as [I|I].
      + split; [intros _; apply H1, I|intros H; exfalso; apply H; right; exact I].
      + rewrite H2 by exact I. split.
        * intros [E|J]; [|contradiction]. injection E as ->. apply setv_eq.
        * intros H. apply setv_neq. intros ->. apply H. left. reflexivity.
    - destruct (IH tmp) as (H1 & H2). split.
      + intros [E|J]; [discriminate|]. apply H1, J.
      + intros H. apply H2. intros J. apply H. right. exact J.
  Qed.
End Helpers.
