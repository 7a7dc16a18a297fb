(** C157-C158: benchmark statistics and log tags. *)
From Coq Require Import Reals Lra Psatz String Ascii.
From Verif Require Import Common CommonFacts BenchModel BenchSpec.
Local Open Scope R_scope.

(** ** Statistics *)
Lemma total_sq a l : total (map (fun x => (x - a) * (x - a)) l) = total (map (fun x => x * x) l) - 2 * a * total l + INR (length l) * (a * a).
Proof. induction l as [|x l IH]; [cbn; lra|]. cbn [map total length]. rewrite IH, S_INR. lra. Qed.
Lemma total_sq_nonneg a l : 0 <= total (map (fun x => (x - a) * (x - a)) l).
Proof. induction l as [|x l IH]; cbn; [lra|]. pose proof (Rle_0_sqr (x - a)) as Q. unfold Rsqr in Q. lra. Qed.
Lemma fold_stats l : forall s, let s' := fold_left step_stats l s in
  s_avg s' = s_avg s + total (map elapsed l) /\ s_dev s' = s_dev s + total (map (fun x => x * x) (map elapsed l)) /\
  (forall x, In x (map elapsed l) -> x <= s_max s') /\ s_max s <= s_max s' /\ (s_max s' = s_max s \/ In (s_max s') (map elapsed l)) /\
  (match s_min s, s_min s' with
   | None, None => l = [] | None, Some m => In m (map elapsed l) /\ (forall x, In x (map elapsed l) -> m <= x)
   | Some _, None => False | Some m0, Some m => m <= m0 /\ (m = m0 \/ In m (map elapsed l)) /\ (forall x, In x (map elapsed l) -> m <= x) end).
Proof.
  induction l as [|t l IH]; intros s; cbn [fold_left map total]; cbv zeta.
  - split; [lra|]. split; [lra|]. split; [intros x []|]. split; [lra|]. split; [left; reflexivity|]. destruct (s_min s); [|reflexivity]. split; [lra|]. split; [left; reflexivity|intros x []].
  - destruct (IH (step_stats s t)) as (Ha & Hd & Hx & Hm & Hi & Hn). set (s' := fold_left step_stats l (step_stats s t)) in *. clearbody s'.
    cbn [step_stats s_avg s_dev s_max s_min] in *. split; [lra|]. split; [lra|].
    split. { intros x [<-|Hin]; [|apply Hx, Hin]. pose proof (Rmax_r (s_max s) (elapsed t)). lra. }
    split. { pose proof (Rmax_l (s_max s) (elapsed t)). lra. }
    split. { destruct Hi as [Hi|Hi]; [|right; right; exact Hi]. rewrite Hi. unfold Rmax. destruct (Rle_dec (s_max s) (elapsed t)); [right; left; reflexivity|left; reflexivity]. }
    destruct (s_min s') as [m|]; [|destruct (s_min s); contradiction]. destruct Hn as (H1 & H2 & H3). destruct (s_min s) as [m0|].
    + pose proof (Rmin_l m0 (elapsed t)). pose proof (Rmin_r m0 (elapsed t)). split; [lra|]. split.
      * destruct H2 as [->|H2]; [|right; right; exact H2]. unfold Rmin. destruct (Rle_dec m0 (elapsed t)); [left; reflexivity|right; left; reflexivity].
      * intros x [<-|Hin]; [lra|apply H3, Hin].
    + split; [destruct H2 as [->|H2]; [left; reflexivity|right; exact H2]|]. intros x [<-|Hin]; [lra|apply H3, Hin].
Qed.
Lemma update_entry_describes e : e_timings e <> [] -> describes (e_stats (update_entry e)) (map elapsed (e_timings e)).
Proof.
  intros HN. unfold update_entry. cbn [e_stats]. set (l := e_timings e) in *. destruct (fold_stats l (mks None 0 0 0)) as (Ha & Hd & Hx & Hm & Hi & Hn).
  set (s := fold_left step_stats l (mks None 0 0 0)) in *. clearbody s. cbn [s_avg s_dev s_max s_min] in *.
  assert (N0 : 0 < INR (length l)) by (apply lt_0_INR; destruct l; [contradiction|cbn; lia]).
  unfold describes. cbn [s_avg s_dev s_max s_min]. rewrite map_length. set (n := INR (length l)) in *.
  split. { destruct (s_min s) as [m|]; [|contradiction]. exists m. tauto. }
  split; [exact Hx|]. split. { destruct Hi as [->|Hi]; [left; reflexivity|right; exact Hi]. }
  split; [rewrite Ha; field; lra|]. split; [apply sqrt_pos|].
  set (avg := s_avg s / n). assert (V : s_dev s / n - avg * avg = total (map (fun x => (x - avg) * (x - avg)) (map elapsed l)) / n).
  { rewrite total_sq, map_length. fold n. rewrite Hd. assert (total (map elapsed l) = n * avg) by (unfold avg; rewrite Ha; field; lra). rewrite H. field. lra. }
  rewrite sqrt_sqrt.
  - rewrite V. field. lra.
  - rewrite V. apply Rmult_le_pos; [apply total_sq_nonneg|]. left. apply Rinv_0_lt_compat, N0.
Qed.

(** ** The state after a history *)
Lemma look_fst get r hist : forall st, fst (fold_left (look get r) hist st) = (fst st + count_runs hist)%nat.
Proof.
  induction hist as [|o l IH]; intros st; cbn; [unfold count_runs; cbn; lia|]. rewrite IH. cbn. unfold count_runs. cbn. destruct (is_end_run o); cbn; lia.
Qed.
Lemma recorded_snoc get r hist o : recorded get r (hist ++ [o]) = if (count_runs hist =? r)%nat then match get o with Some t => t | None => recorded get r hist end else recorded get r hist.
Proof. unfold recorded. rewrite fold_left_app. cbn. rewrite look_fst. cbn. reflexivity. Qed.
Lemma count_snoc hist o : count_runs (hist ++ [o]) = (count_runs hist + if is_end_run o then 1 else 0)%nat.
Proof. unfold count_runs. rewrite filter_app, app_length. cbn. destruct (is_end_run o); reflexivity. Qed.

Definition timings (s e : op -> option R) (m : nat) (hist : list op) : list timing := map (fun r => mkt (recorded s r hist) (recorded e r hist)) (seq 0 m).
Lemma timings_length s e m hist : length (timings s e m hist) = m.
Proof. unfold timings. rewrite map_length. apply seq_length. Qed.
Lemma timings_nth s e m hist r : (r < m)%nat -> nth_error (timings s e m hist) r = Some (mkt (recorded s r hist) (recorded e r hist)).
Proof. intros H. unfold timings. rewrite nth_error_map. rewrite (nth_error_nth' _ 0%nat) by (rewrite seq_length; exact H). rewrite seq_nth by exact H. reflexivity. Qed.
Lemma timings_nth_none s e m hist r : (m <= r)%nat -> nth_error (timings s e m hist) r = None.
Proof. intros H. apply nth_error_None. rewrite timings_length. exact H. Qed.
Lemma nth_error_ext' {X} (l l' : list X) : (forall r, nth_error l r = nth_error l' r) -> l = l'.
Proof.
  revert l'. induction l as [|x l IH]; intros [|y l'] H; [reflexivity|discriminate (H 0%nat)|discriminate (H 0%nat)|].
  pose proof (H 0%nat) as H0. cbn in H0. injection H0 as <-. f_equal. apply IH. intros r. exact (H (S r)).
Qed.
Lemma replace_nth {X} (l : list X) (r : nat) (y : X) : (r < length l)%nat -> forall q, nth_error (firstn r l ++ y :: skipn (S r) l) q = if (q =? r)%nat then Some y else nth_error l q.
Proof.
  revert r. induction l as [|x l IH]; intros r Hr q; cbn in Hr; [lia|]. destruct r as [|r]; cbn [firstn app skipn].
  - destruct q; reflexivity.
  - destruct q as [|q]; [reflexivity|]. cbn [nth_error]. rewrite IH by lia. reflexivity.
Qed.
Lemma ok_inj {X} (a b : X) : Ok a = Ok b -> a = b. Proof. congruence. Qed.
Lemma set_start_spec s e m hist o now l' :
  s o = Some now -> e o = None ->
  set_start (timings s e m hist) (count_runs hist) now = Ok l' -> l' = timings s e m (hist ++ [o]) /\ (count_runs hist < m)%nat.
Proof.
  intros Hs He H. unfold set_start in H. destruct (Nat.lt_ge_cases (count_runs hist) m) as [L|L].
  2:{ rewrite timings_nth_none in H by exact L. discriminate. }
  rewrite timings_nth in H by exact L. apply ok_inj in H. subst l'. split; [|exact L]. apply nth_error_ext'. intros q. rewrite replace_nth by (rewrite timings_length; exact L).
  destruct (Nat.lt_ge_cases q m) as [Lq|Lq].
  - rewrite !timings_nth by exact Lq. rewrite !recorded_snoc, Hs, He. rewrite (Nat.eqb_sym q). destruct (Nat.eqb_spec (count_runs hist) q) as [<-|_]; cbn; reflexivity.
  - rewrite !timings_nth_none by exact Lq. destruct (Nat.eqb_spec q (count_runs hist)); [lia|reflexivity].
Qed.
Lemma set_end_spec s e m hist o now l' :
  s o = None -> e o = Some now ->
  set_end (timings s e m hist) (count_runs hist) now = Ok l' -> l' = timings s e m (hist ++ [o]) /\ (count_runs hist < m)%nat.
Proof.
  intros Hs He H. unfold set_end in H. destruct (Nat.lt_ge_cases (count_runs hist) m) as [L|L].
  2:{ rewrite timings_nth_none in H by exact L. discriminate. }
  rewrite timings_nth in H by exact L. apply ok_inj in H. subst l'. split; [|exact L]. apply nth_error_ext'. intros q. rewrite replace_nth by (rewrite timings_length; exact L).
  destruct (Nat.lt_ge_cases q m) as [Lq|Lq].
  - rewrite !timings_nth by exact Lq. rewrite !recorded_snoc, Hs, He. rewrite (Nat.eqb_sym q). destruct (Nat.eqb_spec (count_runs hist) q) as [<-|_]; cbn; reflexivity.
  - rewrite !timings_nth_none by exact Lq. destruct (Nat.eqb_spec q (count_runs hist)); [lia|reflexivity].
Qed.
Lemma timings_same s e m hist o : s o = None -> e o = None -> timings s e m (hist ++ [o]) = timings s e m hist.
Proof. intros Hs He. unfold timings. apply map_ext. intros r. rewrite !recorded_snoc, Hs, He. destruct (count_runs hist =? r)%nat; reflexivity. Qed.
Lemma timings_zero s e m hist : (forall o, In o hist -> s o = None /\ e o = None) -> timings s e m hist = zeros m.
Proof.
  intros H. unfold timings, zeros. assert (E : forall get, (forall o, In o hist -> get o = None) -> forall r, recorded get r hist = 0).
  { intros get Hg r. unfold recorded. assert (Q : forall l st, (forall o, In o l -> get o = None) -> snd (fold_left (look get r) l st) = snd st).
    { induction l as [|o l IH]; intros st Hl; [reflexivity|]. cbn. rewrite IH by (intros p Hp; apply Hl; right; exact Hp). cbn. rewrite (Hl o (or_introl eq_refl)). destruct (fst st =? r)%nat; reflexivity. }
    rewrite Q by exact Hg. reflexivity. }
  rewrite (map_ext_in _ (fun _ => mkt 0 0)).
  - clear. generalize 0%nat. induction m as [|m IH]; intros a; [reflexivity|]. cbn. rewrite IH. reflexivity.
  - intros r _. rewrite !E by (intros o Ho; apply H, Ho). reflexivity.
Qed.

Record inv (m : nat) (hist : list op) (h : helper) : Prop := {
  i_run : h_run h = count_runs hist;
  i_max : h_max h = m;
  i_total : e_timings (h_total h) = timings run_start run_end m hist;
  i_task : forall k e, h_tasks h k = Some e -> e_timings e = timings (task_start k) (task_end k) m hist /\ started k hist;
  i_none : forall k, h_tasks h k = None -> forall o, In o hist -> task_start k o = None /\ task_end k o = None;
  i_fresh : h_stale h = false -> forall k e, h_tasks h k = Some e -> exists e0, e = update_entry e0 }.
Lemma started_snoc k hist o : started k hist -> started k (hist ++ [o]).
Proof. intros (t & H). exists t. apply in_or_app. left. exact H. Qed.
Lemma update_entry_timings e : e_timings (update_entry e) = e_timings e. Proof. reflexivity. Qed.

Lemma step_inv m hist h o h' : inv m hist h -> step h o = Ok h' -> inv m (hist ++ [o]) h'.
Proof.
  intros I H. destruct I as [Ir Im It Ik In0 If]. destruct o as [now|now|k now|k now|]; cbn [step] in H.
  - destruct (h_max h <=? h_run h)%nat; [discriminate|]. rewrite It, Ir in H. destruct (set_start _ _ _) as [l| |] eqn:E; try discriminate. cbn in H. injection H as <-.
    destruct (set_start_spec run_start run_end m hist (StartRun now) now l eq_refl eq_refl E) as [-> _]. split; cbn.
    + rewrite count_snoc. cbn. lia.
    + exact Im.
    + reflexivity.
    + intros k e He. destruct (Ik k e He) as [Q S]. split; [|apply started_snoc, S]. rewrite timings_same by reflexivity. exact Q.
    + intros k Hk o Ho. apply in_app_or in Ho. destruct Ho as [Ho|[<-|[]]]; [apply (In0 k Hk o Ho)|split; reflexivity].
    + discriminate.
  - rewrite It, Ir in H. destruct (set_end _ _ _) as [l| |] eqn:E; try discriminate. cbn in H. injection H as <-.
    destruct (set_end_spec run_start run_end m hist (EndRun now) now l eq_refl eq_refl E) as [-> _]. split; cbn.
    + rewrite count_snoc. cbn. lia.
    + exact Im.
    + reflexivity.
    + intros k e He. destruct (Ik k e He) as [Q S]. split; [|apply started_snoc, S]. rewrite timings_same by reflexivity. exact Q.
    + intros k Hk o Ho. apply in_app_or in Ho. destruct Ho as [Ho|[<-|[]]]; [apply (In0 k Hk o Ho)|split; reflexivity].
    + exact If.
  - set (e0 := match h_tasks h k with Some e => e | None => mke (zeros (h_max h)) junk end) in *.
    assert (Q0 : e_timings e0 = timings (task_start k) (task_end k) m hist).
    { unfold e0. destruct (h_tasks h k) as [e|] eqn:E; [apply (Ik k e E)|]. cbn. rewrite Im. symmetry. apply timings_zero. apply In0, E. }
    rewrite Q0, Ir in H. destruct (set_start _ _ _) as [l| |] eqn:E; try discriminate. cbn in H. injection H as <-.
    destruct (set_start_spec (task_start k) (task_end k) m hist (Start k now) now l) as [-> _]; [cbn; rewrite Nat.eqb_refl; reflexivity|reflexivity|exact E|].
    split; cbn.
    + rewrite count_snoc. cbn. lia.
    + exact Im.
    + rewrite timings_same by reflexivity. exact It.
    + intros j e. unfold put. destruct (Nat.eqb_spec j k) as [->|Hne].
      * intros [= <-]. cbn. split; [reflexivity|]. exists now. apply in_or_app. right. left. reflexivity.
      * intros He. destruct (Ik j e He) as [Q S]. split; [|apply started_snoc, S]. rewrite timings_same; [exact Q| |reflexivity]. cbn. destruct (Nat.eqb_spec k j); [congruence|reflexivity].
    + intros j. unfold put. destruct (Nat.eqb_spec j k) as [->|Hne]; [discriminate|]. intros Hj o Ho. apply in_app_or in Ho. destruct Ho as [Ho|[<-|[]]]; [apply (In0 j Hj o Ho)|]. cbn. destruct (Nat.eqb_spec k j); [congruence|split; reflexivity].
    + discriminate.
  - destruct (h_tasks h k) as [e0|] eqn:E0.
    2:{ cbn in H. unfold set_end in H. destruct (h_run h); cbn in H; discriminate. }
    destruct (Ik k e0 E0) as [Q0 S0]. rewrite Q0, Ir in H. destruct (set_end _ _ _) as [l| |] eqn:E; try discriminate. cbn in H. injection H as <-.
    destruct (set_end_spec (task_start k) (task_end k) m hist (End k now) now l) as [-> _]; [reflexivity|cbn; rewrite Nat.eqb_refl; reflexivity|exact E|].
    split; cbn.
    + rewrite count_snoc. cbn. lia.
    + exact Im.
    + rewrite timings_same by reflexivity. exact It.
    + intros j e. unfold put. destruct (Nat.eqb_spec j k) as [->|Hne].
      * intros [= <-]. cbn. split; [reflexivity|]. apply started_snoc, S0.
      * intros He. destruct (Ik j e He) as [Q S]. split; [|apply started_snoc, S]. rewrite timings_same; [exact Q|reflexivity|]. cbn. destruct (Nat.eqb_spec k j); [congruence|reflexivity].
    + intros j. unfold put. destruct (Nat.eqb_spec j k) as [->|Hne]; [discriminate|]. intros Hj o Ho. apply in_app_or in Ho. destruct Ho as [Ho|[<-|[]]]; [apply (In0 j Hj o Ho)|]. cbn. destruct (Nat.eqb_spec k j); [congruence|split; reflexivity].
    + discriminate.
  - injection H as <-. assert (C : count_runs (hist ++ [Print]) = count_runs hist) by (rewrite count_snoc; cbn; lia). destruct (h_stale h) eqn:ES; split; cbn; try exact Im; try (rewrite C; exact Ir); try (rewrite timings_same by reflexivity; exact It).
    + intros k e He. destruct (h_tasks h k) as [e1|] eqn:E1; [|discriminate]. cbn in He. injection He as <-. destruct (Ik k e1 E1) as [Q S]. split; [|apply started_snoc, S]. rewrite timings_same by reflexivity. exact Q.
    + intros k Hk o Ho. destruct (h_tasks h k) as [e1|] eqn:E1; [discriminate|]. apply in_app_or in Ho. destruct Ho as [Ho|[<-|[]]]; [apply (In0 k E1 o Ho)|split; reflexivity].
    + intros _ k e He. destruct (h_tasks h k) as [e1|]; [|discriminate]. cbn in He. injection He as <-. exists e1. reflexivity.
    + intros k e He. destruct (Ik k e He) as [Q S]. split; [|apply started_snoc, S]. rewrite timings_same by reflexivity. exact Q.
    + intros k Hk o Ho. apply in_app_or in Ho. destruct Ho as [Ho|[<-|[]]]; [apply (In0 k Hk o Ho)|split; reflexivity].
    + intros _ k e He. apply (If eq_refl k e He).
Qed.
Lemma fresh_inv m : inv m [] (fresh m).
Proof.
  split; cbn; try reflexivity; try discriminate.
  - rewrite timings_zero; [reflexivity|intros o []].
  - intros k _ o [].
Qed.
Lemma run_snoc m hist o : run m (hist ++ [o]) = bind (run m hist) (fun h => step h o).
Proof. unfold run. rewrite foldM_app. destruct (foldM step hist (fresh m)) as [h1| |]; cbn; try reflexivity. destruct (step h1 o); reflexivity. Qed.
Lemma run_inv m hist : forall h, run m hist = Ok h -> inv m hist h.
Proof.
  induction hist as [|o hist IH] using rev_ind; intros h H; [cbn in H; injection H as <-; apply fresh_inv|].
  rewrite run_snoc in H. destruct (run m hist) as [h0| |]; try discriminate. cbn in H. apply (step_inv m hist h0); [apply IH; reflexivity|exact H].
Qed.

Lemma durations_elapsed s e m hist : map elapsed (timings s e m hist) = map (fun r => recorded e r hist - recorded s r hist) (seq 0 m).
Proof. unfold timings. rewrite map_map. reflexivity. Qed.
Lemma timings_nonempty s e m hist : (0 < m)%nat -> timings s e m hist <> [].
Proof. intros H E. apply (f_equal (@length _)) in E. rewrite timings_length in E. cbn in E. lia. Qed.

(** ** C157: what is printed describes the recorded durations *)
(** For tasks, whatever the history: exactly the tasks started are listed, with the statistics of their
    durations in all runs. *)
Theorem c157_tasks m hist h k : (0 < m)%nat -> run m (hist ++ [Print]) = Ok h ->
  match h_tasks h k with
  | Some e => started k hist /\ map elapsed (e_timings e) = task_durations k m hist /\ describes (e_stats e) (task_durations k m hist)
  | None => ~ started k hist
  end.
Proof.
  intros Hm H. pose proof (run_inv m _ h H) as I. assert (ST : h_stale h = false).
  { rewrite run_snoc in H. destruct (run m hist) as [h0| |]; try discriminate. cbn in H. injection H as <-. destruct (h_stale h0) eqn:E; [reflexivity|exact E]. }
  destruct (h_tasks h k) as [e|] eqn:E.
  - destruct (i_task _ _ _ I k e E) as [Q (t & S)]. rewrite timings_same in Q by reflexivity. split.
    { apply in_app_or in S. destruct S as [S|[S|[]]]; [exists t; exact S|discriminate]. }
    assert (D : map elapsed (e_timings e) = task_durations k m hist) by (rewrite Q; apply durations_elapsed). split; [exact D|]. rewrite <- D.
    destruct (i_fresh _ _ _ I ST k e E) as (e0 & ->). rewrite update_entry_timings in *. apply update_entry_describes. rewrite Q. apply timings_nonempty, Hm.
  - intros (t & S). destruct (i_none _ _ _ I k E (Start k t)) as [F _]; [apply in_or_app; left; exact S|]. cbn in F. rewrite Nat.eqb_refl in F. discriminate.
Qed.
Print Assumptions c157_tasks.

(** For the runs, if nothing is printed during a run. *)
Definition tidy (h : helper) : Prop := h_stale h = false -> exists e0, h_total h = update_entry e0.
Lemma run_app m a b : run m (a ++ b) = bind (run m a) (fun h => foldM step b h).
Proof. unfold run. apply foldM_app. Qed.
Lemma foldM_app' (l l' : list op) h : foldM step (l ++ l') h = bind (foldM step l h) (fun h' => foldM step l' h'). Proof. apply foldM_app. Qed.
Lemma body_stale body : Forall (fun o => match o with Start _ _ | End _ _ => True | _ => False end) body -> forall h h', h_stale h = true -> foldM step body h = Ok h' -> h_stale h' = true.
Proof.
  induction 1 as [|o body Ho _ IH]; intros h h' Hs H; cbn in H; [injection H as <-; exact Hs|]. destruct (step h o) as [h1| |] eqn:E; try discriminate. cbn in H.
  apply (IH h1 h'); [|exact H]. destruct o as [now|now|k now|k now|]; try contradiction; cbn [step] in E.
  - destruct (set_start _ _ _); try discriminate. cbn in E. injection E as <-. reflexivity.
  - destruct (set_end _ _ _); try discriminate. cbn in E. injection E as <-. reflexivity.
Qed.
Lemma items_tidy items : Forall item items -> forall h h', tidy h -> foldM step (concat items) h = Ok h' -> tidy h'.
Proof.
  induction 1 as [|it items Hi _ IH]; intros h h' Ht H; cbn [concat] in H; [cbn in H; injection H as <-; exact Ht|].
  rewrite foldM_app' in H. destruct (foldM step it h) as [h1| |] eqn:E; try discriminate. cbn [bind] in H. apply (IH h1 h'); [|exact H]. clear IH H.
  destruct Hi as [|t0 t1 body Hb].
  - cbn in E. injection E as <-. intros _. destruct (h_stale h) eqn:ES; [exists (h_total h); reflexivity|apply Ht, ES].
  - cbn [foldM app] in E. destruct (step h (StartRun t0)) as [h2| |] eqn:E2; try discriminate. cbn [bind] in E. rewrite foldM_app' in E. destruct (foldM step body h2) as [h3| |] eqn:E3; try discriminate. cbn [bind foldM] in E.
    assert (S3 : h_stale h3 = true).
    { apply (body_stale body Hb h2); [|exact E3]. cbn [step] in E2. destruct (h_max h <=? h_run h)%nat; [discriminate|]. destruct (set_start _ _ _); try discriminate. cbn in E2. injection E2 as <-. reflexivity. }
    cbn [step] in E. destruct (set_end _ _ _); try discriminate. cbn in E. injection E as <-. intros Hs. cbn in Hs. congruence.
Qed.
Theorem c157_runs m items h : (0 < m)%nat -> Forall item items -> run m (concat items ++ [Print]) = Ok h ->
  map elapsed (e_timings (h_total h)) = run_durations m (concat items) /\ describes (e_stats (h_total h)) (run_durations m (concat items)).
Proof.
  intros Hm Hi H. pose proof (run_inv m _ h H) as I. assert (Q := i_total _ _ _ I). rewrite timings_same in Q by reflexivity.
  assert (D : map elapsed (e_timings (h_total h)) = run_durations m (concat items)) by (rewrite Q; apply durations_elapsed). split; [exact D|]. rewrite <- D.
  rewrite run_app in H. destruct (run m (concat items)) as [h0| |] eqn:E; try discriminate. cbn [bind foldM step] in H. injection H as <-.
  assert (T : tidy h0). { apply (items_tidy items Hi (fresh m) h0); [intros F; discriminate F|exact E]. }
  assert (U : exists e0, h_total (if h_stale h0 then update_statistics h0 else h0) = update_entry e0).
  { destruct (h_stale h0) eqn:ES; [exists (h_total h0); reflexivity|apply T, ES]. }
  destruct U as (e0 & U). rewrite U in *. rewrite update_entry_timings in *. apply update_entry_describes. rewrite Q. apply timings_nonempty, Hm.
Qed.
Print Assumptions c157_runs.

(** Correct use never fails: at most the announced number of runs, and tasks are ended after they were started. *)
Lemma step_ok m hist h o : inv m hist h -> (count_runs hist < m)%nat \/ o = Print -> match o with End k _ => started k hist | _ => True end -> exists h', step h o = Ok h'.
Proof.
  intros I HC HS. destruct I as [Ir Im It Ik In0 If].
  assert (OK : forall s e now, (count_runs hist < m)%nat -> (exists l, set_start (timings s e m hist) (count_runs hist) now = Ok l) /\ (exists l, set_end (timings s e m hist) (count_runs hist) now = Ok l)).
  { intros s e now L. unfold set_start, set_end. rewrite timings_nth by exact L. split; eexists; reflexivity. }
  destruct o as [now|now|k now|k now|]; cbn [step].
  - destruct HC as [HC|HC]; [|discriminate]. rewrite Im, Ir, It. destruct (Nat.leb_spec m (count_runs hist)); [lia|]. destruct (OK run_start run_end now HC) as [(l & ->) _]. cbn. eexists. reflexivity.
  - destruct HC as [HC|HC]; [|discriminate]. rewrite Ir, It. destruct (OK run_start run_end now HC) as [_ (l & ->)]. cbn. eexists. reflexivity.
  - destruct HC as [HC|HC]; [|discriminate]. rewrite Ir. set (e0 := match h_tasks h k with Some e => e | None => mke (zeros (h_max h)) junk end).
    assert (Q0 : e_timings e0 = timings (task_start k) (task_end k) m hist).
    { unfold e0. destruct (h_tasks h k) as [e|] eqn:E; [apply (Ik k e E)|]. cbn. rewrite Im. symmetry. apply timings_zero. apply In0, E. }
    rewrite Q0. destruct (OK (task_start k) (task_end k) now HC) as [(l & ->) _]. cbn. eexists. reflexivity.
  - destruct HC as [HC|HC]; [|discriminate]. rewrite Ir. destruct (h_tasks h k) as [e|] eqn:E.
    + destruct (Ik k e E) as [-> _]. destruct (OK (task_start k) (task_end k) now HC) as [_ (l & ->)]. cbn. eexists. reflexivity.
    + destruct HS as (t & HS). destruct (In0 k E _ HS) as [F _]. cbn in F. rewrite Nat.eqb_refl in F. discriminate.
  - eexists. reflexivity.
Qed.
Lemma history_ok m hist : ends_after_start hist -> (forall pre o post, hist = pre ++ o :: post -> (count_runs pre < m)%nat \/ o = Print) -> exists h, run m hist = Ok h.
Proof.
  induction hist as [|o hist IH] using rev_ind; intros HE HC; [eexists; reflexivity|]. destruct IH as (h & H).
  - intros pre k t post ->. apply (HE pre k t (post ++ [o])). rewrite <- app_assoc. reflexivity.
  - intros pre o' post ->. apply (HC pre o' (post ++ [o])). rewrite <- app_assoc. reflexivity.
  - rewrite run_snoc, H. cbn. apply (step_ok m hist); [apply run_inv, H|apply (HC hist o []); reflexivity|]. destruct o; try exact I. apply (HE hist task now []). reflexivity.
Qed.
(** The number of runs among the items. *)
Lemma item_calls it : item it -> forall pre o post, it = pre ++ o :: post -> o = Print \/ (count_runs it = 1%nat /\ count_runs pre = 0%nat).
Proof.
  intros [|t0 t1 body Hb] pre o post E.
  - destruct pre as [|p pre]; cbn in E; [injection E as <- _; left; reflexivity|]. injection E as _ E. destruct pre; discriminate.
  - assert (B : filter is_end_run body = []). { clear - Hb. induction Hb as [|x l Hx _ IH]; [reflexivity|]. cbn. destruct x; try contradiction; exact IH. }
    right. split.
    { unfold count_runs. cbn. rewrite filter_app, B. reflexivity. }
    assert (P : exists q, StartRun t0 :: body = pre ++ q).
    { destruct (exists_last (l := o :: post) ltac:(discriminate)) as (q & z & Q). rewrite Q in E. rewrite app_assoc in E. change (StartRun t0 :: body ++ [EndRun t1]) with ((StartRun t0 :: body) ++ [EndRun t1]) in E. apply app_inj_tail in E. exists q. tauto. }
    destruct P as (q & P). assert (F : filter is_end_run (pre ++ q) = []) by (rewrite <- P; cbn; exact B). rewrite filter_app in F. apply app_eq_nil in F. unfold count_runs. rewrite (proj1 F). reflexivity.
Qed.
Lemma count_app a b : count_runs (a ++ b) = (count_runs a + count_runs b)%nat.
Proof. unfold count_runs. rewrite filter_app, app_length. reflexivity. Qed.
Lemma items_calls items : Forall item items -> forall pre o post, concat items = pre ++ o :: post -> o = Print \/ (count_runs pre < count_runs (concat items))%nat.
Proof.
  induction 1 as [|it items Hi _ IH]; intros pre o post E; cbn [concat] in *; [destruct pre; discriminate|].
  rewrite count_app. destruct (Nat.lt_ge_cases (length pre) (length it)) as [L|L].
  - assert (P : it = pre ++ o :: skipn (S (length pre)) it).
    { assert (F : firstn (length pre) it = pre). { transitivity (firstn (length pre) (it ++ concat items)); [rewrite firstn_app; replace (length pre - length it)%nat with 0%nat by lia; cbn; rewrite app_nil_r; reflexivity|]. rewrite E, firstn_app, firstn_all, Nat.sub_diag. cbn. apply app_nil_r. }
      assert (N : nth_error it (length pre) = Some o). { transitivity (nth_error (it ++ concat items) (length pre)); [symmetry; apply nth_error_app1, L|]. rewrite E, nth_error_app2, Nat.sub_diag by lia. reflexivity. }
      rewrite <- F at 1. clear - N. revert N. generalize (length pre). intros n. revert n. induction it as [|x l IH]; intros [|n] N; try discriminate; cbn in *; [injection N as ->; reflexivity|]. f_equal. apply IH, N. }
    destruct (item_calls it Hi pre o _ P) as [->|[C0 C1]]; [left; reflexivity|right; lia].
  - assert (P : exists q, pre = it ++ q /\ concat items = q ++ o :: post).
    { exists (skipn (length it) pre). assert (F : firstn (length it) pre = it). { transitivity (firstn (length it) (pre ++ o :: post)); [rewrite firstn_app; replace (length it - length pre)%nat with 0%nat by lia; cbn; rewrite app_nil_r; reflexivity|]. rewrite <- E, firstn_app, firstn_all, Nat.sub_diag. cbn. apply app_nil_r. }
      split; [rewrite <- F at 1; symmetry; apply firstn_skipn|]. rewrite <- (firstn_skipn (length it) pre), F, <- app_assoc in E. apply app_inv_head in E. exact E. }
    destruct P as (q & -> & P). destruct (IH q o post P) as [->|C]; [left; reflexivity|right]. rewrite count_app. lia.
Qed.
Theorem c157_no_failure m items : Forall item items -> (count_runs (concat items) <= m)%nat -> ends_after_start (concat items) -> exists h, run m (concat items) = Ok h.
Proof.
  intros Hi HC HE. apply history_ok; [exact HE|]. intros pre o post E. destruct (items_calls items Hi pre o post E) as [->|C]; [right; reflexivity|left; lia].
Qed.
Print Assumptions c157_no_failure.
(** A further run is refused. *)
Theorem c157_further_run m hist h t : run m hist = Ok h -> (m <= count_runs hist)%nat -> run m (hist ++ [StartRun t]) = Throw.
Proof.
  intros H C. rewrite run_snoc, H. cbn. destruct (run_inv m hist h H) as [Ir Im _ _ _ _]. rewrite Ir, Im. destruct (Nat.leb_spec m (count_runs hist)); [reflexivity|lia].
Qed.
Print Assumptions c157_further_run.

(** Two runs of one task. *)
Definition two_runs : list (list op) := [[StartRun 0; Start 5 1; End 5 2; EndRun 3]; [StartRun 3; Start 5 4; End 5 7; EndRun 8]].
Lemma two_items : Forall item two_runs.
Proof.
  constructor; [|constructor; [|constructor]].
  - apply (item_run 0 3 [Start 5 1; End 5 2]). repeat constructor.
  - apply (item_run 3 8 [Start 5 4; End 5 7]). repeat constructor.
Qed.
Ltac go := unfold run, fresh; cbv [two_runs concat app foldM step bind set_start set_end nth_error firstn skipn h_max h_run h_tasks h_stale h_total e_timings e_stats Nat.leb Nat.eqb put t_start t_end repeat zeros update_statistics]; reflexivity.
Example c157_example : exists h e, run 2 (concat two_runs ++ [Print]) = Ok h /\ h_tasks h 5%nat = Some e /\
  task_durations 5 2 (concat two_runs) = [2 - 1; 7 - 4] /\ run_durations 2 (concat two_runs) = [3 - 0; 8 - 3] /\ s_avg (e_stats e) = 2 /\ s_dev (e_stats e) = 1.
Proof.
  eexists. eexists. split; [go|]. split; [cbv [h_tasks put Nat.eqb option_map]; reflexivity|]. split; [reflexivity|]. split; [reflexivity|].
  unfold update_entry, step_stats, elapsed; cbn. split; [lra|]. match goal with |- sqrt ?x = _ => replace x with (1 * 1) by lra end. apply sqrt_square. lra.
Qed.
Example c157_no_failure_example : exists h, run 2 (concat two_runs) = Ok h.
Proof.
  apply c157_no_failure; [exact two_items|cbn; lia|]. intros pre k t post E. exists 1.
  destruct pre as [|p0 [|p1 [|p2 [|p3 [|p4 [|p5 [|p6 [|p7 pre]]]]]]]]; cbn in E; try discriminate E; inversion E; subst; cbn; auto. destruct pre; discriminate.
Qed.

(** Printing before all announced runs are done counts the missing ones as runs of duration zero. *)
Theorem c157_missing_runs_refuted : exists m hist h, run m (hist ++ [Print]) = Ok h /\ count_runs hist = 1%nat /\
  nth 0 (run_durations m hist) 0 = 4 /\ s_min (e_stats (h_total h)) = Some 0 /\ s_avg (e_stats (h_total h)) = 2.
Proof.
  exists 2%nat, [StartRun 0; EndRun 4]. eexists. split; [go|]. split; [reflexivity|]. split; [cbn; lra|]. unfold update_entry, step_stats, elapsed; cbn. split; [|lra]. f_equal. unfold Rmin. destruct (Rle_dec (4 - 0) (0 - 0)); lra.
Qed.
Print Assumptions c157_missing_runs_refuted.
(** After printing during a run, the statistics of the runs printed later miss the end of that run. *)
Theorem c157_print_in_run_refuted : exists m hist h, run m (hist ++ [Print]) = Ok h /\
  map elapsed (e_timings (h_total h)) = [4 - 0] /\ s_avg (e_stats (h_total h)) = 0 /\ s_max (e_stats (h_total h)) = 0.
Proof.
  exists 1%nat, [StartRun 0; Print; EndRun 4]. eexists. split; [go|]. split; [reflexivity|]. unfold update_entry, step_stats, elapsed; cbn. split; [lra|]. unfold Rmax. destruct (Rle_dec 0 (0 - 0)); lra.
Qed.
Print Assumptions c157_print_in_run_refuted.
(** Ending a task that was never started, or timing a task after the last run, is undefined instead of refused. *)
Theorem c157_misuse_refuted : run 1 [StartRun 0; End 5 1] = UB /\ run 1 [StartRun 0; EndRun 1; Start 5 2] = UB /\ run 1 [StartRun 0; EndRun 1; EndRun 2] = UB.
Proof. split; [|split]; go. Qed.
Print Assumptions c157_misuse_refuted.
Local Close Scope R_scope.

(** ** C158: log tags *)
Lemma nested_run dflt l : forall depth pre base cur, length pre = depth -> nested depth l = true ->
  exists cur', foldM (perform dflt) l (mkw cur (pre ++ base)) = Ok (mkw cur' base).
Proof.
  induction l as [|a l IH]; intros depth pre base cur HL HN; cbn in HN.
  - apply Nat.eqb_eq in HN. destruct pre; [|cbn in HL; lia]. exists cur. reflexivity.
  - destruct a as [f|f|]; cbn [foldM perform bind w_current w_objects].
    + apply (IH depth); assumption.
    + change (cur :: pre ++ base) with ((cur :: pre) ++ base). apply (IH (S depth)); [cbn; lia|exact HN].
    + destruct depth as [|d]; [discriminate|]. destruct pre as [|p pre]; [discriminate HL|]. cbn [app]. apply (IH d); [cbn in HL; lia|exact HN].
Qed.
(** Inside the scope of a temporary formatter it is in use; when the scope ends the one before is in use again,
    whatever happened inside: further scopes and permanent changes. *)
Theorem c158_scope dflt f l w : nested 0 l = true ->
  (exists w1, perform dflt w (Enter f) = Ok w1 /\ w_current w1 = f) /\ foldM (perform dflt) (Enter f :: l ++ [Leave]) w = Ok w.
Proof.
  intros HN. split; [eexists; split; reflexivity|]. destruct w as [cur objs]. cbn [foldM perform bind w_current w_objects]. rewrite foldM_app.
  destruct (nested_run dflt l 0 [] (cur :: objs) f eq_refl HN) as (cur' & E). cbn [app] in E. rewrite E. reflexivity.
Qed.
Print Assumptions c158_scope.
Example c158_scope_example : nested 0 [SetFormatter None; Enter (fun s => s); SetFormatter (Some (fun s => s)); Leave; Enter (fun s => s); Leave] = true.
Proof. reflexivity. Qed.
(** A null formatter selects the one in use at startup. *)
Theorem c158_default dflt w : exists w', perform dflt w (SetFormatter None) = Ok w' /\ w_current w' = dflt.
Proof. eexists. split; reflexivity. Qed.
Print Assumptions c158_default.
(** Writing a tag appends what the formatter appends, and keeps flags, precision and width of the stream. *)
Theorem c158_stream w s tag : st_text (w_current w s) = (st_text s ++ tag)%string ->
  st_flags (logtag w s) = st_flags s /\ st_prec (logtag w s) = st_prec s /\ st_width (logtag w s) = st_width s /\ st_text (logtag w s) = (st_text s ++ tag)%string.
Proof. intros H. cbn. auto. Qed.
Print Assumptions c158_stream.
Example c158_stream_example : logtag (mkw (fun s => mkst 7 8 9 (st_fill s) (st_text s ++ "[tag] ")) []) (mkst 1 2 3 " " "a") = mkst 1 2 3 " " "a[tag] ".
Proof. reflexivity. Qed.
(** A local tag is the log tag followed by its pieces in order. *)
Lemma append_assoc a b c : ((a ++ b) ++ c = a ++ (b ++ c))%string.
Proof. induction a as [|x a IH]; cbn; [reflexivity|]. rewrite IH. reflexivity. Qed.
Theorem c158_local w s pieces more : 
  let tag := fold_left tag_add pieces EmptyString in
  st_text (write_tag w tag s) = (st_text (logtag w s) ++ String.concat EmptyString pieces)%string /\
  fold_left tag_add more tag = (tag ++ String.concat EmptyString more)%string.
Proof.
  assert (G : forall l acc, fold_left tag_add l acc = (acc ++ String.concat EmptyString l)%string).
  { induction l as [|p l IH]; intros acc; cbn [fold_left].
    - cbn. clear. induction acc as [|x a IH]; cbn; [reflexivity|]. rewrite <- IH. reflexivity.
    - rewrite IH. unfold tag_add. rewrite append_assoc. f_equal. destruct l as [|q l]; [cbn; clear; induction p as [|x a IH]; cbn; [reflexivity|rewrite IH; reflexivity]|reflexivity]. }
  cbv zeta. split; [|apply G]. cbn. rewrite G. reflexivity.
Qed.
Print Assumptions c158_local.

(** After the setup on all ranks, tags have the same length everywhere, as long as the times fit their columns. *)
Lemma digits_fuel_mono f : forall f' a b, a <= f -> b <= f' -> a <= b -> digits_fuel f a <= digits_fuel f' b.
Proof.
  induction f as [|f IH]; intros f' a b Ha Hb Hab; cbn [digits_fuel].
  - destruct f'; cbn [digits_fuel]; [lia|]. destruct (b <? 10); lia.
  - destruct (Nat.ltb_spec a 10) as [L|L].
    + destruct f'; cbn [digits_fuel]; [lia|]. destruct (b <? 10); lia.
    + destruct f' as [|f']; [lia|]. cbn [digits_fuel]. destruct (Nat.ltb_spec b 10); [lia|].
      assert (a / 10 <= b / 10) by (apply Nat.div_le_mono; lia). assert (b / 10 < b) by (apply Nat.div_lt; lia). assert (a / 10 < a) by (apply Nat.div_lt; lia).
      specialize (IH f' (a / 10) (b / 10)). lia.
Qed.
Lemma list_max_in x l : In x l -> x <= list_max l.
Proof. intros H. pose proof (proj1 (list_max_le l (list_max l)) (le_n _)) as F. rewrite Forall_forall in F. apply F, H. Qed.
Theorem c158_aligned hosts pids w i wall user : i < length hosts -> length pids = length hosts -> wall <= 17 -> user <= 12 ->
  let w' := setup true (length hosts) hosts pids w in
  rank_tag w' (nth i hosts 0) i wall user = 43 + list_max hosts + digits (length hosts - 1) /\
  pid_tag w' (nth i hosts 0) (nth i pids 0) wall user = 43 + list_max hosts + list_max (map digits pids).
Proof.
  intros Hi HL Hw Hu. cbv zeta. unfold rank_tag, pid_tag, padded. cbn [setup wd_rank wd_host wd_pid].
  assert (H1 : nth i hosts 0 <= list_max hosts) by (apply list_max_in, nth_In, Hi).
  assert (H2 : digits i <= digits (length hosts - 1)) by (apply digits_fuel_mono; lia).
  assert (H3 : digits (nth i pids 0) <= list_max (map digits pids)) by (apply list_max_in, in_map, nth_In; lia).
  split; lia.
Qed.
Print Assumptions c158_aligned.
Example c158_aligned_example : let w := setup true 11 (repeat 5 10 ++ [8]) (repeat 123 11) start_widths in
  rank_tag w 5 0 17 12 = 53 /\ rank_tag w 8 10 17 12 = 53 /\ rank_tag start_widths 5 0 17 12 <> rank_tag start_widths 8 10 17 12.
Proof. vm_compute. split; [reflexivity|]. split; [reflexivity|]. discriminate. Qed.

(** Temporary formatters that do not end in reverse order: both are gone, but one of them is still in use. *)
Theorem c158_order_refuted : exists dflt f g w1 w2 w3, f <> dflt /\
  foldM (perform dflt) [Enter f; Enter g] (mkw dflt []) = Ok w1 /\ destroy dflt w1 1 = Ok w2 /\ destroy dflt w2 0 = Ok w3 /\ w_objects w3 = [] /\ w_current w3 = f.
Proof.
  exists (fun s => s), (fun s => mkst 1 1 1 " " ""), (fun s => s). do 3 eexists. split.
  - intros E. apply (f_equal (fun h => st_text (h (mkst 0 0 0 " " "x")))) in E. discriminate.
  - repeat split; reflexivity.
Qed.
Print Assumptions c158_order_refuted.
(** The fill character a formatter sets stays set. *)
Theorem c158_fill_refuted : exists w s, st_fill (logtag w s) <> st_fill s.
Proof. exists (mkw (fun s => mkst 0 0 0 "0" (st_text s)) []), (mkst 0 0 0 " " ""). discriminate. Qed.
Print Assumptions c158_fill_refuted.
