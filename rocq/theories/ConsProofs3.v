(** Index caches and constrained matrices. *)
From Coq Require Import Lra Permutation.
From Verif Require Import ConsModel ConsSpec EngineSpec EngineProofs EngineProofs3 CommonFacts ConsProofs ConsProofs2.
Local Open Scope R_scope.

Lemma classify_spec cg gs : forall i fl rg fl' rg' todo, classify cg i gs fl rg = (fl', rg', todo) ->
  (forall k, (k < i)%nat -> fl' k = fl k /\ rg' k = rg k) /\
  (forall k, In k (keys todo) -> (i <= k)%nat) /\ NoDup (keys todo) /\
  (forall n, (n < length gs)%nat ->
     match find (nth n gs O) cg with
     | None => fl' (i + n)%nat = (false, false) /\ ~ In (i + n)%nat (keys todo)
     | Some [] => fl' (i + n)%nat = (true, true) /\ rg' (i + n)%nat = (O, O) /\ ~ In (i + n)%nat (keys todo)
     | Some r => fl' (i + n)%nat = (true, false) /\ In ((i + n)%nat, r) todo
     end).
Proof.
  induction gs as [|g gs IH]; intros i fl rg fl' rg' todo; cbn [classify].
  - injection 1 as <- <- <-. repeat split; try contradiction; try constructor. intros n L. cbn in L. lia.
  - destruct (find g cg) as [[|e r]|] eqn:E.
    + intros H. destruct (IH _ _ _ _ _ _ H) as (K & T & D & N).
      assert (Nt : ~ In i (keys todo)) by (intros I; apply T in I; lia).
      split; [|split; [|split; [exact D|]]].
      * intros k L. destruct (K k ltac:(lia)) as (-> & ->). rewrite !setv_neq by lia. auto.
      * intros k I. apply T in I. lia.
      * intros [|n] L; cbn [nth].
        -- rewrite E. rewrite Nat.add_0_r. destruct (K i ltac:(lia)) as (-> & ->). rewrite !setv_eq. auto.
        -- replace (i + S n)%nat with (S i + n)%nat by lia. apply N. cbn in L. lia.
    + destruct (classify cg (S i) gs (setv i (true, false) fl) rg) as ((fl1, rg1), todo1) eqn:H. injection 1 as <- <- <-.
      destruct (IH _ _ _ _ _ _ H) as (K & T & D & N).
      split; [|split; [|split]].
      * intros k L. destruct (K k ltac:(lia)) as (-> & ->). rewrite !setv_neq by lia. auto.
      * intros k [<-|I]; [cbn; lia|]. apply T in I. lia.
      * constructor; [|exact D]. intros I. apply T in I. cbn in I. lia.
      * intros [|n] L; cbn [nth].
        -- rewrite E, Nat.add_0_r. destruct (K i ltac:(lia)) as (-> & _). rewrite setv_eq. split; [reflexivity|left; reflexivity].
        -- replace (i + S n)%nat with (S i + n)%nat by lia. specialize (N n ltac:(cbn in L; lia)).
           assert (Ne : i <> (S i + n)%nat) by lia.
           destruct (find (nth n gs O) cg) as [[|e' r']|].
           ++ destruct N as (N1 & N2 & N3). split; [exact N1|split; [exact N2|]]. intros [J|J]; [cbn in J; lia|contradiction].
           ++ destruct N as (N1 & N2). split; [exact N1|right; exact N2].
           ++ destruct N as (N1 & N2). split; [exact N1|]. intros [J|J]; [cbn in J; lia|contradiction].
    + intros H. destruct (IH _ _ _ _ _ _ H) as (K & T & D & N).
      assert (Nt : ~ In i (keys todo)) by (intros I; apply T in I; lia).
      split; [|split; [|split; [exact D|]]].
      * intros k L. destruct (K k ltac:(lia)) as (-> & ->). rewrite !setv_neq by lia. auto.
      * intros k I. apply T in I. lia.
      * intros [|n] L; cbn [nth].
        -- rewrite E. rewrite Nat.add_0_r. destruct (K i ltac:(lia)) as (-> & _). rewrite !setv_eq. auto.
        -- replace (i + S n)%nat with (S i + n)%nat by lia. apply N. cbn in L. lia.
Qed.

Lemma fill_spec todo : forall pos rg rg' rest (pre : row), fill todo pos rg = (rg', rest) -> length pre = pos -> NoDup (keys todo) ->
  (forall i, ~ In i (keys todo) -> rg' i = rg i) /\
  (forall i r, In (i, r) todo -> slice (fst (rg' i)) (snd (rg' i) - fst (rg' i)) (pre ++ rest) = r).
Proof.
  induction todo as [|(i, r) todo IH]; intros pos rg rg' rest pre; cbn [fill].
  - injection 1 as <- <-. intros _ _. split; [reflexivity|contradiction].
  - destruct (fill todo (pos + length r) (setv i (pos, (pos + length r)%nat) rg)) as (rg1, rest1) eqn:F. injection 1 as <- <-.
    intros L ND. unfold keys in ND. cbn [map fst] in ND. inversion_clear ND as [|? ? N1 N2].
    destruct (IH _ _ _ _ (pre ++ r) F) as (A & B); [rewrite app_length; lia|exact N2|].
    split.
    + intros j Nj. rewrite A by (intros J; apply Nj; right; exact J). apply setv_neq. intros <-. apply Nj. left. reflexivity.
    + intros j q [E|I].
      * injection E as <- <-. rewrite A by exact N1. rewrite setv_eq. cbn [fst snd].
        replace (pos + length r - pos)%nat with (length r) by lia. subst pos. unfold slice.
        rewrite skipn_app, skipn_all2, Nat.sub_diag by lia. cbn [app skipn].
        rewrite firstn_app, Nat.sub_diag, firstn_all. cbn [firstn]. apply app_nil_r.
      * rewrite app_assoc. apply B, I.
Qed.

(** ** Exactness of the cache *)
Lemma updates_enabled cg before : forall c, enabled (fold_left (fun c gs => update cg gs c) before c) = enabled c.
Proof.
  induction before as [|gs b IH]; intros c; cbn [fold_left]; [reflexivity|]. rewrite IH. unfold update.
  destruct (enabled c) eqn:E; [|reflexivity]. destruct (classify _ _ _ _ _) as ((?, ?), ?). destruct (fill _ _ _). reflexivity.
Qed.
Lemma update_cis cg gs c : cis (update cg gs c) = gs.
Proof. unfold update. destruct (enabled c); [|reflexivity]. destruct (classify _ _ _ _ _) as ((?, ?), ?). destruct (fill _ _ _). reflexivity. Qed.
Lemma update_enabled_exact cg gs c n : enabled c = true -> (n < length gs)%nat ->
  match find (nth n gs O) cg with
  | None => is_constrained (update cg gs c) n = false
  | Some r => is_constrained (update cg gs c) n = true /\ (is_dirichlet (update cg gs c) n = true <-> r = []) /\
              constraints_of (update cg gs c) n = r
  end.
Proof.
  intros E L. unfold update. rewrite E.
  destruct (classify cg 0 gs (flags c) (ranges c)) as ((fl, rg), todo) eqn:C.
  destruct (fill todo 0 rg) as (rg', cs) eqn:F.
  destruct (classify_spec _ _ _ _ _ _ _ _ C) as (_ & _ & ND & H).
  destruct (fill_spec _ _ _ _ _ [] F eq_refl ND) as (A & B). specialize (H n L). cbn [plus] in H.
  unfold is_constrained, is_dirichlet, constraints_of. cbn [flags ranges constraints].
  destruct (find (nth n gs O) cg) as [[|e r]|].
  - destruct H as (-> & H2 & H3). rewrite A by exact H3. rewrite H2. cbn. repeat split.
  - destruct H as (-> & H2). cbn [fst snd]. split; [reflexivity|]. split; [split; discriminate|]. apply (B n (e :: r) H2).
  - destruct H as (-> & _). reflexivity.
Qed.
Lemma cache_enabled_eq cg en gs c : cache_for cg en gs c -> enabled c = en.
Proof.
  intros (b & ->). change (enabled (fold_left (fun c gs => update cg gs c) [gs] (fold_left (fun c gs => update cg gs c) b (new_cache en))) = en).
  rewrite !updates_enabled. reflexivity.
Qed.
Lemma cache_cis cg en gs c : cache_for cg en gs c -> cis c = gs.
Proof. intros (b & ->). apply update_cis. Qed.
Lemma cache_on cg gs c n : cache_for cg true gs c -> (n < length gs)%nat ->
  match find (nth n gs O) cg with
  | None => is_constrained c n = false
  | Some r => is_constrained c n = true /\ (is_dirichlet c n = true <-> r = []) /\ constraints_of c n = r
  end.
Proof. intros (b & ->) L. apply update_enabled_exact; [apply updates_enabled|exact L]. Qed.
Lemma updates_off cg before : forall c, enabled c = false -> flags (fold_left (fun c gs => update cg gs c) before c) = flags c.
Proof.
  induction before as [|gs b IH]; intros c E; cbn [fold_left]; [reflexivity|].
  rewrite IH; unfold update; rewrite E; reflexivity.
Qed.
Lemma cache_off cg gs c n : cache_for cg false gs c -> is_constrained c n = false /\ is_dirichlet c n = false.
Proof.
  intros (b & ->). change (update cg gs ?x) with (fold_left (fun c gs => update cg gs c) [gs] x). rewrite <- fold_left_app.
  unfold is_constrained, is_dirichlet. rewrite updates_off by reflexivity. split; reflexivity.
Qed.

(** ** Sums over additions *)
Definition hit (g h : nat) (e : nat * nat * R) : R := if (fst (fst e) =? g)%nat && (snd (fst e) =? h)%nat then snd e else 0.
Lemma add_all_sum l : forall A g h, add_all l A g h = A g h + lsum (hit g h) l.
Proof.
  unfold add_all. induction l as [|e l IH]; intros A g h; cbn [fold_left]; [cbn; lra|].
  rewrite IH, lsum_cons. unfold hit at 2. lra.
Qed.
Lemma hit_nonzero g h a b v : lsum (hit g h) (nonzero a b v) = delta a g * v * delta b h.
Proof.
  unfold nonzero, delta. destruct (Req_EM_T v 0) as [->|N]; cbn [lsum fold_right]; [lra|]. unfold hit. cbn [fst snd].
  destruct (a =? g)%nat, (b =? h)%nat; cbn [andb]; lra.
Qed.
Lemma weight_delta r g : weight r g = lsum (fun e => delta (fst e) g * snd e) r.
Proof. apply lsum_ext. intros e _. unfold delta. destruct (fst e =? g)%nat; lra. Qed.
(** basis functions as seen by the cache *)
Definition vbasis (c : cache) (i g : nat) : R :=
  if is_constrained c i then (if is_dirichlet c i then 0 else weight (constraints_of c i) g) else delta (ci c i) g.
Definition ubasis (c : cache) (j h : nat) : R :=
  if is_constrained c j then (if is_dirichlet c j then delta (ci c j) h else weight (constraints_of c j) h) else delta (ci c j) h.
Lemma hit_spread g h a (x : R) r : lsum (hit g h) (flat_map (fun u : nat * R => nonzero a (fst u) (x * snd u)) r) =
  delta a g * x * weight r h.
Proof.
  rewrite lsum_flat_map, weight_delta, <- lsum_scal. apply lsum_ext. intros u _. rewrite hit_nonzero. lra.
Qed.
Lemma hit_etadd_one g h V U m i j : lsum (hit g h) (etadd_one V U m i j) = vbasis V i g * m i j * ubasis U j h.
Proof.
  unfold etadd_one, vbasis, ubasis. destruct (Req_EM_T (m i j) 0) as [->|N]; [cbn; lra|].
  destruct (is_constrained V i).
  - destruct (is_dirichlet V i); [cbn; lra|]. rewrite lsum_flat_map, weight_delta.
    destruct (is_constrained U j); [destruct (is_dirichlet U j)|].
    + rewrite (lsum_ext _ (fun v : nat * R => (m i j * delta (ci U j) h) * (delta (fst v) g * snd v))), lsum_scal; [lra|].
      intros v _. rewrite hit_nonzero. lra.
    + rewrite (lsum_ext _ (fun v : nat * R => (m i j * weight (constraints_of U j) h) * (delta (fst v) g * snd v))), lsum_scal; [lra|].
      intros v _. rewrite hit_spread. lra.
    + rewrite (lsum_ext _ (fun v : nat * R => (m i j * delta (ci U j) h) * (delta (fst v) g * snd v))), lsum_scal; [lra|].
      intros v _. rewrite hit_nonzero. lra.
  - destruct (is_constrained U j); [destruct (is_dirichlet U j)|].
    + apply hit_nonzero.
    + apply hit_spread.
    + cbn [lsum fold_right]. unfold hit, delta. cbn [fst snd]. destruct (ci V i =? g)%nat, (ci U j =? h)%nat; cbn [andb]; lra.
Qed.
Lemma lsum_seq f n : lsum f (seq 0 n) = nsum n f.
Proof.
  induction n as [|n IH]; [reflexivity|]. rewrite seq_S, lsum_app, IH. cbn. lra.
Qed.
Lemma lsum_map {A B} (f : B -> R) (h : A -> B) l : lsum f (map h l) = lsum (fun a => f (h a)) l.
Proof. induction l as [|x l IH]; [reflexivity|]. cbn [map]. rewrite !lsum_cons, IH. reflexivity. Qed.
Lemma lsum_pairs n k (f : nat * nat -> R) : lsum f (all_pairs n k) = nsum n (fun i => nsum k (fun j => f (i, j))).
Proof.
  unfold all_pairs. rewrite lsum_flat_map, lsum_seq. apply nsum_ext. intros i _. rewrite lsum_map. apply lsum_seq.
Qed.
Lemma hit_etadd g h V U m : lsum (hit g h) (etadd V U m) =
  nsum (size V) (fun i => nsum (size U) (fun j => vbasis V i g * m i j * ubasis U j h)).
Proof.
  unfold etadd. rewrite lsum_flat_map, lsum_pairs. apply nsum_ext. intros i _. apply nsum_ext. intros j _. apply hit_etadd_one.
Qed.
Lemma hit_plain g h V U m : lsum (hit g h) (plain V U m) =
  nsum (size V) (fun i => nsum (size U) (fun j => delta (ci V i) g * m i j * delta (ci U j) h)).
Proof.
  unfold plain. rewrite lsum_flat_map, lsum_pairs. apply nsum_ext. intros i _. apply nsum_ext. intros j _. apply hit_nonzero.
Qed.

Lemma vbasis_spec cg gs c i g : cache_for cg true gs c -> (i < length gs)%nat -> vbasis c i g = test_basis cg (nth i gs O) g.
Proof.
  intros C L. pose proof (cache_on _ _ _ _ C L) as H. unfold vbasis, test_basis, ci. rewrite (cache_cis _ _ _ _ C).
  destruct (find (nth i gs O) cg) as [r|]; [|rewrite H; reflexivity]. destruct H as (-> & D & ->).
  destruct (is_dirichlet c i); [|reflexivity]. rewrite (proj1 D eq_refl). reflexivity.
Qed.
Lemma ubasis_spec cg gs c i g : cache_for cg true gs c -> (i < length gs)%nat -> ubasis c i g = trial_basis false cg (nth i gs O) g.
Proof.
  intros C L. pose proof (cache_on _ _ _ _ C L) as H. unfold ubasis, trial_basis, ci. rewrite (cache_cis _ _ _ _ C).
  destruct (find (nth i gs O) cg) as [r|]; [|rewrite H; reflexivity]. destruct H as (-> & D & ->).
  destruct (is_dirichlet c i).
  - rewrite (proj1 D eq_refl). reflexivity.
  - destruct r; [|reflexivity]. exfalso. pose proof (proj2 D eq_refl). discriminate.
Qed.

Theorem scatter_enabled cu cv sym vs us V U m g h : cache_for cv true vs V -> cache_for cu true us U ->
  lsum (hit g h) (scatter_jacobian cu V U sym m) = galerkin sym cv cu vs us m g h.
Proof.
  intros CV CU. unfold scatter_jacobian, galerkin.
  rewrite (cache_enabled_eq _ _ _ _ CV), (cache_enabled_eq _ _ _ _ CU). cbn [andb].
  assert (SV : size V = length vs) by (unfold size; rewrite (cache_cis _ _ _ _ CV); reflexivity).
  assert (SU : size U = length us) by (unfold size; rewrite (cache_cis _ _ _ _ CU); reflexivity).
  destruct sym.
  - unfold etadd_symmetric. rewrite hit_etadd, SV, SU. apply nsum_ext. intros i I. apply nsum_ext. intros j J.
    rewrite (vbasis_spec _ _ _ _ _ CV I), (ubasis_spec _ _ _ _ _ CU J). unfold clear_columns.
    rewrite (proj2 (Nat.ltb_lt _ _) I), (proj2 (Nat.ltb_lt _ _) J). cbn [andb].
    pose proof (cache_on _ _ _ _ CU J) as H. unfold trial_basis.
    destruct (find (nth j us O) cu) as [[|e r]|].
    + destruct H as (-> & D & _). rewrite (proj2 D eq_refl). cbn. lra.
    + destruct H as (-> & D & _). destruct (is_dirichlet U j); [exfalso; pose proof (proj1 D eq_refl); discriminate|]. cbn [andb]. reflexivity.
    + rewrite H. reflexivity.
  - rewrite hit_etadd, SV, SU. apply nsum_ext. intros i I. apply nsum_ext. intros j J.
    rewrite (vbasis_spec _ _ _ _ _ CV I), (ubasis_spec _ _ _ _ _ CU J). reflexivity.
Qed.
Theorem scatter_disabled cu cv sym vs us V U m g h : cache_for cv false vs V -> cache_for cu false us U ->
  only_dirichlet cv -> only_dirichlet cu -> ~ constrained cv g ->
  lsum (hit g h) (scatter_jacobian cu V U sym m) = galerkin sym cv cu vs us m g h.
Proof.
  intros CV CU DV DU F. unfold scatter_jacobian, galerkin.
  rewrite (cache_enabled_eq _ _ _ _ CV). cbn [andb].
  assert (SV : size V = length vs) by (unfold size; rewrite (cache_cis _ _ _ _ CV); reflexivity).
  assert (SU : size U = length us) by (unfold size; rewrite (cache_cis _ _ _ _ CU); reflexivity).
  rewrite hit_plain, SV, SU. apply nsum_ext. intros i I. apply nsum_ext. intros j J.
  assert (CiV : ci V i = nth i vs O) by (unfold ci; rewrite (cache_cis _ _ _ _ CV); reflexivity).
  assert (CiU : ci U j = nth j us O) by (unfold ci; rewrite (cache_cis _ _ _ _ CU); reflexivity).
  assert (T : delta (ci V i) g = test_basis cv (nth i vs O) g).
  { rewrite CiV. unfold test_basis. destruct (find (nth i vs O) cv) as [r|] eqn:E; [|reflexivity].
    rewrite (DV _ _ (find_in _ _ _ E)). unfold delta. destruct (Nat.eqb_spec (nth i vs O) g) as [<-|]; [|reflexivity].
    exfalso. apply F. eapply in_keys, find_in, E. }
  rewrite T, CiU. unfold trial_basis. destruct sym.
  - unfold clear_columns. rewrite (proj2 (Nat.ltb_lt _ _) I), (proj2 (Nat.ltb_lt _ _) J), CiU. cbn [andb].
    destruct (find (nth j us O) cu) as [r|] eqn:E; [|lra]. rewrite (DU _ _ (find_in _ _ _ E)). lra.
  - destruct (find (nth j us O) cu) as [r|] eqn:E; [|reflexivity]. rewrite (DU _ _ (find_in _ _ _ E)). reflexivity.
Qed.

(** ** The assembled matrix *)
Lemma trivial_rows cg : forall A g h,
  (constrained cg g -> set_trivial_rows cg A g h = delta g h) /\ (~ constrained cg g -> set_trivial_rows cg A g h = A g h).
Proof.
  unfold set_trivial_rows, constrained. induction cg as [|(k, r) cg IH]; intros A g h; cbn [fold_left]; [split; [contradiction|reflexivity]|].
  destruct (IH (clear_row k 1 A) g h) as (H1 & H2). destruct (in_dec Nat.eq_dec g (keys cg)) as [I|I].
  - split; [intros _; apply H1, I|intros H; exfalso; apply H; right; exact I].
  - cbn [fst]. rewrite H2 by exact I. unfold clear_row. split.
    + intros [E|J]; [|contradiction]. cbn in E. subst k. rewrite Nat.eqb_refl. reflexivity.
    + intros H. destruct (Nat.eqb_spec k g) as [->|]; [|reflexivity]. exfalso. apply H. left. reflexivity.
Qed.
Lemma scattered_sum cu sym els : forall A g h,
  fold_left (fun A e => add_all (scatter_jacobian cu (fst (fst e)) (snd (fst e)) sym (snd e)) A) els A g h =
  A g h + lsum (fun e => lsum (hit g h) (scatter_jacobian cu (fst (fst e)) (snd (fst e)) sym (snd e))) els.
Proof.
  induction els as [|e els IH]; intros A g h; cbn [fold_left]; [cbn; lra|]. rewrite IH, add_all_sum, lsum_cons. lra.
Qed.
Theorem assembled cu cv en sym els cs A g h :
  caches_of cu cv en els cs -> (en = false -> only_dirichlet cu /\ only_dirichlet cv) ->
  assemble_constrained cu cv sym cs A g h =
  if in_dec Nat.eq_dec g (keys cv) then delta g h
  else A g h + lsum (fun e => galerkin sym cv cu (vs e) (us e) (em e) g h) els.
Proof.
  intros C OD. unfold assemble_constrained. destruct (in_dec Nat.eq_dec g (keys cv)) as [I|I].
  - apply trivial_rows, I.
  - rewrite (proj2 (trivial_rows _ _ _ _)) by exact I. rewrite scattered_sum. f_equal.
    induction C as [|e c els cs (CV & CU & M) C IH]; [reflexivity|]. rewrite !lsum_cons, IH. f_equal. rewrite M.
    destruct en; [apply scatter_enabled; assumption|]. apply scatter_disabled; try assumption; apply OD; reflexivity.
Qed.
Lemma merged_only_dirichlet cs t : merged cs t -> nd t = false -> only_dirichlet (entries t).
Proof.
  intros M N g r I. destruct r as [|e r]; [reflexivity|]. exfalso.
  assert (nd t = true); [|congruence]. apply (mg_flag _ _ M). exists g, (e :: r). split; [|discriminate].
  apply in_find; [apply (mg_proper _ _ M)|exact I].
Qed.
