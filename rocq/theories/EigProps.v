(** C155-C156: eigenvalues and the overlap operator of GenEO. *)
From Coq Require Import Reals Lra Psatz.
From Verif Require Import Common CommonFacts EigModel EigSpec.
Local Open Scope R_scope.

Lemma rsum_ext n f g : (forall i, (i < n)%nat -> f i = g i) -> rsum n f = rsum n g.
Proof. induction n as [|n IH]; intros H; cbn; [reflexivity|]. rewrite IH by (intros; apply H; lia). rewrite H by lia. reflexivity. Qed.
Lemma rsum_lin n a b f g : rsum n (fun i => a * f i + b * g i) = a * rsum n f + b * rsum n g.
Proof. induction n as [|n IH]; cbn; [lra|]. rewrite IH. lra. Qed.
Lemma apply_ext n A x y i : (forall j, (j < n)%nat -> x j = y j) -> apply n A x i = apply n A y i.
Proof. intros H. apply rsum_ext. intros j Hj. rewrite H by exact Hj. reflexivity. Qed.
Lemma apply_scal n A a x i : apply n A (fun j => a * x j) i = a * apply n A x i.
Proof.
  unfold apply. rewrite (rsum_ext n _ (fun j => a * (A i j * x j) + 0 * 0)) by (intros; lra). rewrite (rsum_lin n a 0 (fun j => A i j * x j) (fun _ => 0)). lra.
Qed.
Lemma apply_shifted n A B s x i : apply n (shifted A B s) x i = apply n A x i - s * apply n B x i.
Proof.
  unfold apply, shifted. rewrite (rsum_ext n _ (fun j => 1 * (A i j * x j) + (- s) * (B i j * x j))) by (intros; lra). rewrite (rsum_lin n 1 (- s) (fun j => A i j * x j) (fun j => B i j * x j)). lra.
Qed.

(** Values of the inverted operator and generalized eigenvalues correspond: mu = 1 / (lambda - sigma). *)
Lemma transform n A B s solve mu x : solves n (shifted A B s) solve -> mu <> 0 ->
  (eigen_of n (mult_mv n solve B) mu x <-> eigen n A B (s + 1 / mu) x).
Proof.
  intros HS Hm. split; intros [E N]; (split; [|exact N]); intros i Hi.
  - assert (Q : forall i, (i < n)%nat -> apply n (shifted A B s) (fun j => mu * x j) i = apply n B x i).
    { apply HS. intros j Hj. symmetry. apply E, Hj. }
    specialize (Q i Hi). rewrite apply_scal, apply_shifted in Q. assert (apply n A x i = s * apply n B x i + (1 / mu) * (mu * (apply n A x i - s * apply n B x i))) by (field; exact Hm).
    rewrite H, Q. lra.
  - unfold mult_mv. symmetry. revert i Hi. apply (HS (apply n B x) (fun j => mu * x j)). intros i Hi. rewrite apply_scal, apply_shifted, E by exact Hi. field. exact Hm.
Qed.

(** ** C155: the solver returns generalized eigenpairs in ascending order *)
Lemma insert_perm key k l : Permutation (insert key k l) (k :: l).
Proof. induction l as [|j l IH]; cbn; [reflexivity|]. destruct (less (key k) (key j)); [reflexivity|]. rewrite IH. apply perm_swap. Qed.
Lemma sort_perm key l : Permutation (sort key l) l.
Proof.
  unfold sort. assert (H : forall acc, Permutation (fold_left (fun acc k => insert key k acc) l acc) (acc ++ l)).
  { induction l as [|k l IH]; intros acc; cbn; [rewrite app_nil_r; reflexivity|]. rewrite IH. rewrite insert_perm. cbn. apply Permutation_middle. }
  apply (H []).
Qed.
Definition ordered (key : nat -> option R) (l : list nat) : Prop := forall i j, (i < j)%nat -> (j < length l)%nat -> less (key (nth j l 0%nat)) (key (nth i l 0%nat)) = false.
Lemma less_trans a b c : less a b = false -> less b c = false -> less a c = false.
Proof.
  destruct a as [a|], b as [b|], c as [c|]; cbn; try congruence; try (destruct (Rlt_dec a b); congruence).
  destruct (Rlt_dec a b), (Rlt_dec b c), (Rlt_dec a c); try congruence. lra.
Qed.
Lemma less_asym a b : less a b = true -> less b a = false.
Proof. destruct a as [a|], b as [b|]; cbn; try congruence. destruct (Rlt_dec a b), (Rlt_dec b a); try congruence. lra. Qed.
Inductive lsorted (key : nat -> option R) : list nat -> Prop :=
| ls_nil : lsorted key []
| ls_cons x l : (forall y, In y l -> less (key y) (key x) = false) -> lsorted key l -> lsorted key (x :: l).
Lemma insert_sorted key k l : lsorted key l -> lsorted key (insert key k l).
Proof.
  induction 1 as [|x l Hx Hl IH]; cbn; [constructor; [intros y []|constructor]|]. destruct (less (key k) (key x)) eqn:E.
  - constructor; [|constructor; assumption]. intros y [<-|Hy]; [apply less_asym, E|]. apply (less_trans _ (key x)); [apply Hx, Hy|apply less_asym, E].
  - constructor; [|exact IH]. intros y Hy. apply (Permutation_in _ (insert_perm key k l)) in Hy. destruct Hy as [<-|Hy]; [exact E|apply Hx, Hy].
Qed.
Lemma sort_sorted key l : lsorted key (sort key l).
Proof.
  unfold sort. assert (H : forall acc, lsorted key acc -> lsorted key (fold_left (fun acc k => insert key k acc) l acc)).
  { induction l as [|k l IH]; intros acc Ha; cbn; [exact Ha|]. apply IH, insert_sorted, Ha. }
  apply H. constructor.
Qed.

Theorem c155_pairs n A B sigma solve res nev :
  solves n (shifted A B sigma) solve -> length res = nev ->
  (forall p, In p res -> p_im p = 0 /\ p_re p <> 0 /\ eigen_of n (mult_mv n solve B) (p_re p) (p_vec p)) ->
  exists lambdas xs,
    compute nev sigma res = combine (map Some lambdas) (map Some xs) /\ length lambdas = nev /\ length xs = nev /\
    ascending lambdas /\
    (forall k, (k < nev)%nat -> eigen n A B (nth k lambdas 0) (nth k xs (fun _ => 0))) /\
    Permutation (combine lambdas xs) (map (fun p => (sigma + 1 / p_re p, p_vec p)) res).
Proof.
  intros HS HL HP. set (key := fun k => unshift sigma (ev res k)). set (idx := sort key (seq 0 nev)).
  assert (PI : Permutation idx (seq 0 nev)) by apply sort_perm.
  assert (LI : length idx = nev) by (rewrite (Permutation_length PI); apply seq_length).
  assert (IR : forall k, In k idx -> (k < nev)%nat) by (intros k Hk; apply (Permutation_in _ PI) in Hk; apply in_seq in Hk; lia).
  set (dummy := mkpair 1 0 (fun _ => 0)). set (pr := fun k => nth k res dummy).
  assert (KP : forall k, (k < nev)%nat -> key k = Some (sigma + 1 / p_re (pr k)) /\ raw res k = Some (p_vec (pr k)) /\ In (pr k) res).
  { intros k Hk. unfold key, ev, raw, pr, unshift. rewrite (nth_error_nth' res dummy) by lia. assert (I : In (nth k res dummy) res) by (apply nth_In; lia).
    destruct (Req_EM_T (p_re (nth k res dummy)) 0) as [Z|Z]; [destruct (HP _ I) as (_ & ? & _); contradiction|]. auto. }
  exists (map (fun k => sigma + 1 / p_re (pr k)) idx), (map (fun k => p_vec (pr k)) idx).
  split. { unfold compute. fold key. fold idx. rewrite !map_map. clear - KP IR. induction idx as [|k l IH]; [reflexivity|]. cbn [map combine]. f_equal.
    - destruct (KP k) as (E1 & E2 & _); [apply IR; left; reflexivity|]. rewrite <- E1, <- E2. reflexivity.
    - apply IH. intros j Hj. apply IR. right. exact Hj. }
  split; [rewrite map_length; exact LI|]. split; [rewrite map_length; exact LI|].
  split. { pose proof (sort_sorted key (seq 0 nev)) as SS. fold idx in SS. clear - SS KP IR. induction SS as [|x l Hx Hl IH]; cbn; [exact I|]. split; [|apply IH; intros k Hk; apply IR; right; exact Hk].
    intros y Hy. apply in_map_iff in Hy. destruct Hy as (k & <- & Hk). specialize (Hx k Hk). destruct (KP k) as (E1 & _); [apply IR; right; exact Hk|]. destruct (KP x) as (E2 & _); [apply IR; left; reflexivity|].
    rewrite E1, E2 in Hx. cbn in Hx. destruct (Rlt_dec (sigma + 1 / p_re (pr k)) (sigma + 1 / p_re (pr x))); [discriminate|lra]. }
  split.
  - intros k Hk. rewrite (nth_indep _ 0 (sigma + 1 / p_re (pr 0%nat))) by (rewrite map_length; lia). rewrite (map_nth (fun k => sigma + 1 / p_re (pr k)) idx 0%nat k).
    assert (Hx : nth k (map (fun k => p_vec (pr k)) idx) (fun _ => 0) = p_vec (pr (nth k idx 0%nat))).
    { etransitivity; [apply (nth_indep _ _ (p_vec (pr 0%nat))); rewrite map_length; lia|]. apply (map_nth (fun k => p_vec (pr k)) idx 0%nat k). }
    unfold vec in *. rewrite Hx.
    destruct (KP (nth k idx 0%nat)) as (_ & _ & I); [apply IR, nth_In; lia|]. destruct (HP _ I) as (_ & Z & E). apply (transform n A B sigma solve); assumption.
  - assert (C : combine (map (fun k => sigma + 1 / p_re (pr k)) idx) (map (fun k => p_vec (pr k)) idx) = map (fun k => (sigma + 1 / p_re (pr k), p_vec (pr k))) idx).
    { clear. induction idx as [|k l IH]; [reflexivity|]. cbn. rewrite IH. reflexivity. }
    rewrite C. rewrite PI. rewrite <- HL. clear. unfold pr. assert (E : map (fun k => (sigma + 1 / p_re (nth k res dummy), p_vec (nth k res dummy))) (seq 0 (length res)) = map (fun p => (sigma + 1 / p_re p, p_vec p)) res); [|rewrite E; reflexivity].
    rewrite <- (map_map (fun k => nth k res dummy) (fun p => (sigma + 1 / p_re p, p_vec p))). f_equal.
    apply (nth_ext _ _ dummy dummy); [rewrite map_length, seq_length; reflexivity|]. intros k Hk. rewrite map_length, seq_length in Hk.
    rewrite (nth_indep _ dummy (nth 0 res dummy)) by (rewrite map_length, seq_length; exact Hk). rewrite (map_nth (fun k => nth k res dummy)). rewrite seq_nth by exact Hk. reflexivity.
Qed.
Print Assumptions c155_pairs.

(** The values returned are those closest to the shift, if ARPACK returns the values of largest magnitude. *)
Theorem c155_closest n A B sigma solve res :
  solves n (shifted A B sigma) solve ->
  (forall p, In p res -> p_re p <> 0) ->
  (forall mu x, eigen_of n (mult_mv n solve B) mu x -> (exists p, In p res /\ p_re p = mu) \/ forall p, In p res -> Rabs mu <= Rabs (p_re p)) ->
  forall lambda x, eigen n A B lambda x -> lambda <> sigma ->
    (exists p, In p res /\ unshift sigma (p_re p) = Some lambda) \/
    forall p l, In p res -> unshift sigma (p_re p) = Some l -> Rabs (l - sigma) <= Rabs (lambda - sigma).
Proof.
  intros HS HN HM lambda x HE Hne. set (mu := 1 / (lambda - sigma)). assert (Z : lambda - sigma <> 0) by lra.
  assert (Hm : mu <> 0) by (unfold mu; intros H; apply (Rmult_eq_compat_r (lambda - sigma)) in H; unfold Rdiv in H; rewrite Rmult_assoc, Rinv_l in H by exact Z; lra).
  assert (L : sigma + 1 / mu = lambda) by (unfold mu; field; exact Z).
  assert (E : eigen_of n (mult_mv n solve B) mu x) by (apply (transform n A B sigma solve); [exact HS|exact Hm|rewrite L; exact HE]).
  destruct (HM mu x E) as [(p & I & Hp)|HA].
  - left. exists p. split; [exact I|]. unfold unshift. rewrite Hp. destruct (Req_EM_T mu 0); [contradiction|]. rewrite L. reflexivity.
  - right. intros p l I Hl. specialize (HA p I). specialize (HN p I). unfold unshift in Hl. destruct (Req_EM_T (p_re p) 0); [contradiction|]. injection Hl as <-.
    replace (sigma + 1 / p_re p - sigma) with (/ p_re p) by (field; exact HN). replace (lambda - sigma) with (/ mu) by (unfold mu; field; exact Z).
    rewrite !Rabs_inv. apply Rinv_le_contravar; [apply Rabs_pos_lt; exact Hm|exact HA].
Qed.
Print Assumptions c155_closest.

(** A diagonal problem with the eigenvalues 0 and 3/2. *)
Definition diag2 (a b : R) : mat := fun i j => match i, j with O, O => a | S O, S O => b | _, _ => 0 end.
Definition unit2 (k : nat) : vec := fun i => if (i =? k)%nat then 1 else 0.
Lemma diag2_solves a b : a <> 0 -> b <> 0 -> solves 2 (shifted (diag2 (a + 1) (b + 1)) (diag2 1 1) 1) (fun y i => match i with O => y O / a | _ => y 1%nat / b end).
Proof.
  intros Ha Hb y x. unfold apply, shifted, diag2. split; intros H i Hi.
  - pose proof (H 0%nat ltac:(lia)) as H0. pose proof (H 1%nat ltac:(lia)) as H1. cbn in H0, H1. destruct i as [|[|i]]; [| |lia].
    + rewrite <- H0. field. exact Ha.
    + rewrite <- H1. field. exact Hb.
  - pose proof (H 0%nat ltac:(lia)) as H0. pose proof (H 1%nat ltac:(lia)) as H1. cbn in H0, H1. destruct i as [|[|i]]; [| |lia]; cbn; rewrite H0, H1; field; auto.
Qed.
Definition solve2 : vec -> vec := fun y i => match i with O => y O / (-1) | _ => y 1%nat / (1 / 2) end.
Definition both : list pair := [mkpair 2 0 (unit2 1); mkpair (-1) 0 (unit2 0)].
Lemma both_eigen : forall p, In p both -> p_im p = 0 /\ p_re p <> 0 /\ eigen_of 2 (mult_mv 2 solve2 (diag2 1 1)) (p_re p) (p_vec p).
Proof.
  intros p [<-|[<-|[]]]; cbn [p_re p_im p_vec]; (split; [reflexivity|]); (split; [lra|]).
  - split; [|exists 1%nat; split; [lia|unfold unit2; cbn; lra]]. intros [|[|i]] Hi; [| |lia]; unfold mult_mv, solve2, apply, diag2, unit2; cbn; lra.
  - split; [|exists 0%nat; split; [lia|unfold unit2; cbn; lra]]. intros [|[|i]] Hi; [| |lia]; unfold mult_mv, solve2, apply, diag2, unit2; cbn; lra.
Qed.
Lemma solve2_solves : solves 2 (shifted (diag2 0 (3/2)) (diag2 1 1) 1) solve2.
Proof.
  pose proof (diag2_solves (-1) (1/2) ltac:(lra) ltac:(lra)) as H. replace (-1 + 1) with 0 in H by lra. replace (1/2 + 1) with (3/2) in H by lra. exact H.
Qed.
Example c155_example : exists lambdas xs, compute 2 1 both = combine (map Some lambdas) (map Some xs) /\ length lambdas = 2%nat /\ ascending lambdas.
Proof.
  destruct (c155_pairs 2 (diag2 0 (3/2)) (diag2 1 1) 1 solve2 both 2 solve2_solves eq_refl both_eigen) as (l & x & H1 & H2 & _ & H3 & _). exists l, x. auto.
Qed.

(** They need not be the smallest ones: with the shift 1 the value 3/2 is found before 0. *)
Theorem c155_smallest_refuted : exists n A B sigma solve p lambda x,
  solves n (shifted A B sigma) solve /\ p_im p = 0 /\ eigen_of n (mult_mv n solve B) (p_re p) (p_vec p) /\
  (forall mu y, eigen_of n (mult_mv n solve B) mu y -> Rabs mu <= Rabs (p_re p)) /\
  eigen n A B lambda x /\ exists l, map fst (compute 1 sigma [p]) = [Some l] /\ Rabs lambda < Rabs l.
Proof.
  exists 2%nat, (diag2 0 (3/2)), (diag2 1 1), 1, solve2, (mkpair 2 0 (unit2 1)), 0, (unit2 0). split; [exact solve2_solves|]. split; [reflexivity|].
  destruct (both_eigen (mkpair 2 0 (unit2 1)) (or_introl eq_refl)) as (_ & _ & E). split; [exact E|]. split; [|split].
  - intros mu y [H (i & Hi & Hn)]. cbn [p_re]. rewrite (Rabs_right 2) by lra. pose proof (H i Hi) as Q. unfold mult_mv, solve2, apply, diag2 in Q. destruct i as [|[|i]]; [| |lia]; cbn in Q.
    + assert (mu = -1) by (apply (Rmult_eq_reg_r (y 0%nat)); [lra|exact Hn]). subst mu. rewrite Rabs_left; lra.
    + assert (mu = 2) by (apply (Rmult_eq_reg_r (y 1%nat)); [lra|exact Hn]). subst mu. rewrite Rabs_right; lra.
  - split; [|exists 0%nat; split; [lia|unfold unit2; cbn; lra]]. intros [|[|i]] Hi; [| |lia]; unfold apply, diag2, unit2; cbn; lra.
  - exists (3/2). unfold compute, sort, ev. cbn. unfold unshift. destruct (Req_EM_T 2 0); [lra|]. split; [f_equal; f_equal; lra|]. rewrite Rabs_R0, Rabs_right; lra.
Qed.
Print Assumptions c155_smallest_refuted.

(** Pairs that did not converge are returned like the others, with an infinite value and unspecified memory as
    vector. *)
Theorem c155_unconverged_refuted : exists nev sigma res k, (k < nev)%nat /\ (length res < nev)%nat /\ nth_error (compute nev sigma res) k = Some (None, None).
Proof.
  exists 2%nat, 0, [mkpair 1 0 (fun _ => 1)], 1%nat. split; [lia|]. split; [cbn; lia|]. unfold compute, sort. cbn. unfold ev, unshift. cbn.
  destruct (Req_EM_T 0 0) as [_|F]; [|lra]. destruct (Req_EM_T 1 0); [lra|]. cbn. destruct (Req_EM_T 0 0) as [_|F]; [|lra]. reflexivity.
Qed.
Print Assumptions c155_unconverged_refuted.

(** Of complex values the real part is used, and the result is no eigenvalue. *)
Definition rot : mat := fun i j => match i, j with O, S O => - 1 / 2 | _, _ => 1 / 2 end.
Theorem c155_complex_refuted : exists A B sigma solve p l,
  solves 2 (shifted A B sigma) solve /\ p_im p <> 0 /\
  (* p is a pair of the operator: (f - re)^2 = - im^2 *)
  (forall x i, (i < 2)%nat -> let f := fun y j => mult_mv 2 solve B y j - p_re p * y j in f (f x) i = - (p_im p * p_im p) * x i) /\
  map fst (compute 1 sigma [p]) = [Some l] /\ forall x, ~ eigen 2 A B l x.
Proof.
  exists rot, (diag2 1 1), 0, (fun y i => match i with O => y O + y 1%nat | _ => y 1%nat - y O end), (mkpair 1 1 (fun _ => 0)), 1. split; [|split; [|split; [|split]]].
  - intros b y. unfold apply, shifted, rot, diag2. split; intros H i Hi; pose proof (H 0%nat ltac:(lia)) as H0; pose proof (H 1%nat ltac:(lia)) as H1; cbn in H0, H1; destruct i as [|[|i]]; try lia; cbn; lra.
  - cbn. lra.
  - intros x i Hi. cbn [p_re p_im]. cbv zeta. unfold mult_mv, apply, diag2. destruct i as [|[|i]]; try lia; cbn; lra.
  - unfold compute, sort, ev. cbn. unfold unshift. destruct (Req_EM_T 1 0); [lra|]. f_equal. f_equal. lra.
  - intros x [H (i & Hi & Hn)]. pose proof (H 0%nat ltac:(lia)) as H0. pose proof (H 1%nat ltac:(lia)) as H1. unfold apply, rot, diag2 in H0, H1. cbn in H0, H1. destruct i as [|[|i]]; try lia; apply Hn; lra.
Qed.
Print Assumptions c155_complex_refuted.
Local Close Scope R_scope.

(** ** C156: the operator of the overlap region *)
Lemma is_interior_spec sum c : is_interior sum c = true <-> ~ in_overlap sum c.
Proof.
  unfold in_overlap. induction c as [|d c IH]; cbn.
  - split; [discriminate|]. intros H. exfalso. apply H. intros d [].
  - destruct (Nat.ltb_spec (sum d) 2) as [L|L].
    + split; [|reflexivity]. intros _ H. specialize (H d (or_introl eq_refl)). lia.
    + rewrite IH. split.
      * intros H H'. apply H. intros e He. apply H'. right. exact He.
      * intros H H'. apply H. intros e [<-|He]; [exact L|apply H', He].
Qed.
(** Volume and boundary terms are assembled on exactly the cells all of whose dofs are shared with another
    process, and skeleton terms on the faces visited from such a cell. *)
Theorem c156_region {X} others (b : base X) cells faces x :
  In x (assemble (region (subdomain_sum others) b) cells faces) <->
  (exists c, In c cells /\ (forall d, In d c -> others d <> 0) /\ (In x (b_volume b c) \/ In x (b_lambda b c) \/ In x (b_post b c))) \/
  (exists s, In (s, None) faces /\ (forall d, In d s -> others d <> 0) /\ In x (b_boundary b s)) \/
  (exists s n, In (s, Some n) faces /\ (forall d, In d s -> others d <> 0) /\ In x (b_skeleton b s n)).
Proof.
  assert (I : forall c, (if is_interior (subdomain_sum others) c then false else true) = true <-> forall d, In d c -> others d <> 0).
  { intros c. destruct (is_interior (subdomain_sum others) c) eqn:E.
    - split; [discriminate|]. intros H. apply is_interior_spec in E. exfalso. apply E. intros d Hd. unfold subdomain_sum. specialize (H d Hd). lia.
    - split; [|reflexivity]. intros _ d Hd. assert (O : in_overlap (subdomain_sum others) c -> 2 <= subdomain_sum others d) by (intros O; apply O, Hd).
      assert (N : ~ ~ in_overlap (subdomain_sum others) c) by (intros N; apply is_interior_spec in N; congruence). unfold subdomain_sum in *.
      destruct (others d) eqn:Z; [|lia]. exfalso. apply N. intros O'. specialize (O O'). lia. }
  assert (F : forall c (l : list X), In x (if is_interior (subdomain_sum others) c then [] else l) <-> (forall d, In d c -> others d <> 0) /\ In x l).
  { intros c l. rewrite <- I. destruct (is_interior (subdomain_sum others) c); cbn; intuition discriminate. }
  unfold assemble. rewrite !in_app_iff, !in_flat_map. split.
  - intros [(c & Hc & H)|[(f & Hf & H)|(c & Hc & H)]].
    + apply in_app_or in H. cbn in H. rewrite !F in H. left. exists c. tauto.
    + destruct f as [s [n|]]; cbn in H; rewrite F in H; destruct H; [right; right; exists s, n|right; left; exists s]; tauto.
    + cbn in H. rewrite F in H. left. exists c. tauto.
  - intros [(c & Hc & O & [H|[H|H]])|[(s & Hs & O & H)|(s & n & Hs & O & H)]].
    + left. exists c. split; [exact Hc|]. apply in_or_app. left. cbn. rewrite F. auto.
    + left. exists c. split; [exact Hc|]. apply in_or_app. right. cbn. rewrite F. auto.
    + right. right. exists c. split; [exact Hc|]. cbn. rewrite F. auto.
    + right. left. exists (s, None). split; [exact Hs|]. cbn. rewrite F. auto.
    + right. left. exists (s, Some n). split; [exact Hs|]. cbn. rewrite F. auto.
Qed.
Print Assumptions c156_region.
(** Three cells in a row; the dofs 2 and 3 are shared. *)
Definition some_base : base nat := mkbase (fun c => c) (fun _ => []) (fun c => map (Nat.add 10) c) (fun s n => map (Nat.add 20) s) (fun _ => []).
Example c156_example : assemble (region (subdomain_sum (fun d => if d <? 2 then 0 else 1)) some_base) [[0; 1]; [1; 2]; [2; 3]] [([0; 1], None); ([1; 2], Some [2; 3]); ([2; 3], None)] = [2; 3; 12; 13].
Proof. reflexivity. Qed.

(** The term of a face at the rim of the overlap region is included or not depending on the cell it is visited
    from, although it is the same term. *)
Theorem c156_rim_refuted : exists (b : base nat) others c c', (forall s n, b_skeleton b s n = b_skeleton b n s) /\
  assemble (region (subdomain_sum others) b) [c; c'] [(c, Some c')] <> assemble (region (subdomain_sum others) b) [c; c'] [(c', Some c)].
Proof.
  exists (mkbase (fun _ => []) (fun _ => []) (fun _ => []) (fun s n => [7]) (fun _ => [])), (fun d => if d <? 2 then 0 else 1), [1; 2], [2; 3]. split; [reflexivity|]. vm_compute. discriminate.
Qed.
Print Assumptions c156_rim_refuted.

(** The pattern of the terms after the skeleton is that of the volume terms: entries of the base are missing. *)
Theorem c156_pattern_refuted : exists (b : base nat) sum cells x, (forall c, In c cells -> in_overlap sum c) /\
  In x (assemble (region sum b) cells []) /\ ~ In x (assemble (region_pattern sum b) cells []).
Proof.
  exists (mkbase (fun _ => []) (fun c => c) (fun _ => []) (fun _ _ => []) (fun _ => [])), (fun _ => 2), [[5]], 5. split; [intros c _ d _; lia|]. split; [vm_compute; auto|]. vm_compute. intros H; exact H.
Qed.
Print Assumptions c156_pattern_refuted.
