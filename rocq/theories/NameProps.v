(** Property C164 of names of output files. *)
From Coq Require Import ZArith Lia.
From Verif Require Import Common CommonFacts NameModel NameSpec.
Local Open Scope Z_scope.

(** ** Decimal numbers *)

Lemma value_snoc s ch : value (s ++ [ch]) = 10 * value s + (ch - 48).
Proof. unfold value. now rewrite fold_left_app. Qed.
Lemma value_zeros k s : value (repeat 48 k ++ s) = value s.
Proof. induction k as [|k IH]; auto. Qed.

Lemma decimal_spec fuel : forall n, 0 <= n < 10 ^ Z.of_nat fuel ->
  value (decimal fuel n) = n /\ digits (decimal fuel n).
Proof.
  induction fuel as [|f IH]; intros n H; [cbn in *; split; [lia|easy]|].
  cbn [decimal]. rewrite Nat2Z.inj_succ, Z.pow_succ_r in H by lia.
  pose proof (Z.div_mod n 10 ltac:(lia)). pose proof (Z.mod_pos_bound n 10 ltac:(lia)).
  destruct (Z.ltb_spec n 10) as [L|L].
  - split.
    + rewrite value_snoc. change (value []) with 0. rewrite Z.mod_small by lia. lia.
    + intros ch [<-|[]]. lia.
  - destruct (IH (n / 10)) as (V & D).
    { split; [apply Z.div_pos; lia|]. apply Z.div_lt_upper_bound; lia. }
    split.
    + rewrite value_snoc, V. lia.
    + intros ch I. apply in_app_iff in I as [I|[<-|[]]]; [auto|lia].
Qed.

Lemma decimal_length fuel k : forall n, (k <= fuel)%nat -> (1 <= k)%nat -> 0 <= n < 10 ^ Z.of_nat k -> (1 <= length (decimal fuel n) <= k)%nat.
Proof.
  revert k. induction fuel as [|f IH]; intros k n K K1 H; [lia|].
  cbn [decimal]. rewrite app_length. cbn [length]. destruct (Z.ltb_spec n 10) as [L|L]; [cbn; lia|].
  destruct k as [|k]; [lia|]. rewrite Nat2Z.inj_succ, Z.pow_succ_r in H by lia.
  assert (0 <= n / 10 < 10 ^ Z.of_nat k) by (split; [apply Z.div_pos; lia|apply Z.div_lt_upper_bound; lia]).
  destruct k as [|k]; [cbn in *; assert (n / 10 >= 1) by (apply Z.le_ge, Z.div_le_lower_bound; lia); lia|].
  specialize (IH (S k) (n / 10) ltac:(lia) ltac:(lia) H0). lia.
Qed.

Lemma padded_spec w n : 0 <= n <= 2 ^ 31 ->
  value (zero_padded w n) = n /\ digits (zero_padded w n) /\ (w <= length (zero_padded w n))%nat /\
  (length (zero_padded w n) <= Nat.max w 10)%nat.
Proof.
  intros H. unfold zero_padded. destruct (decimal_spec 10 n) as (V & D); [cbn in *; lia|].
  pose proof (decimal_length 10 10 n ltac:(lia) ltac:(lia) ltac:(cbn in *; lia)) as L.
  rewrite value_zeros. split; auto. rewrite app_length, repeat_length. split; [|lia].
  intros ch I. apply in_app_iff in I as [I|I]; [apply repeat_spec in I; lia|auto].
Qed.

Lemma format_length i : int i -> (5 <= length (format05 i) <= 11)%nat.
Proof.
  unfold int. intros H. unfold format05. destruct (Z.ltb_spec i 0).
  - destruct (padded_spec 4 (- i) ltac:(lia)) as (_ & _ & L1 & L2). cbn [length]. lia.
  - destruct (padded_spec 5 i ltac:(lia)) as (_ & _ & L1 & L2). lia.
Qed.

Lemma format_inj i j : int i -> int j -> format05 i = format05 j -> i = j.
Proof.
  unfold int, format05, minus_sign. intros I J E.
  assert (S : forall n t, 0 <= n <= 2 ^ 31 -> 45 :: t = zero_padded 5 n -> False).
  { intros n t H E'. destruct (padded_spec 5 n H) as (_ & D & _). specialize (D 45). rewrite <- E' in D. specialize (D (or_introl eq_refl)). lia. }
  destruct (Z.ltb_spec i 0), (Z.ltb_spec j 0).
  - injection E as E. destruct (padded_spec 4 (- i) ltac:(lia)) as (V & _), (padded_spec 4 (- j) ltac:(lia)) as (V' & _). rewrite E in V. lia.
  - exfalso. eapply (S j); eauto. lia.
  - exfalso. eapply (S i); eauto. lia.
  - destruct (padded_spec 5 i ltac:(lia)) as (V & _), (padded_spec 5 j ltac:(lia)) as (V' & _). rewrite E in V. lia.
Qed.

Lemma short_name base i : (length base <= 242)%nat -> int i ->
  snprintf255 (formatted (snprintf255 base) i) = formatted base i.
Proof.
  intros L I. pose proof (format_length i I). unfold snprintf255. rewrite (firstn_all2 base) by lia.
  apply firstn_all2. unfold formatted. rewrite !app_length. cbn [length]. lia.
Qed.

Lemma get_of base i0 i h : run [GetNameOf i] (construct base i0) = Ok h -> read h = snprintf255 (formatted (snprintf255 base) i).
Proof.
  change (Ok (Helper (snprintf255 (formatted (snprintf255 base) i)) (snprintf255 base) i0) = Ok h -> read h = snprintf255 (formatted (snprintf255 base) i)).
  generalize (snprintf255 base). intros b H. inversion H. reflexivity.
Qed.

(** ** C164 *)

(** For basenames of up to 242 characters the name is the basename, a minus sign and the number: different numbers have
    different names. *)
Theorem c164_distinct base i0 i j hi hj : (length base <= 242)%nat -> int i -> int j ->
  run [GetNameOf i] (construct base i0) = Ok hi -> run [GetNameOf j] (construct base i0) = Ok hj ->
  (exists number, read hi = base ++ [minus_sign] ++ number /\ (0 <= i -> value number = i /\ digits number /\ (5 <= length number)%nat)) /\
  (read hi = read hj -> i = j).
Proof.
  intros L I J Hi Hj. rewrite (get_of _ _ _ _ Hi), (get_of _ _ _ _ Hj).
  rewrite !short_name by auto. split.
  - exists (format05 i). split; [reflexivity|]. intros P. unfold format05. destruct (Z.ltb_spec i 0); [lia|].
    destruct (padded_spec 5 i) as (V & D & W & _); [unfold int in I; lia|]. auto.
  - intros E. unfold formatted in E. apply app_inv_head in E. injection E as E. now apply format_inj.
Qed.
Print Assumptions c164_distinct.

(** Different basenames have different names as well, for numbers that are not negative. *)
Theorem c164_basenames base base' i0 i j hi hj : (length base <= 242)%nat -> (length base' <= 242)%nat -> int i -> int j ->
  0 <= i -> 0 <= j ->
  run [GetNameOf i] (construct base i0) = Ok hi -> run [GetNameOf j] (construct base' i0) = Ok hj ->
  read hi = read hj -> base = base' /\ i = j.
Proof.
  intros L L' I J Pi Pj Hi Hj E. rewrite (get_of _ _ _ _ Hi), (get_of _ _ _ _ Hj) in E.
  rewrite !short_name in E by auto. unfold formatted in E.
  assert (D : forall n, int n -> 0 <= n -> digits (format05 n)).
  { intros n N P ch C. unfold format05 in C. destruct (Z.ltb_spec n 0); [lia|]. destruct (padded_spec 5 n) as (_ & D & _); [unfold int in N; lia|auto]. }
  assert (K : forall (a b s t : list Z), digits s -> digits t -> a ++ [minus_sign] ++ s = b ++ [minus_sign] ++ t -> a = b /\ s = t).
  { clear. intros a b s t S T E. apply (f_equal (@rev Z)) in E. rewrite !rev_app_distr in E. cbn [rev app] in E. rewrite <- !app_assoc in E. cbn [app] in E.
    assert (X : forall u v p r, (forall ch, In ch u -> 48 <= ch) -> (forall ch, In ch v -> 48 <= ch) -> u ++ minus_sign :: p = v ++ minus_sign :: r -> u = v /\ p = r).
    { unfold minus_sign. induction u as [|ch u IH]; intros [|ch' v] p r U V X; cbn in X.
      - injection X as ->. auto.
      - injection X as <- _. specialize (V 45 (or_introl eq_refl)). lia.
      - injection X as -> _. specialize (U 45 (or_introl eq_refl)). lia.
      - injection X as <- X. destruct (IH v p r) as (-> & ->); auto; intros c C; [apply U|apply V]; now right. }
    destruct (X (rev s) (rev t) (rev a) (rev b)) as (X1 & X2); auto.
    - intros ch C. apply in_rev in C. now apply S.
    - intros ch C. apply in_rev in C. now apply T.
    - split; [rewrite <- (rev_involutive a), X2|rewrite <- (rev_involutive s), X1]; apply rev_involutive. }
  apply K in E as (-> & E); auto. split; auto. now apply format_inj.
Qed.
Print Assumptions c164_basenames.

(** A directory listing shows the files of numbers 0 to 99999 in the order of the numbers. *)
Lemma before_app p s t : before s t -> before (p ++ s) (p ++ t).
Proof. induction p; cbn; auto. intros H. apply BeforeLater. auto. Qed.

Lemma value_cons ch s : value (ch :: s) = (ch - 48) * 10 ^ Z.of_nat (length s) + value s.
Proof.
  induction s as [|x s IH] using rev_ind; [cbn; lia|]. change (ch :: s ++ [x]) with ((ch :: s) ++ [x]). rewrite !value_snoc, IH, app_length.
  cbn [length]. rewrite Nat2Z.inj_add, Z.pow_add_r by lia. change (10 ^ Z.of_nat 1) with 10. lia.
Qed.
Lemma value_bound s : digits s -> 0 <= value s < 10 ^ Z.of_nat (length s).
Proof.
  induction s as [|ch s IH]; intros D; [cbn; lia|]. rewrite value_cons. cbn [length]. rewrite Nat2Z.inj_succ, Z.pow_succ_r by lia.
  specialize (IH (fun c C => D c (or_intror C))). specialize (D ch (or_introl eq_refl)). nia.
Qed.
Lemma value_before s : forall t, digits s -> digits t -> length s = length t -> value s < value t -> before s t.
Proof.
  induction s as [|x s IH]; intros [|y t] S T L V; cbn in L; try discriminate; try (cbn in V; lia).
  assert (S' : digits s) by (intros ch C; apply S; now right). assert (T' : digits t) by (intros ch C; apply T; now right).
  rewrite !value_cons in V. injection L as L. rewrite L in V.
  pose proof (value_bound s S'). pose proof (value_bound t T'). rewrite L in H.
  destruct (Z.lt_trichotomy x y) as [E|[->|E]].
  - now apply BeforeHere.
  - apply BeforeLater. apply IH; auto. lia.
  - exfalso. assert ((x - 48) * 10 ^ Z.of_nat (length t) >= (y - 48 + 1) * 10 ^ Z.of_nat (length t)) by nia. lia.
Qed.

Theorem c164_sorted base i0 i j hi hj : (length base <= 242)%nat -> 0 <= i -> i < j -> j <= 99999 ->
  run [GetNameOf i] (construct base i0) = Ok hi -> run [GetNameOf j] (construct base i0) = Ok hj ->
  before (read hi) (read hj).
Proof.
  intros L P I J Hi Hj. rewrite (get_of _ _ _ _ Hi), (get_of _ _ _ _ Hj).
  assert (int i /\ int j) as (Ii & Ij) by (unfold int; lia). rewrite !short_name by auto.
  unfold formatted. apply before_app. cbn [app]. apply BeforeLater. unfold format05.
  destruct (Z.ltb_spec i 0), (Z.ltb_spec j 0); try lia.
  destruct (padded_spec 5 i) as (V & D & _); [lia|]. destruct (padded_spec 5 j) as (V' & D' & _); [lia|].
  assert (K : forall n, 0 <= n <= 99999 -> length (zero_padded 5 n) = 5%nat).
  { intros n N. unfold zero_padded. rewrite app_length, repeat_length.
    pose proof (decimal_length 10 5 n ltac:(lia) ltac:(lia) ltac:(cbn; lia)). lia. }
  apply value_before; auto; [rewrite !K by lia; auto|lia].
Qed.
Print Assumptions c164_sorted.

(** File 100000 is listed before file 99999. *)
Theorem c164_sorted_refuted : exists base i j hi hj, (length base <= 242)%nat /\ 0 <= i < j /\ int j /\
  run [GetNameOf i] (construct base 0) = Ok hi /\ run [GetNameOf j] (construct base 0) = Ok hj /\ before (read hj) (read hi).
Proof.
  exists [97], 99999, 100000. do 2 eexists. split; [cbn; lia|]. split; [lia|]. split; [unfold int; lia|].
  split; [reflexivity|]. split; [reflexivity|]. vm_compute. apply BeforeLater, BeforeLater, BeforeHere. reflexivity.
Qed.
Print Assumptions c164_sorted_refuted.

(** With a basename of 254 or more characters all numbers have the same name: the output of one time step overwrites
    that of the one before. *)
Theorem c164_long_refuted base i0 : (254 <= length base)%nat -> forall i j hi hj,
  run [GetNameOf i] (construct base i0) = Ok hi -> run [GetNameOf j] (construct base i0) = Ok hj -> read hi = read hj.
Proof.
  intros L i j hi hj Hi Hj. rewrite (get_of _ _ _ _ Hi), (get_of _ _ _ _ Hj).
  assert (K : forall n, snprintf255 (formatted (snprintf255 base) n) = firstn 254 base).
  { intros n. unfold formatted, snprintf255. generalize ([minus_sign] ++ format05 n). intros t.
    rewrite firstn_app, firstn_length_le, Nat.sub_diag by lia. change (firstn 0 t) with (@nil Z).
    rewrite app_nil_r. apply firstn_all2. rewrite firstn_length_le; lia. }
  now rewrite !K.
Qed.
Print Assumptions c164_long_refuted.
Example c164_long_exists : exists base : cstring, (254 <= length base)%nat.
Proof. exists (repeat 97 254). now rewrite repeat_length. Qed.

(** In any history of calls getName() gives the name of the start number plus the number of increments so far, and the
    history is defined as long as that is an int. *)
Theorem c164_history base i0 os : int i0 -> i0 + increments os <= int_max ->
  exists h h', run os (construct base i0) = Ok h /\ run (os ++ [GetName]) (construct base i0) = Ok h' /\
    forall g, run [GetNameOf (i0 + increments os)] (construct base i0) = Ok g -> read h' = read g.
Proof.
  intros I M.
  assert (K : forall os h, index h + increments os <= int_max ->
    exists h', run os h = Ok h' /\ basename h' = basename h /\ index h' = index h + increments os).
  { clear. intros os. unfold increments. induction os as [|o os IH]; intros h M; [exists h; cbn; repeat split; auto; lia|].
    unfold run in *. cbn [foldM]. destruct o; cbn [step bind filter length] in *.
    - match goal with |- context [foldM step os ?h1] => destruct (IH h1 M) as (h' & E & B & X) end. exists h'. auto.
    - match goal with |- context [foldM step os ?h1] => destruct (IH h1 M) as (h' & E & B & X) end. exists h'. auto.
    - destruct (Z.eqb_spec (index h) int_max) as [E|N]; [lia|]. cbn [bind].
      destruct (IH (Helper (fname h) (basename h) (index h + 1))) as (h' & E & B & X); [cbn [index]; lia|].
      exists h'. split; auto. split; auto. cbn [index] in X. lia. }
  destruct (K os (construct base i0) M) as (h & E & B & X).
  exists h, (Helper (snprintf255 (formatted (basename h) (index h))) (basename h) (index h)). split; auto. split.
  - unfold run. rewrite foldM_app. unfold run in E. rewrite E. reflexivity.
  - intros g G. rewrite (get_of _ _ _ _ G). unfold read. cbn [fname]. now rewrite B, X.
Qed.
Print Assumptions c164_history.
Example c164_history_case : increments [GetName; Increment; GetNameOf 7; Increment] = 2.
Proof. reflexivity. Qed.

(** Incrementing past the largest int is undefined. *)
Theorem c164_overflow_refuted : exists i0, int i0 /\ run [Increment] (construct [97] i0) = UB.
Proof. exists int_max. split; [unfold int, int_max; lia|reflexivity]. Qed.
Print Assumptions c164_overflow_refuted.

(** A returned name does not last: getName() returns the address of one buffer, so after the next call the name kept
    from the first has changed. *)
Theorem c164_kept_refuted : exists base h1 h2,
  run [GetName] (construct base 0) = Ok h1 /\ run [Increment; GetName] h1 = Ok h2 /\ read h2 <> read h1.
Proof. exists [97]. do 2 eexists. split; [reflexivity|]. split; [reflexivity|]. vm_compute. discriminate. Qed.
Print Assumptions c164_kept_refuted.
