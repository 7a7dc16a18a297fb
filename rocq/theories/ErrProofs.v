(** The error is a distance. *)
From Coq Require Import Lra Lia Permutation.
From Verif Require Import ErrModel ErrSpec CdSpec CdProofs GfSpec GfProofs GfProps.
Local Open Scope R_scope.

(** ** Weighted sums of products over a list of samples *)
Section Sums.
  Context {A : Type}.
  Variable (w : A -> R) (l : list A).
  Hypothesis W : forall a, In a l -> 0 <= w a.
  Definition ip (u v : A -> R) : R := lsum (fun a => w a * (u a * v a)) l.
  Lemma ip_comb a b c d (u v u' v' : A -> R) :
    ip (fun x => a * u x + b * v x) (fun x => c * u' x + d * v' x) = a * c * ip u u' + a * d * ip u v' + b * c * ip v u' + b * d * ip v v'.
  Proof.
    unfold ip. rewrite <- !lsum_scal, <- !lsum_plus. apply lsum_ext. intros; ring.
  Qed.
  Lemma ip_sym u v : ip u v = ip v u. Proof. apply lsum_ext. intros; ring. Qed.
  Lemma ip_nonneg u : 0 <= ip u u.
  Proof. apply lsum_nonneg. intros a I. apply Rmult_le_pos; [now apply W|]. exact (Rle_0_sqr (u a)). Qed.
  Lemma cauchy u v : ip u v * ip u v <= ip u u * ip v v.
  Proof.
    pose proof (ip_nonneg (fun x => ip v v * u x + (- ip u v) * v x)) as H. rewrite ip_comb in H. rewrite (ip_sym v u) in H.
    pose proof (ip_nonneg u) as P. pose proof (ip_nonneg v) as Q.
    destruct (Rle_lt_or_eq_dec 0 (ip v v) Q) as [L|E].
    - apply (Rmult_le_reg_l (ip v v)); [exact L|]. lra.
    - pose proof (ip_nonneg (fun x => (- ip u v) * u x + (ip u u + 1) * v x)) as K. rewrite ip_comb in K. rewrite (ip_sym v u), <- E in K.
      rewrite <- E. set (b := ip u v) in *. set (a := ip u u) in *.
      assert (0 <= - (b * b) * (a + 2)) by lra. assert (0 <= b * b) by (apply Rle_0_sqr).
      destruct (Req_dec (b * b) 0) as [->|N]; [lra|]. assert (0 < b * b) by lra. assert (0 < b * b * (a + 2)) by (apply Rmult_lt_0_compat; lra). lra.
  Qed.
  Lemma minkowski u v : sqrt (ip (fun a => u a + v a) (fun a => u a + v a)) <= sqrt (ip u u) + sqrt (ip v v).
  Proof.
    pose proof (ip_nonneg u) as P. pose proof (ip_nonneg v) as Q. pose proof (sqrt_pos (ip u u)). pose proof (sqrt_pos (ip v v)).
    apply Rsqr_incr_0; [|apply sqrt_pos|lra]. rewrite Rsqr_sqrt by apply (ip_nonneg (fun a => u a + v a)).
    assert (E : ip (fun a => u a + v a) (fun a => u a + v a) = ip u u + 2 * ip u v + ip v v).
    { transitivity (ip (fun x => 1 * u x + 1 * v x) (fun x => 1 * u x + 1 * v x)).
      - apply lsum_ext. intros; ring.
      - rewrite ip_comb, (ip_sym v u). ring. }
    rewrite E. unfold Rsqr.
    assert (C : ip u v <= sqrt (ip u u) * sqrt (ip v v)).
    { rewrite <- sqrt_mult by assumption. apply Rle_trans with (Rabs (ip u v)); [apply Rle_abs|]. rewrite <- sqrt_Rsqr_abs.
      apply sqrt_le_1_alt. exact (cauchy u v). }
    pose proof (sqrt_sqrt _ P). pose proof (sqrt_sqrt _ Q). nra.
  Qed.
  Lemma ip_zero u : ip u u = 0 <-> forall a, In a l -> 0 < w a -> u a = 0.
  Proof.
    unfold ip. split.
    - intros Z a I L. assert (S : forall l', (forall a, In a l' -> 0 <= w a) -> lsum (fun a => w a * (u a * u a)) l' = 0 -> In a l' -> w a * (u a * u a) = 0).
      { intros l' W'. induction l' as [|b l' IH]; [contradiction|]. cbn [lsum]. intros E J.
        assert (0 <= w b * (u b * u b)) by (apply Rmult_le_pos; [apply W'; left; reflexivity|exact (Rle_0_sqr (u b))]).
        assert (0 <= lsum (fun a => w a * (u a * u a)) l').
        { apply lsum_nonneg. intros x Ix. apply Rmult_le_pos; [apply W'; right; exact Ix|exact (Rle_0_sqr (u x))]. }
        destruct J as [->|J]; [lra|]. apply IH; [intros; apply W'; right; assumption|lra|exact J]. }
      specialize (S l W Z I). apply Rmult_integral in S. destruct S as [S|S]; [lra|]. apply Rmult_integral in S. now destruct S.
    - intros H. rewrite (lsum_ext _ (fun _ => 0)); [apply lsum_0|]. intros a I. destruct (Rle_lt_or_eq_dec 0 (w a) (W a I)) as [L|E].
      + rewrite (H a I L). ring.
      + rewrite <- E. ring.
  Qed.
End Sums.

(** ** Samples *)
Definition sample := (nat * vec * nat * R)%type.
Definition samples (n : nat) (cells : list gcell) : list sample :=
  flat_map (fun c => flat_map (fun q => map (fun k => (g_cell c, fst (fst q), k, snd (fst q) * snd q)) (seq 0 n)) (g_rule c)) cells.
Definition value (f : field) (s : sample) : R := f (fst (fst (fst s))) (snd (fst (fst s))) (snd (fst s)).
Lemma lsum_flat {X Y} (f : Y -> R) (h : X -> list Y) l : lsum f (flat_map h l) = lsum (fun a => lsum f (h a)) l.
Proof. induction l as [|a l IH]; [reflexivity|]. cbn [flat_map lsum]. now rewrite lsum_app, IH. Qed.
Lemma norm_sum n y : two_norm2 n y = lsum (fun c => y c * y c) (seq 0 n).
Proof.
  unfold two_norm2. cut (forall l s, fold_left (fun s c => s + y c * y c) l s = s + lsum (fun c => y c * y c) l); [intros ->; ring|].
  induction l as [|c l IH]; intros s; cbn [fold_left lsum]; [ring|]. rewrite IH. ring.
Qed.
Lemma squared_sum n f g procs : comm_sum (map (integrate (difference_squared n f g)) procs) 0%nat =
  ip (fun s : sample => snd s) (samples n (interior_cells procs)) (fun s => value f s - value g s) (fun s => value f s - value g s).
Proof.
  rewrite (c130_integral _ procs (interior_cells procs) 0 (Permutation_refl _)). unfold ip, samples.
  rewrite lsum_flat. apply lsum_ext. intros c _. rewrite lsum_flat. unfold cell_integral. apply lsum_ext. intros ((x, w), ie) _.
  cbn [fst snd]. rewrite lsum_map. unfold difference_squared. rewrite norm_sum. unfold value. cbn [fst snd].
  rewrite Rmult_comm, <- lsum_scal. apply lsum_ext. intros k I. apply in_seq in I. unfold subtract. destruct (Nat.ltb_spec k n); [ring|lia].
Qed.
Lemma samples_nonneg n procs : rule_nonneg procs -> forall s, In s (samples n (interior_cells procs)) -> 0 <= snd s.
Proof.
  intros H s I. unfold samples in I. apply in_flat_map in I as (c & Ic & I). apply in_flat_map in I as (((x, w), ie) & Iq & I).
  apply in_map_iff in I as (k & <- & _). cbn. exact (H c x w ie Ic Iq).
Qed.
Lemma in_samples n cells c x w ie k : In c cells -> In (x, w, ie) (g_rule c) -> (k < n)%nat -> In (g_cell c, x, k, w * ie) (samples n cells).
Proof.
  intros C Q K. unfold samples. apply in_flat_map. exists c. split; [exact C|]. apply in_flat_map. exists (x, w, ie). split; [exact Q|].
  apply in_map_iff. exists k. split; [reflexivity|]. apply in_seq. lia.
Qed.
Lemma error_ip n f g procs : l2_error n f g procs =
  sqrt (ip (fun s : sample => snd s) (samples n (interior_cells procs)) (fun s => value f s - value g s) (fun s => value f s - value g s)).
Proof. unfold l2_error. now rewrite squared_sum. Qed.
