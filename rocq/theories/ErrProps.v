(** C174: errors computed from DifferenceSquaredAdapter and integrateGridFunction are distances. *)
From Coq Require Import Lra Lia Permutation.
From Verif Require Import ErrModel ErrSpec CdSpec CdProofs GfSpec GfProofs GfProps ErrProofs.
Local Open Scope R_scope.

(** C174: the error is zero exactly if the functions agree in all quadrature points (with positive weight) of interior cells. *)
Theorem c174_zero : forall n f g procs, rule_nonneg procs -> (l2_error n f g procs = 0 <-> agree n f g procs).
Proof.
  intros n f g procs W. rewrite error_ip. set (l := samples n (interior_cells procs)).
  assert (Wl : forall s : sample, In s l -> 0 <= snd s) by now apply samples_nonneg.
  pose proof (ip_nonneg (fun s : sample => snd s) l Wl (fun s => value f s - value g s)) as NN.
  split.
  - intros Z. apply sqrt_eq_0 in Z; [|exact NN]. rewrite (ip_zero (fun s : sample => snd s) l Wl) in Z.
    intros c x w ie k C Q L K. specialize (Z _ (in_samples n _ c x w ie k C Q K) L). unfold value in Z. cbn in Z. lra.
  - intros H. replace (ip _ _ _ _) with 0; [apply sqrt_0|]. symmetry. apply (ip_zero (fun s : sample => snd s) l Wl).
    intros s I L. unfold l, samples in I. apply in_flat_map in I as (c & Ic & I). apply in_flat_map in I as (((x, w), ie) & Iq & I).
    apply in_map_iff in I as (k & <- & K). apply in_seq in K. cbn in L. unfold value. cbn. rewrite (H c x w ie k Ic Iq L); [ring|lia].
Qed.
Print Assumptions c174_zero.
Theorem c174_nonneg : forall n f g procs, 0 <= l2_error n f g procs.
Proof. intros. apply sqrt_pos. Qed.
Print Assumptions c174_nonneg.
(** C174: it does not matter which function comes first. *)
Theorem c174_symmetric : forall n f g procs, l2_error n f g procs = l2_error n g f procs.
Proof. intros. rewrite !error_ip. f_equal. apply lsum_ext. intros; ring. Qed.
Print Assumptions c174_symmetric.
(** C174: triangle inequality. *)
Theorem c174_triangle : forall n f g h procs, rule_nonneg procs -> l2_error n f h procs <= l2_error n f g procs + l2_error n g h procs.
Proof.
  intros n f g h procs W. rewrite !error_ip. set (l := samples n (interior_cells procs)).
  assert (Wl : forall s : sample, In s l -> 0 <= snd s) by now apply samples_nonneg.
  eapply Rle_trans; [|exact (minkowski (fun s : sample => snd s) l Wl (fun s => value f s - value g s) (fun s => value g s - value h s))].
  apply Req_le. f_equal. apply lsum_ext. intros; ring.
Qed.
Print Assumptions c174_triangle.
(** C174: scaling both functions scales the error. *)
Theorem c174_scaled : forall n a f g procs, l2_error n (fun e x k => a * f e x k) (fun e x k => a * g e x k) procs = Rabs a * l2_error n f g procs.
Proof.
  intros. rewrite !error_ip, <- sqrt_Rsqr_abs, <- sqrt_mult_alt by apply Rle_0_sqr. f_equal. unfold ip. rewrite <- lsum_scal.
  apply lsum_ext. intros s _. unfold value, Rsqr. ring.
Qed.
Print Assumptions c174_scaled.
(** C174: it does not depend on how the cells are distributed to the processes. *)
Theorem c174_distribution : forall n f g procs procs', Permutation (interior_cells procs) (interior_cells procs') -> l2_error n f g procs = l2_error n f g procs'.
Proof.
  intros n f g procs procs' P. unfold l2_error. f_equal. rewrite (c130_integral _ procs (interior_cells procs') 0 P).
  now rewrite (c130_integral _ procs' (interior_cells procs') 0 (Permutation_refl _)).
Qed.
Print Assumptions c174_distribution.
(** C174: the integral of the difference is the difference of the integrals. *)
Theorem c174_difference : forall f g cells, integrate (difference f g) cells 0%nat = integrate f cells 0%nat - integrate g cells 0%nat.
Proof.
  intros. rewrite !integrate_at.
  replace (lsum (cell_integral f 0) (filter g_interior cells) - lsum (cell_integral g 0) (filter g_interior cells))
    with (lsum (cell_integral f 0) (filter g_interior cells) + -1 * lsum (cell_integral g 0) (filter g_interior cells)) by ring.
  rewrite <- lsum_scal, <- lsum_plus. apply lsum_ext.
  intros c _. unfold cell_integral. rewrite <- lsum_scal, <- lsum_plus. apply lsum_ext. intros q _.
  change (difference f g (g_cell c) (fst (fst q)) 0%nat) with (f (g_cell c) (fst (fst q)) 0%nat - g (g_cell c) (fst (fst q)) 0%nat). ring.
Qed.
Print Assumptions c174_difference.

(** A zero error does not mean that the functions agree: only quadrature points count, whatever the order. *)
Theorem c174_elsewhere_refuted : forall procs c, In c (interior_cells procs) ->
  exists f g : field, l2_error 1 f g procs = 0 /\ exists x, f (g_cell c) x 0%nat <> g (g_cell c) x 0%nat.
Proof.
  intros procs c _. set (pts := map (fun s : sample => snd (fst (fst s)) 0%nat) (samples 1 (interior_cells procs))).
  set (poly := fun t : R => fold_right (fun p r => (t - p) * r) 1 pts).
  assert (Z : forall p, In p pts -> poly p = 0).
  { unfold poly. induction pts as [|q l IH]; [contradiction|]. intros p [->|I]; cbn [fold_right]; [ring|]. rewrite (IH p I). ring. }
  assert (N : exists t, poly t <> 0).
  { assert (B : exists t, forall p, In p pts -> p < t).
    { clear. induction pts as [|q l [t H]]; [exists 0; contradiction|]. exists (Rmax t (q + 1)). pose proof (Rmax_l t (q + 1)). pose proof (Rmax_r t (q + 1)).
      intros p [->|I]; [lra|]. specialize (H p I). lra. }
    destruct B as [t H]. exists t. unfold poly. clear Z. induction pts as [|q l IH]; cbn [fold_right]; [lra|].
    apply Rmult_integral_contrapositive. split; [specialize (H q (or_introl eq_refl)); lra|]. apply IH. intros p I. apply H. right. exact I. }
  destruct N as [t N]. exists (fun _ x _ => poly (x 0%nat)), (fun _ _ _ => 0). split.
  - rewrite error_ip. replace (ip _ _ _ _) with 0; [apply sqrt_0|]. symmetry. unfold ip. rewrite (lsum_ext _ (fun _ => 0)); [apply lsum_0|].
    intros s I. unfold value. rewrite (Z (snd (fst (fst s)) 0%nat)); [ring|]. exact (in_map (fun s : sample => snd (fst (fst s)) 0%nat) _ _ I).
  - exists (fun _ => t). exact N.
Qed.
Print Assumptions c174_elsewhere_refuted.

(** One interior cell with two points and an overlap cell: the error is that of the interior cell. *)
Example c174_meets : let c := mkgcell 4 true [((fun _ => 0), 1/2, 2); ((fun _ => 1), 1/2, 2)] in let o := mkgcell 5 false [((fun _ => 0), 1, 7)] in
  rule_nonneg [[c; o]] /\ l2_error 2 (fun _ _ k => 2) (fun _ _ k => INR k) [[c; o]] = sqrt 10.
Proof.
  cbn zeta. split.
  - intros c x w ie [<-|[]] [[= <- <- <-]|[[= <- <- <-]|[]]]; lra.
  - unfold l2_error. f_equal. unfold comm_sum, integrate, difference_squared, two_norm2, subtract. cbn.
    change (0 <? 2)%nat with true. change (1 <? 2)%nat with true. cbv iota. lra.
Qed.
