(** Lemmas about the matrices the solvers of Eigen see. *)
From Coq Require Import Lra Lia.
From Verif Require Import EgsModel EgsSpec EngineSpec EngineProofs3 ConsModel ConsSpec ConsProofs3.
Local Open Scope R_scope.

Lemma seen_reads t A i j : seen (CG t) A i j = if reads t i j then A i j else A j i.
Proof. destruct t; reflexivity. Qed.
Lemma reads_refl t i : reads t i i = true. Proof. destruct t; apply Nat.leb_refl. Qed.
Lemma defect_ext n A B z r : (forall i j, (i < n)%nat -> (j < n)%nat -> A i j = B i j) -> defect2 n A z r = defect2 n B z r.
Proof.
  intros H. apply nsum_ext. intros i I. replace (mv n A z i) with (mv n B z i); [reflexivity|]. apply nsum_ext. intros j J. now rewrite (H i j I J).
Qed.
Lemma sq_sum_zero n f : nsum n (fun i => f i * f i) <= 0 -> forall i, (i < n)%nat -> f i = 0.
Proof.
  assert (P : forall m, 0 <= nsum m (fun i => f i * f i)).
  { induction m; cbn [nsum]; [lra|]. pose proof (Rle_0_sqr (f m)). unfold Rsqr in *. lra. }
  induction n as [|n IH]; intros H i I; [lia|]. cbn [nsum] in H. pose proof (P n). pose proof (Rle_0_sqr (f n)) as Q. unfold Rsqr in Q.
  destruct (Nat.eq_dec i n) as [->|N]; [|apply IH; [lra|lia]]. assert (Z : f n * f n = 0) by lra. apply Rmult_integral in Z. now destruct Z.
Qed.
Lemma exact n A z r : defect2 n A z r <= 0 -> solves n A z r.
Proof. intros H i I. pose proof (sq_sum_zero n (fun i => mv n A z i - r i) H i I) as E. cbn beta in E. lra. Qed.

(** The rest of a constrained row that a triangle solver sees *)
Definition rest (t : half) (n : nat) (A : mat) (z : nat -> R) (i : nat) : R := nsum n (fun j => if reads t i j then 0 else A j i * z j).
Section Rows.
  Variables (t : half) (n : nat) (A0 : mat) (cg : container) (z : nat -> R).
  Let A := set_trivial_rows cg A0.
  Lemma row_value i : constrained cg i -> (i < n)%nat -> mv n A z i = z i.
  Proof.
    intros C I. unfold mv. rewrite <- (nsum_single n i z I). apply nsum_ext. intros j J. unfold A. rewrite (proj1 (trivial_rows cg A0 i j) C).
    unfold delta. destruct (i =? j)%nat; ring.
  Qed.
  Lemma seen_row i : constrained cg i -> (i < n)%nat -> mv n (seen (CG t) A) z i = z i + rest t n A z i.
  Proof.
    intros C I. unfold mv, rest. rewrite <- (nsum_single n i z I) at 1. rewrite <- nsum_plus. apply nsum_ext. intros j J. rewrite seen_reads.
    unfold A at 1. rewrite (proj1 (trivial_rows cg A0 i j) C). unfold delta. destruct (Nat.eqb_spec i j) as [<-|N].
    - rewrite reads_refl. ring.
    - destruct (reads t i j); ring.
  Qed.
  Lemma free_row i : symmetric n A0 -> (forall j, (j < n)%nat -> constrained cg j -> z j = 0) -> ~ constrained cg i -> (i < n)%nat ->
    mv n (seen (CG t) A) z i = mv n A z i.
  Proof.
    intros S Z C I. apply nsum_ext. intros j J. rewrite seen_reads. destruct (reads t i j); [reflexivity|].
    destruct (in_dec Nat.eq_dec j (keys cg)) as [D|D].
    - rewrite (Z j J D). ring.
    - unfold A. rewrite (proj2 (trivial_rows cg A0 j i) D), (proj2 (trivial_rows cg A0 i j) C). now rewrite (S i j I J).
  Qed.
End Rows.
