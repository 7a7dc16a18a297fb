(** C175: solver backends of Eigen. *)
From Coq Require Import Lra Lia.
From Verif Require Import EgsModel EgsSpec EngineSpec EngineProofs3 ConsModel ConsSpec ConsProofs3 EgsProofs.
Local Open Scope R_scope.

(** C175: if apply reports convergence, the defect is reduced as demanded, whatever z contained; r is unchanged.  For BiCGSTAB this holds for
    every matrix, for CG if the matrix is symmetric. *)
Theorem c175_solves : forall n E b A z r red b' z' r', honest n E -> b_kind b = BiCGSTAB \/ symmetric n A ->
  apply E b A z r red = (b', z', r') -> converged (b_res b') = true -> defect2 n A z' r <= red * red * vnorm2 n r /\ r' = r.
Proof.
  intros n E b A z r red b' z' r' H K Ap C. unfold apply in Ap. inversion Ap; subst; clear Ap. cbn in C. split; [|reflexivity].
  apply H in C. erewrite defect_ext; [exact C|]. intros i j I J. destruct K as [->|S]; [reflexivity|].
  destruct (b_kind b) as [|t]; [reflexivity|]. rewrite seen_reads. destruct (reads t i j); [reflexivity|now apply S].
Qed.
Print Assumptions c175_solves.
(** C175: result() describes the last call, and a call depends neither on earlier ones nor on the contents of z. *)
Theorem c175_history : forall E k m l A z z0 r red,
  apply E (calls E l (make k m)) A z r red = apply E (make k m) A z0 r red.
Proof.
  intros E k m l. assert (P : forall b, b_kind (calls E l b) = b_kind b /\ b_maxiter (calls E l b) = b_maxiter b).
  { unfold calls. induction l as [|(((A, z), r), red) l IH]; intros b; [split; reflexivity|]. cbn [fold_left]. destruct (IH (fst (fst (apply E b A z r red)))) as [-> ->].
    split; reflexivity. }
  intros. destruct (P (make k m)) as [Q1 Q2]. unfold apply. rewrite Q1, Q2. reflexivity.
Qed.
Print Assumptions c175_history.
(** C175: the matrix of a problem with Dirichlet constraints (symmetric before its constrained rows are made trivial; the code never clears
    the columns) and a right hand side that vanishes there.  A solution of the system that a CG backend sees is a solution of the assembled
    system exactly if the constrained columns in the triangle that is not mirrored back do not contribute. *)
Theorem c175_dirichlet : forall t n A0 cg z r, symmetric n A0 -> (forall i, (i < n)%nat -> constrained cg i -> r i = 0) ->
  let A := set_trivial_rows cg A0 in solves n (seen (CG t) A) z r ->
  (solves n A z r <-> forall i, (i < n)%nat -> constrained cg i -> nsum n (fun j => if reads t i j then 0 else A j i * z j) = 0).
Proof.
  intros t n A0 cg z r S R A H. split.
  - intros K i I C. specialize (H i I). specialize (K i I). unfold A in H, K. rewrite (seen_row t n A0 cg z i C I), (R i I C) in H.
    rewrite (row_value n A0 cg z i C I), (R i I C) in K. unfold rest in H. fold A in H. lra.
  - intros K.
    assert (Z : forall j, (j < n)%nat -> constrained cg j -> z j = 0).
    { intros j J C. specialize (H j J). unfold A in H. rewrite (seen_row t n A0 cg z j C J), (R j J C) in H. specialize (K j J C).
      unfold rest in H. fold A in H. lra. }
    intros i I. destruct (in_dec Nat.eq_dec i (keys cg)) as [C|C].
    + unfold A. rewrite (row_value n A0 cg z i C I), (R i I C). now apply Z.
    + rewrite <- (H i I). symmetry. now apply free_row.
Qed.
Print Assumptions c175_dirichlet.
(** C175: in particular it is one if couplings of unconstrained with constrained DOFs lie in the triangle that is not read. *)
Theorem c175_numbering : forall t n A0 cg z r, symmetric n A0 -> (forall i, (i < n)%nat -> constrained cg i -> r i = 0) ->
  (forall i j, (i < n)%nat -> (j < n)%nat -> constrained cg i -> ~ constrained cg j -> reads t j i = true -> A0 j i = 0) ->
  solves n (seen (CG t) (set_trivial_rows cg A0)) z r -> solves n (set_trivial_rows cg A0) z r.
Proof.
  intros t n A0 cg z r S R N H. apply (c175_dirichlet t n A0 cg z r S R H). intros i I C.
  rewrite (nsum_ext n _ (fun _ => 0)); [apply nsum_zero|]. intros j J. destruct (reads t i j) eqn:E; [reflexivity|].
  assert (E' : reads t j i = true).
  { destruct t; cbn in *; [apply Nat.leb_gt in E; apply Nat.leb_le; lia|apply Nat.leb_gt in E; apply Nat.leb_le; lia]. }
  destruct (in_dec Nat.eq_dec j (keys cg)) as [D|D].
  - rewrite (proj1 (trivial_rows cg A0 j i) D). unfold delta. destruct (Nat.eqb_spec j i) as [->|]; [rewrite reads_refl in E; discriminate|ring].
  - rewrite (proj2 (trivial_rows cg A0 j i) D), (N i j I J C D E'). ring.
Qed.
Print Assumptions c175_numbering.

Definition line : mat := fun i j => if (i =? j)%nat then 2 else if (S i =? j)%nat || (S j =? i)%nat then -1 else 0.
Definition last_dof (t : half) : nat := match t with Up => 2 | Lo => 0 end.
Definition source (t : half) (i : nat) : R := if (i =? match t with Up => 0 | Lo => 2 end)%nat then 1 else 0.
Definition checker : eigen := fun A r tol m =>
  mkout (fun _ => 1) (if Rle_dec (defect2 3 A (fun _ => 1) r) (tol * tol * vnorm2 3 r) then true else false) 1 0.
(** C175 violated: a Laplacian on three nodes with one Dirichlet node.  A CG backend with any exact solver reports convergence for a vector
    that does not vanish at the constrained node, so it does not solve the assembled system. *)
Theorem c175_dirichlet_refuted : forall t, symmetric 3 line /\
  (exists E, honest 3 E /\ converged (b_res (fst (fst (apply E (make (CG t) 5000) (set_trivial_rows [(last_dof t, [])] line) (fun _ => 0) (source t) 0)))) = true) /\
  forall E b z r, honest 3 E -> apply E (make (CG t) 5000) (set_trivial_rows [(last_dof t, [])] line) (fun _ => 0) (source t) 0 = (b, z, r) ->
    converged (b_res b) = true -> z (last_dof t) = 1 /\ ~ solves 3 (set_trivial_rows [(last_dof t, [])] line) z (source t).
Proof.
  intros t. split; [|split].
  - intros i j I J. destruct i as [|[|[|i]]], j as [|[|[|j]]]; try lia; cbn; lra.
  - exists checker. split.
    + intros A r tol m. cbn. destruct (Rle_dec _ _); [intros _; assumption|discriminate].
    + cbn [apply fst b_res converged o_success checker make b_kind b_maxiter]. destruct (Rle_dec _ _) as [L|L]; [reflexivity|]. exfalso. apply L.
      unfold defect2, vnorm2, mv. destruct t; cbn; lra.
  - intros E b z r H Ap C. unfold apply in Ap. inversion Ap; subst; clear Ap. cbn [b_res converged] in C. apply H in C.
    set (zz := o_vec _) in *. rewrite !Rmult_0_l in C. apply exact in C.
    assert (Z : zz (last_dof t) = 1).
    { pose proof (C 0%nat ltac:(lia)) as C0. pose proof (C 1%nat ltac:(lia)) as C1. pose proof (C 2%nat ltac:(lia)) as C2.
      unfold mv in C0, C1, C2. clearbody zz. destruct t; cbn in C0, C1, C2 |- *; lra. }
    split; [exact Z|]. intros K. specialize (K (last_dof t)). rewrite (row_value 3 line [(last_dof t, [])]) in K; [|left; reflexivity|destruct t; cbn; lia].
    rewrite Z in K. destruct t; cbn in K; specialize (K ltac:(lia)); lra.
Qed.
Print Assumptions c175_dirichlet_refuted.
(** The same problem with the Dirichlet node where the solver does not look: the hypotheses of [c175_numbering] hold, with a solution. *)
Example c175_meets : let cg := [(0%nat, [])] in let z := fun i => match i with 1%nat => 1/3 | 2%nat => 2/3 | _ => 0 end in
  symmetric 3 line /\ (forall i j, (i < 3)%nat -> (j < 3)%nat -> constrained cg i -> ~ constrained cg j -> reads Up j i = true -> line j i = 0) /\
  (forall i, (i < 3)%nat -> constrained cg i -> source Lo i = 0) /\
  solves 3 (seen (CG Up) (set_trivial_rows cg line)) z (source Lo) /\ ~ symmetric 3 (set_trivial_rows cg line).
Proof.
  cbn zeta. split; [exact (proj1 (c175_dirichlet_refuted Up))|]. split; [|split; [|split]].
  - intros i j _ _ [<-|[]] N R. destruct j as [|j]; [exfalso; apply N; left; reflexivity|discriminate R].
  - intros i _ [<-|[]]. reflexivity.
  - intros i I. unfold mv. destruct i as [|[|[|i]]]; try lia; cbn; lra.
  - intros K. specialize (K 0%nat 1%nat ltac:(lia) ltac:(lia)). cbn in K. lra.
Qed.
