(** What assembling a residual means: the sum of all local contributions of an operator. *)
From Verif Require Import EngineModel.
Local Open Scope R_scope.

(** sum of f over a list *)
Definition lsum {A} (f : A -> R) (l : list A) : R := fold_right (fun x acc => f x + acc) 0 l.

Definition opt (on : bool) (v : vec) : vec := if on then v else vzero.
Definition opt2 (on : bool) (v : vec * vec) : vec * vec := if on then v else (vzero, vzero).

(** The intersections of a cell that are not skipped, with their number. *)
Definition numbered (e : env) (c : cell) : list (nat * face) :=
  let fs := filter (fun f => negb (skip_intersection e c f)) (faces c) in combine (seq 0 (length fs)) fs.

Section Value.
  Context {X : Type} (x0 : X).
  Variables (G : space) (e : env) (L : terms X) (t : R) (x : nat -> X).
  (** coefficients of [x] on the cell with index [n] *)
  Let co (n : nat) := gather x0 x (lfsu G n).

  (** contribution of the volume (and post-skeleton volume) terms of a cell to entry [g] of the residual *)
  Definition cell_value (c : cell) (g : nat) : R :=
    scatter (lfsv G (cid c)) (opt (do_alpha_volume L) (alpha_volume L c t (co (cid c)))) g +
    scatter (lfsv G (cid c)) (opt (do_lambda_volume L) (lambda_volume L c t)) g +
    scatter (lfsv G (cid c)) (opt (do_alpha_post L) (alpha_post L c t (co (cid c)))) g +
    scatter (lfsv G (cid c)) (opt (do_lambda_post L) (lambda_post L c t)) g.

  (** contribution of one intersection: interior faces contribute to both cells, and are seen from the cell with the
      larger index unless the operator asks for both sides *)
  Definition face_value (c : cell) (p : nat * face) (g : nat) : R :=
    let (i, f) := p in
    match classify e f with
    | Skeleton | Periodic =>
        if (outside f <? cid c)%nat || do_two_sided L then
          let a := opt2 (do_alpha_skeleton L) (alpha_skeleton L c f i t (co (cid c)) (co (outside f))) in
          let l := opt2 (do_lambda_skeleton L) (lambda_skeleton L c f i t) in
          scatter (lfsv G (cid c)) (fst a) g + scatter (lfsv G (outside f)) (snd a) g +
          (scatter (lfsv G (cid c)) (fst l) g + scatter (lfsv G (outside f)) (snd l) g)
        else 0
    | Boundary =>
        scatter (lfsv G (cid c)) (opt (do_alpha_boundary L) (alpha_boundary L c f i t (co (cid c)))) g +
        scatter (lfsv G (cid c)) (opt (do_lambda_boundary L) (lambda_boundary L c f i t)) g
    | Processor => 0
    end.

  (** The operator applied to [x] at time [t]. *)
  Definition operator_value (cells : list cell) : vec := fun g =>
    lsum (fun c => cell_value c g + lsum (fun p => face_value c p g) (numbered e c))
         (filter (fun c => negb (skip_entity e c)) cells).
End Value.

(** The matrix of an operator: the sum of all local derivative blocks. *)
Definition mopt (on : bool) (m : mat) : mat := if on then m else mzero.
Section JValue.
  Variables (G : space) (e : env) (L : terms R) (J : jterms) (t : R) (x : vec).
  Let co (n : nat) := gather 0 x (lfsu G n).
  Definition cell_jac (c : cell) (g h : nat) : R :=
    mscatter (lfsv G (cid c)) (lfsu G (cid c)) (mopt (do_alpha_volume L) (j_volume J c t (co (cid c)))) g h +
    mscatter (lfsv G (cid c)) (lfsu G (cid c)) (mopt (do_alpha_post L) (j_post J c t (co (cid c)))) g h.
  Definition face_jac (c : cell) (p : nat * face) (g h : nat) : R :=
    let (i, f) := p in
    match classify e f with
    | Skeleton | Periodic =>
        if ((outside f <? cid c)%nat || do_two_sided L) && do_alpha_skeleton L then
          let '((ss, sn), (ns, nn)) := j_skeleton J c f i t (co (cid c)) (co (outside f)) in
          mscatter (lfsv G (cid c)) (lfsu G (cid c)) ss g h + mscatter (lfsv G (cid c)) (lfsu G (outside f)) sn g h +
          mscatter (lfsv G (outside f)) (lfsu G (cid c)) ns g h + mscatter (lfsv G (outside f)) (lfsu G (outside f)) nn g h
        else 0
    | Boundary => mscatter (lfsv G (cid c)) (lfsu G (cid c)) (mopt (do_alpha_boundary L) (j_boundary J c f i t (co (cid c)))) g h
    | Processor => 0
    end.
  Definition jacobian_value (cells : list cell) : mat := fun g h =>
    lsum (fun c => cell_jac c g h + lsum (fun p => face_jac c p g h) (numbered e c))
         (filter (fun c => negb (skip_entity e c)) cells).
End JValue.

(** Product of the first [N] columns of a matrix with a vector; sum over i < n. *)
Fixpoint nsum (n : nat) (f : nat -> R) : R := match n with O => 0 | S k => nsum k f + f k end.
Definition mv (N : nat) (m : mat) (z : vec) : vec := fun g => nsum N (fun h => m g h * z h).

(** Locally, the derivative terms are the derivatives of the residual terms, in every direction. *)
Definition along (x z : vec) (s : R) : vec := vadd x (vscal s z).
Definition local_derivatives (G : space) (L : terms R) (J : jterms) : Prop :=
  forall c t x z,
    (forall i, (i < length (lfsv G (cid c)))%nat -> derivable_pt_lim (fun s => alpha_volume L c t (along x z s) i) 0 (mv (length (lfsu G (cid c))) (j_volume J c t x) z i)) /\
    (forall i, (i < length (lfsv G (cid c)))%nat -> derivable_pt_lim (fun s => alpha_post L c t (along x z s) i) 0 (mv (length (lfsu G (cid c))) (j_post J c t x) z i)) /\
    (forall f k i, (i < length (lfsv G (cid c)))%nat -> derivable_pt_lim (fun s => alpha_boundary L c f k t (along x z s) i) 0
                     (mv (length (lfsu G (cid c))) (j_boundary J c f k t x) z i)) /\
    (forall f k y v i, let '((ss, sn), (ns, nn)) := j_skeleton J c f k t x y in
       let n := length (lfsu G (cid c)) in let n' := length (lfsu G (outside f)) in
       ((i < length (lfsv G (cid c)))%nat -> derivable_pt_lim (fun s => fst (alpha_skeleton L c f k t (along x z s) (along y v s)) i) 0 (mv n ss z i + mv n' sn v i)) /\
       ((i < length (lfsv G (outside f)))%nat -> derivable_pt_lim (fun s => snd (alpha_skeleton L c f k t (along x z s) (along y v s)) i) 0 (mv n ns z i + mv n' nn v i))).

(** Locally, the jacobian_apply terms are the derivative terms times the coefficients of the update. *)
Definition local_apply (G : space) (L : terms R) (J : jterms) (LA : terms (R * R)) : Prop :=
  do_alpha_volume LA = do_alpha_volume L /\ do_alpha_skeleton LA = do_alpha_skeleton L /\
  do_alpha_boundary LA = do_alpha_boundary L /\ do_alpha_post LA = do_alpha_post L /\ do_two_sided LA = do_two_sided L /\
  do_lambda_volume LA = false /\ do_lambda_skeleton LA = false /\ do_lambda_boundary LA = false /\ do_lambda_post LA = false /\
  forall c t (p : nat -> R * R), let x := fun i => fst (p i) in let z := fun i => snd (p i) in
    (forall i, (i < length (lfsv G (cid c)))%nat -> alpha_volume LA c t p i = mv (length (lfsu G (cid c))) (j_volume J c t x) z i) /\
    (forall i, (i < length (lfsv G (cid c)))%nat -> alpha_post LA c t p i = mv (length (lfsu G (cid c))) (j_post J c t x) z i) /\
    (forall f k i, (i < length (lfsv G (cid c)))%nat -> alpha_boundary LA c f k t p i = mv (length (lfsu G (cid c))) (j_boundary J c f k t x) z i) /\
    (forall f k q i, let y := fun i => fst (q i) in let v := fun i => snd (q i) in
       let '((ss, sn), (ns, nn)) := j_skeleton J c f k t x y in
       let n := length (lfsu G (cid c)) in let n' := length (lfsu G (outside f)) in
       ((i < length (lfsv G (cid c)))%nat -> fst (alpha_skeleton LA c f k t p q) i = mv n ss z i + mv n' sn v i) /\
       ((i < length (lfsv G (outside f)))%nat -> snd (alpha_skeleton LA c f k t p q) i = mv n ns z i + mv n' nn v i)).

(** All DOFs of the trial space are below [N]. *)
Definition dofs_below (N : nat) (G : space) : Prop := forall c g, In g (lfsu G c) -> (g < N)%nat.
