(** Model of the parallel hybrid DG/AMG preconditioner of dune-pdelab: backend/istl/ovlp_amg_dg_backend.hh 276-428
    (OvlpDGAMGPrec).

    Worlds, communication and vectors as in ParModel and DdModel, one world for the degrees of freedom of the DG space
    and one for those of the CG space. Simplifications: as in DdModel (scalar blocks, a matrix is the function of its
    entries, real numbers); the smoother is an arbitrary function on every rank; the AMG (dune-istl) is a function of the
    vectors of all ranks. *)
From Coq Require Import Reals ZArith.
From Verif Require Import Common ParModel DdModel.

Section ovlp.
  Variables W Wc : world.
  Variables shape shapec : nat -> blocks dof.

  (** ovlp_amg_dg_backend.hh 297-307: members. [dg_part] is the rank partition in the helper of the DG space, [cg_sets] are the
      index sets in the communication object (ParModel.amg_index_sets). *)
  Record ovlp_prec := { dg_matrix : dmat; dg_smoother : seq_prec; dg_cc : nat -> dof -> bool; cg_amg : dvec R -> dvec R -> dvec R;
                        cg_cc : nat -> dof -> bool; transfer : nat -> dof -> dof -> R; dg_part : dvec nat;
                        cg_sets : nat -> list (nat * nat * bool); steps1 : Z; steps2 : Z }.

  Definition zeros (V : world) : dvec R := fun q => tabulate V (fun _ => 0%R).
  (** x += v *)
  Definition plus (x v : dvec R) : dvec R := fun q => tabulate W (fun i => val (x q) i + val (v q) i)%R.

  (** p.mtv(d,cgd), p.mv(cgv,v): the local parts of the prolongation. *)
  Definition restrict (p : ovlp_prec) (d : dvec R) : dvec R :=
    fun q => tabulate Wc (fun k => fold_left (fun s i => s + transfer p q i k * val (d q) i)%R (cols shape q) 0%R).
  Definition prolongate (p : ovlp_prec) (w : dvec R) : dvec R :=
    fun q => tabulate W (fun i => fold_left (fun s k => s + transfer p q i k * val (w q) k)%R (cols shapec q) 0%R).

  (** comm.project(x) of dune-istl (OwnerOverlapCopyCommunication): entries whose index is a copy are set to zero; entries
      that are not in the index set are kept. *)
  Definition is_copy (p : ovlp_prec) (q : nat) (k : dof) : bool :=
    existsb (fun t => match nth_error (cols shapec q) (snd (fst t)) with
                      | Some x => (fst x =? fst k) && (snd x =? snd k) && negb (snd t)
                      | None => false
                      end) (cg_sets p q).
  Definition project (p : ovlp_prec) (x : dvec R) : dvec R :=
    fun q => tabulate Wc (fun k => if is_copy p q k then 0%R else val (x q) k).

  (** ovlp_amg_dg_backend.hh 366-376 and 404-413: one smoothing step; [order] is the order of arrival of the messages. *)
  Definition par_smooth (p : ovlp_prec) (xd : dvec R * dvec R) (order : order_t) : res (dvec R * dvec R) :=
    let (x, d) := xd in
    let* v := add_if_parallel W order (fun q => dg_smoother p q (zeros W q) (d q)) in
    let d := set_constrained W (dg_cc p) (usmv W shape (-1) (dg_matrix p) v d) in
    Ok (plus x v, d).

  (** ovlp_amg_dg_backend.hh 378-400: the correction in the CG space. *)
  Definition par_coarse (p : ovlp_prec) (xd : dvec R * dvec R) (order : order_t) : res (dvec R * dvec R) :=
    let (x, d) := xd in
    let d := mask_foreign_dofs W (dg_part p) d in
    let* cgd := add_if_parallel Wc order (restrict p d) in
    let cgd := project p (set_constrained Wc (cg_cc p) cgd) in
    let cgv := cg_amg p (zeros Wc) cgd in
    let v := prolongate p cgv in
    let d := set_constrained W (dg_cc p) (usmv W shape (-1) (dg_matrix p) v d) in
    Ok (plus x v, d).

  (** ovlp_amg_dg_backend.hh 357-415: apply(x,b); [pre], [middle] and [post] are the orders of arrival. *)
  Definition par_hybrid (p : ovlp_prec) (pre post : nat -> order_t) (middle : order_t) (x b : dvec R) : res (dvec R) :=
    let d := set_constrained W (dg_cc p) b in
    let* xd := foldM (fun xd i => par_smooth p xd (pre i)) (seq 0 (Z.to_nat (steps1 p))) (x, d) in
    let* xd := par_coarse p xd middle in
    let* xd := foldM (fun xd i => par_smooth p xd (post i)) (seq 0 (Z.to_nat (steps2 p))) xd in
    Ok (fst xd).
End ovlp.
