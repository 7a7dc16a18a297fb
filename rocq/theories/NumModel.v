(** Model of the numerical local operator mixins: numerical Jacobians
    (dune/pdelab/localoperator/numericaljacobian.hh), their matrix-free application (numericaljacobianapply.hh and
    numericalnonlinearjacobianapply.hh) and residuals computed from a Jacobian (numericalresidual.hh), together with
    the dense local matrix they use (dune/pdelab/gridoperator/common/localmatrix.hh) and its diagonal variant
    (diagonallocalmatrix.hh).

    Real arithmetic is exact.  In the first part local vectors and matrices are functions of the position in the bound
    local function space (EngineModel.v), whose localIndex is the identity; a local operator reads the coefficients
    and adds weight times a contribution to the view it receives.  The LocalMatrix part keeps the storage vector. *)
From Verif Require Export EngineModel.
Local Open Scope R_scope.

(** u(lfsu,j) = v. *)
Definition vset (u : vec) (j : nat) (v : R) : vec := fun k => if (k =? j)%nat then v else u k.
(** The view of a zero-initialised local vector with weight w after one call of the operator (localvector.hh 79-84). *)
Definition fresh (w : R) (v : vec) : vec := vacc w vzero v.
(** delta = epsilon*(1.0+abs(u(lfsu,j))): numericaljacobian.hh 70. *)
Definition step_width (eps : R) (u : vec) (j : nat) : R := eps * (1 + Rabs (u j)).

(** _container(lfsv,i,lfsu,j) += v: localmatrix.hh 75-97. *)
Definition add_entry (a : mat) (i j : nat) (v : R) : mat :=
  fun g h => if ((g =? i) && (h =? j))%nat then a g h + v else a g h.
Definition add_coef (a : vec) (i : nat) (v : R) : vec := fun g => if (g =? i)%nat then a g + v else a g.
(** for i<m: mat.rawAccumulate(lfsv,i,lfsu,j,v(i)). *)
Definition raw_column (m j : nat) (v : vec) (a : mat) : mat :=
  fold_left (fun a i => add_entry a i j (v i)) (seq 0 m) a.
(** for i<m: mat.accumulate(lfsv,i,lfsu,j,v(i)), a view of weight w. *)
Definition acc_column (w : R) (m j : nat) (v : vec) (a : mat) : mat :=
  fold_left (fun a i => add_entry a i j (w * v i)) (seq 0 m) a.
Definition raw_vector (m : nat) (v : vec) (y : vec) : vec := fold_left (fun y i => add_coef y i (v i)) (seq 0 m) y.
Definition acc_vector (w : R) (m : nat) (v : vec) (y : vec) : vec :=
  fold_left (fun y i => add_coef y i (w * v i)) (seq 0 m) y.

Definition quotient (up down : vec) (delta : R) : vec := fun i => (up i - down i) / delta.

(** NumericalJacobianVolume::jacobian_volume: numericaljacobian.hh 44-76 (and the textually identical
    NumericalJacobianVolumePostSkeleton::jacobian_volume_post_skeleton, 104-135, for alpha_volume_post_skeleton;
    NumericalJacobianBoundary::jacobian_boundary, 261-296, for alpha_boundary).  [w] weight of the matrix view. *)
Definition num_jacobian (eps : R) (alpha : vec -> vec) (m n : nat) (w : R) (x : vec) (a : mat) : mat :=
  let down := fresh w (alpha x) in
  snd (fold_left (fun (s : vec * mat) j =>
    let (u, a) := s in
    let delta := step_width eps u j in
    let u' := vset u j (u j + delta) in
    let up := fresh w (alpha u') in
    (vset u' j (x j), raw_column m j (quotient up down delta) a)) (seq 0 n) (x, a)).

(** NumericalJacobianSkeleton::jacobian_skeleton: numericaljacobian.hh 166-232; weights of the four views agree. *)
Definition blocks4 : Type := (mat * mat) * (mat * mat).   (* (ss, sn), (ns, nn) *)
Definition num_jacobian_skeleton (eps : R) (alpha : vec -> vec -> vec * vec) (ms mn ns nn : nat) (w : R)
    (xs xn : vec) (b : blocks4) : blocks4 :=
  let down := alpha xs xn in
  let down_s := fresh 1 (fst down) in let down_n := fresh 1 (snd down) in
  let '(us, b1) := fold_left (fun (s : vec * blocks4) j =>
    let '(u, ((ass, asn), (ans, ann))) := s in
    let delta := step_width eps u j in
    let u' := vset u j (u j + delta) in
    let up := alpha u' xn in
    (vset u' j (xs j),
     ((acc_column w ms j (quotient (fresh 1 (fst up)) down_s delta) ass, asn),
      (acc_column w mn j (quotient (fresh 1 (snd up)) down_n delta) ans, ann)))) (seq 0 ns) (xs, b) in
  snd (fold_left (fun (s : vec * blocks4) j =>
    let '(u, ((ass, asn), (ans, ann))) := s in
    let delta := step_width eps u j in
    let u' := vset u j (u j + delta) in
    let up := alpha us u' in
    (vset u' j (xn j),
     ((ass, acc_column w ms j (quotient (fresh 1 (fst up)) down_s delta) asn),
      (ans, acc_column w mn j (quotient (fresh 1 (snd up)) down_n delta) ann)))) (seq 0 nn) (xn, b1)).

(** NumericalNonlinearJacobianApplyVolume::jacobian_apply_volume: numericalnonlinearjacobianapply.hh 45-77, and the
    post-skeleton variant 106-138.  The linear variants (numericaljacobianapply.hh 57-88, 126-157) pass z = x. *)
Definition num_apply (eps : R) (alpha : vec -> vec) (m n : nat) (w : R) (x z : vec) (y : vec) : vec :=
  let down := fresh w (alpha x) in
  snd (fold_left (fun (s : vec * vec) j =>
    let (u, y) := s in
    let delta := step_width eps u j in
    let u' := vset u j (u j + delta) in
    let up := fresh w (alpha u') in
    (vset u' j (x j), raw_vector m (fun i => quotient up down delta i * z j) y)) (seq 0 n) (x, y)).
Definition num_apply_linear (eps : R) (alpha : vec -> vec) (m n : nat) (w : R) (x : vec) (y : vec) : vec :=
  num_apply eps alpha m n w x x y.

(** Skeleton: the differences are multiplied with [cs] / [cn] (per column) for the inside rows and [cs'] / [cn'] for
    the outside rows. *)
Definition num_apply_faces (eps : R) (alpha : vec -> vec -> vec * vec) (ms mn ns nn : nat) (w : R)
    (xs xn cs cs' cn cn' : vec) (y : vec * vec) : vec * vec :=
  let down := alpha xs xn in
  let down_s := fresh 1 (fst down) in let down_n := fresh 1 (snd down) in
  let '(us, y1) := fold_left (fun (s : vec * (vec * vec)) j =>
    let '(u, (ys, yn)) := s in
    let delta := step_width eps u j in
    let u' := vset u j (u j + delta) in
    let up := alpha u' xn in
    (vset u' j (xs j),
     (acc_vector w ms (fun i => quotient (fresh 1 (fst up)) down_s delta i * cs j) ys,
      acc_vector w mn (fun i => quotient (fresh 1 (snd up)) down_n delta i * cs' j) yn))) (seq 0 ns) (xs, y) in
  snd (fold_left (fun (s : vec * (vec * vec)) j =>
    let '(u, (ys, yn)) := s in
    let delta := step_width eps u j in
    let u' := vset u j (u j + delta) in
    let up := alpha us u' in
    (vset u' j (xn j),
     (acc_vector w ms (fun i => quotient (fresh 1 (fst up)) down_s delta i * cn j) ys,
      acc_vector w mn (fun i => quotient (fresh 1 (snd up)) down_n delta i * cn' j) yn))) (seq 0 nn) (xn, y1)).

(** NumericalJacobianApplySkeleton::jacobian_apply_skeleton (linear problems): numericaljacobianapply.hh 195-259. *)
Definition num_apply_skeleton_linear eps alpha ms mn ns nn w xs xn y :=
  num_apply_faces eps alpha ms mn ns nn w xs xn xs xs xn xn y.
(** NumericalNonlinearJacobianApplySkeleton::jacobian_apply_skeleton: numericalnonlinearjacobianapply.hh 168-225: the
    inside rows use the update z, the outside rows (205, 222) the linearisation point x. *)
Definition num_apply_skeleton eps alpha ms mn ns nn w xs zs xn zn y :=
  num_apply_faces eps alpha ms mn ns nn w xs xn zs xs zn xn y.

(** NumericalJacobianApplyBoundary::jacobian_apply_boundary: numericaljacobianapply.hh 303-338; the views have weight
    1 and rawAccumulate does not apply the weight [w] of [y].  NumericalNonlinearJacobianApplyBoundary
    (numericalnonlinearjacobianapply.hh 255-288) is the same: it multiplies with x_s, not with z_s. *)
Definition num_apply_boundary_linear (eps : R) (alpha : vec -> vec) (m n : nat) (w : R) (x : vec) (y : vec) : vec :=
  let down := fresh 1 (alpha x) in
  snd (fold_left (fun (s : vec * vec) j =>
    let (u, y) := s in
    let delta := step_width eps u j in
    let u' := vset u j (u j + delta) in
    let up := fresh 1 (alpha u') in
    (vset u' j (x j), raw_vector m (fun i => quotient up down delta i * x j) y)) (seq 0 n) (x, y)).
Definition num_apply_boundary (eps : R) (alpha : vec -> vec) (m n : nat) (w : R) (x z : vec) (y : vec) : vec :=
  num_apply_boundary_linear eps alpha m n w x y.

(** ** LocalMatrix: localmatrix.hh 173-447 (column-major storage) *)
Record lmat := mklmat { lrows : nat; lcols : nat; ldata : list R }.
(** LocalMatrix(r,c,t) and assign: 280-285, 305-310. *)
Definition lmat_new (r c : nat) (t : R) : lmat := mklmat r c (repeat t (r * c)).
(** getEntry: 424-441; vector access out of range is undefined. *)
Definition lget (a : lmat) (i j : nat) : res R :=
  match nth_error (ldata a) (j * lrows a + i) with Some v => Ok v | None => UB end.
Definition lset (a : lmat) (i j : nat) (v : R) : res lmat :=
  if (j * lrows a + i <? length (ldata a))%nat
  then Ok (mklmat (lrows a) (lcols a) (upd (j * lrows a + i) v (ldata a))) else UB.
(** _container(lfsv,i,lfsu,j) += weight * v: 75-86. *)
Definition laccumulate (w : R) (a : lmat) (e : (nat * nat) * R) : res lmat :=
  let '((i, j), v) := e in let* o := lget a i j in lset a i j (o + w * v).
(** resize: 288-293; std::vector::resize keeps the leading entries and appends zeros. *)
Definition lresize (a : lmat) (r c : nat) : lmat :=
  mklmat r c (firstn (r * c) (ldata a ++ repeat 0 (r * c - length (ldata a)))).
(** operator=(t), operator*=: 296-300, 344-354. *)
Definition lfill (a : lmat) (t : R) : lmat := mklmat (lrows a) (lcols a) (repeat t (length (ldata a))).
Definition lscale (a : lmat) (x : R) : lmat := mklmat (lrows a) (lcols a) (map (fun v => x * v) (ldata a)).

Definition rget (x : list R) (i : nat) : res R := match nth_error x i with Some v => Ok v | None => UB end.
Definition rset (x : list R) (i : nat) (v : R) : res (list R) :=
  if (i <? length x)%nat then Ok (upd i v x) else UB.
(** usmv: 381-389 (umv, 370-378, is the case alpha = 1). *)
Definition usmv (alpha : R) (a : lmat) (x y : list R) : res (list R) :=
  foldM (fun y i => foldM (fun y j =>
    let* o := rget y i in let* v := lget a i j in let* b := rget x j in rset y i (o + alpha * v * b))
    (seq 0 (lcols a)) y) (seq 0 (lrows a)) y.

(** Iterator: 206-274.  [begin], [end], increment, decrement as (row, column). *)
Definition it_begin : nat * nat := (0, 0)%nat.
Definition it_end (a : lmat) : nat * nat := if (0 <? lcols a)%nat then (lrows a, 0%nat) else it_begin.
Definition it_next (a : lmat) (p : nat * nat) : nat * nat :=
  let (i, j) := p in if (j <? lcols a - 1)%nat then (i, S j) else (S i, 0%nat).
Definition it_prev (a : lmat) (p : nat * nat) : nat * nat :=
  let (i, j) := p in if (0 <? j)%nat then (i, (j - 1)%nat) else ((i - 1)%nat, (lcols a - 1)%nat).

(** JacobianBasedAlphaVolume::alpha_volume: numericalresidual.hh 41-56; the Jacobian is given by the entries it adds.
    [w] is the weight of [r]. *)
Definition jb_alpha_volume (jacobian : list R -> list ((nat * nat) * R)) (w : R) (x r : list R) : res (list R) :=
  let* a := foldM (laccumulate 1) (jacobian x) (lmat_new (length r) (length x) 0) in usmv w a x r.
(** JacobianBasedAlphaBoundary::alpha_boundary: 142-157; the sizes are passed in the other order (150). *)
Definition jb_alpha_boundary (jacobian : list R -> list ((nat * nat) * R)) (w : R) (x r : list R) : res (list R) :=
  let* a := foldM (laccumulate 1) (jacobian x) (lmat_new (length x) (length r) 0) in usmv w a x r.
(** JacobianBasedAlphaSkeleton::alpha_skeleton: 86-117. *)
Record skeleton_entries := mkskel {
  e_ss : list ((nat * nat) * R); e_sn : list ((nat * nat) * R);
  e_ns : list ((nat * nat) * R); e_nn : list ((nat * nat) * R) }.
Definition jb_alpha_skeleton (jacobian : list R -> list R -> skeleton_entries) (ws wn : R) (xs xn rs rn : list R)
    : res (list R * list R) :=
  let e := jacobian xs xn in
  let* ss := foldM (laccumulate 1) (e_ss e) (lmat_new (length rs) (length xs) 0) in
  let* sn := foldM (laccumulate 1) (e_sn e) (lmat_new (length rs) (length xn) 0) in
  let* ns := foldM (laccumulate 1) (e_ns e) (lmat_new (length rn) (length xs) 0) in
  let* nn := foldM (laccumulate 1) (e_nn e) (lmat_new (length rn) (length xn) 0) in
  let* rs := usmv ws ss xs rs in
  let* rn := usmv wn ns xs rn in
  let* rs := usmv ws sn xn rs in
  let* rn := usmv wn nn xn rn in
  Ok (rs, rn).

(** ** DiagonalLocalMatrix: diagonallocalmatrix.hh 27-293 (without asserts, as in a release build) *)
Record dmat := mkdmat { drows : nat; dcols : nat; ddata : list R }.
Definition dmat_new (n : nat) (t : R) : dmat := mkdmat n n (repeat t n).
(** getEntry: 264-285; assert(i == j) is compiled out, the entry of row i is returned. *)
Definition dget (a : dmat) (i j : nat) : res R := match nth_error (ddata a) i with Some v => Ok v | None => UB end.
(** with asserts enabled *)
Definition dget_checked (a : dmat) (i j : nat) : res R := if (i =? j)%nat then dget a i j else UB.
Definition daccumulate (w : R) (a : dmat) (e : nat * R) : res dmat :=
  let (i, v) := e in let* o := dget a i i in let* d := rset (ddata a) i (o + w * v) in Ok (mkdmat (drows a) (dcols a) d).
(** umv: 209-217, usmv: 220-228. *)
Definition dusmv (alpha : R) (a : dmat) (x y : list R) : res (list R) :=
  foldM (fun y i => foldM (fun y j =>
    let* o := rget y i in let* v := dget a i j in let* b := rget x j in rset y i (o + alpha * v * b))
    (seq 0 (dcols a)) y) (seq 0 (drows a)) y.
