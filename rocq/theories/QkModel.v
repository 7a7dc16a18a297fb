(** Model of the tensor product elements on cubes: Lagrange polynomials at equidistant points
    (dune/pdelab/finiteelement/qkdglagrange.hh), at Gauss-Lobatto points (qkdglobatto.hh), and
    Legendre polynomials (qkdglegendre.hh).

    Real arithmetic is exact.  A point is a function from the coordinate number to a real.  A
    quadrature rule is the list of its points and weights. *)
From Coq Require Export Reals.
From Verif Require Export Common.
Local Open Scope R_scope.

(** QkSize: qkdglagrange.hh 17-51; LegendreSize: qkdglegendre.hh 27-60 is the same.  The dimension is
    at least 1. *)
Fixpoint qk_size (k n : nat) : nat :=
  match k, n with
  | O, _ => 1
  | _, O => 1
  | _, S O => k + 1
  | _, S n' => (k + 1) * qk_size k n'
  end%nat.

(** p: qkdglagrange.hh 53-61 (and EquidistantLagrangePolynomials::p, 86-92). *)
Definition lagrange (k i : nat) (x : R) : R :=
  fold_left (fun r j => if (j =? i)%nat then r else r * ((INR k * x - INR j) / (INR i - INR j))) (seq 0 (k + 1)) 1.
(** dp: qkdglagrange.hh 63-79 (and EquidistantLagrangePolynomials::dp, 94-108). *)
Definition dlagrange (k i : nat) (x : R) : R :=
  fold_left (fun r j => if (j =? i)%nat then r else
    r + fold_left (fun q l => if (l =? i)%nat || (l =? j)%nat then q else q * ((INR k * x - INR l) / (INR i - INR l)))
          (seq 0 (k + 1)) ((INR k * 1) / (INR i - INR j))) (seq 0 (k + 1)) 0.
(** EquidistantLagrangePolynomials::x: qkdglagrange.hh 110-114. *)
Definition equidistant_point (k i : nat) : R := INR i / (1 * INR (k + 1)).

(** multiindex: qkdglagrange.hh 117-127, qkdglegendre.hh 62-72. *)
Fixpoint multiindex (k d i : nat) : list nat :=
  match d with O => [] | S d' => (i mod (k + 1) :: multiindex k d' (i / (k + 1)))%nat end.

(** The loops of evaluateFunction (qkdglagrange.hh 152-170, qkdglobatto.hh 135-153, qkdglegendre.hh
    252-274) for one shape function; [p] is the one-dimensional polynomial. *)
Definition tensor (p : nat -> R -> R) (k d i : nat) (x : nat -> R) : R :=
  let alpha := multiindex k d i in
  fold_left (fun r j => r * p (nth j alpha O) (x j)) (seq 0 d) 1.
(** The loops of evaluateJacobian (qkdglagrange.hh 173-199, qkdglobatto.hh 156-182, qkdglegendre.hh
    277-307) for one entry. *)
Definition dtensor (p dp : nat -> R -> R) (k d i j : nat) (x : nat -> R) : R :=
  let alpha := multiindex k d i in
  fold_left (fun r l => if (l =? j)%nat then r else r * p (nth l alpha O) (x l)) (seq 0 d)
    (dp (nth j alpha O) (x j)).
Definition evaluate_function (p : nat -> R -> R) (k d : nat) (x : nat -> R) : list R :=
  map (fun i => tensor p k d i x) (seq 0 (qk_size k d)).
Definition evaluate_jacobian (p dp : nat -> R -> R) (k d : nat) (x : nat -> R) : list (list R) :=
  map (fun i => map (fun j => dtensor p dp k d i j x) (seq 0 d)) (seq 0 (qk_size k d)).
(** partial: qkdglagrange.hh 202-212, qkdglobatto.hh 185-194, qkdglegendre.hh 310-319. *)
Definition partial (p : nat -> R -> R) (k d : nat) (order : list nat) (x : nat -> R) : res (list R) :=
  if (fold_left Nat.add order 0 =? 0)%nat then Ok (evaluate_function p k d x) else Throw.

(** QkDGLocalCoefficients: qkdglagrange.hh 228-253, qkdglegendre.hh 395-422; subentity, codimension, index. *)
Definition local_keys (k d : nat) : list (nat * nat * nat) := map (fun i => (0, 0, i)%nat) (seq 0 (qk_size k d)).

(** QkLocalInterpolation::interpolate: qkdglagrange.hh 256-300 (with the specialisation for k = 0). *)
Definition interpolate (k d : nat) (f : (nat -> R) -> R) : list R :=
  match k with
  | O => [f (fun _ => / 2)]
  | _ => map (fun i => let alpha := multiindex k d i in f (fun j => (1 * INR (nth j alpha O)) / INR k)) (seq 0 (qk_size k d))
  end.

(** ** Gauss-Lobatto points *)

(** The arrays xi_gl and w_gl start uninitialised; reading an entry that was never written is undefined. *)
Definition store (i : nat) (v : R) (l : list (option R)) : res (list (option R)) :=
  if (i <? length l)%nat then Ok (upd i (Some v) l) else UB.
Definition load (l : list (option R)) (i : nat) : res R :=
  match nth_error l i with Some (Some v) => Ok v | _ => UB end.
(** newj: qkdglobatto.hh 48-51. *)
Definition place (k count : nat) : nat := (if count mod 2 =? 1 then count / 2 else k - count / 2)%nat.
(** The loop over the rule: 45-55. *)
Definition fill (k : nat) (rule : list (R * R)) : res (list (option R) * list (option R)) :=
  foldM (fun s (it : nat * (R * R)) =>
    let '(count, (pos, w)) := it in
    let* xi := store (place k count) pos (fst s) in
    let* ws := store (place k count) w (snd s) in
    Ok (xi, ws)) (combine (seq 0 (length rule)) rule) (repeat None (k + 1)%nat, repeat None (k + 1)%nat).
(** One step of the second loop: 56-65. *)
Definition exchange (k : nat) (s : list (option R) * list (option R)) (j : nat) : res (list (option R) * list (option R)) :=
  let* a := load (fst s) j in
  if Rlt_dec (/ 2) a then
    let* b := load (fst s) (k - j) in
    let* xi := store j b (fst s) in
    let* xi := store (k - j) a xi in
    let* u := load (snd s) j in
    let* v := load (snd s) (k - j) in
    let* ws := store j v (snd s) in
    let* ws := store (k - j) u ws in
    Ok (xi, ws)
  else Ok s.
Definition load_all (l : list (option R)) : res (list R) :=
  foldM (fun acc i => let* v := load l i in Ok (acc ++ [v])) (seq 0 (length l)) [].
(** GaussLobattoLagrangePolynomials(): 27-71.  [rules] are the quadrature rules of orders 1 to 40; the
    result are the arrays as later read by p, dp, x and w. *)
Definition lobatto (k : nat) (rules : list (list (R * R))) : res (list R * list R) :=
  match find (fun r => length r =? k + 1)%nat rules with
  | None => Throw
  | Some rule =>
      let* s := fill k rule in
      let* s := foldM (exchange k) (seq 0 (length rule / 2)) s in
      let* xi := load_all (fst s) in
      let* ws := load_all (snd s) in
      Ok (xi, ws)
  end.
(** p: qkdglobatto.hh 74-80. *)
Definition lagrange_at (xi : nat -> R) (k i : nat) (x : R) : R :=
  fold_left (fun r j => if (j =? i)%nat then r else r * ((x - xi j) / (xi i - xi j))) (seq 0 (k + 1)) 1.
(** dp: qkdglobatto.hh 83-97. *)
Definition dlagrange_at (xi : nat -> R) (k i : nat) (x : R) : R :=
  fold_left (fun r j => if (j =? i)%nat then r else
    r + fold_left (fun q l => if (l =? i)%nat || (l =? j)%nat then q else q * ((x - xi l) / (xi i - xi l)))
          (seq 0 (k + 1)) (1 / (xi i - xi j))) (seq 0 (k + 1)) 0.
(** QkGLLocalInterpolation::interpolate: qkdglobatto.hh 204-245 (with the specialisation for k = 0). *)
Definition interpolate_at (xi : nat -> R) (k d : nat) (f : (nat -> R) -> R) : list R :=
  match k with
  | O => [f (fun _ => / 2)]
  | _ => map (fun i => let alpha := multiindex k d i in f (fun j => xi (nth j alpha O))) (seq 0 (qk_size k d))
  end.

(** ** Legendre polynomials *)

(** LegendrePolynomials1d::pdp: qkdglegendre.hh 110-124, and the same recursion in p (79-86) and dp (97-108);
    the loop writes entry n from entries n-1 and n-2.  The specialisations for k = 0 (137-172) and k = 1
    (174-215) store the first one or two of the same values. *)
Definition legendre_step (x : R) (s : list R * list R) (n : nat) : list R * list R :=
  let v i := nth i (fst s) 0 in
  let a i := nth i (snd s) 0 in
  (fst s ++ [((2 * INR n - 1) * (2 * x - 1) * v (n - 1)%nat - (INR n - 1) * v (n - 2)%nat) / INR n],
   snd s ++ [(2 * x - 1) * a (n - 1)%nat + 2 * INR n * v (n - 1)%nat]).
Definition legendre_pdp (k : nat) (x : R) : list R * list R :=
  match k with
  | O => ([1], [0])
  | _ => fold_left (legendre_step x) (seq 2 (k - 1)) ([1; 2 * x - 1], [0; 2])
  end.
Definition legendre (k i : nat) (x : R) : R := nth i (fst (legendre_pdp k x)) 0.
Definition dlegendre (k i : nat) (x : R) : R := nth i (snd (legendre_pdp k x)) 0.
(** The overloads for one polynomial with k = 1: qkdglegendre.hh 185-189 and 200-203. *)
Definition legendre_1 (i : nat) (x : R) : R := (1 - INR i) + INR i * (2 * x - 1).
Definition dlegendre_1 (i : nat) (x : R) : R := (1 - INR i) * 0 + INR i * 2.

(** DGLegendreLocalInterpolation::interpolate: qkdglegendre.hh 343-379; [rule] is the quadrature rule of
    order 2k on the cube. *)
Definition project (k d : nat) (rule : list ((nat -> R) * R)) (f : (nat -> R) -> R) : list R :=
  map (fun i =>
    let '(out, diagonal) := fold_left (fun s (it : (nat -> R) * R) =>
      let '(x, w) := it in
      let phi := tensor (legendre k) k d i x in
      (fst s + f x * phi * w, snd s + phi * phi * w)) rule (0, 0) in
    out / diagonal) (seq 0 (qk_size k d)).
