(** Model of the L2-orthonormal polynomial bases.

    Modelled code: dune/pdelab/finiteelement/l2orthonormal.hh 46-784 (multi-indices, monomial integrals on the reference
    cube and simplices, Gram-Schmidt process, evaluation of values and derivatives, interpolation).

    Simplifications: int and long are unbounded except in binomial, whose products leave the range of long first; the
    computation field and the coefficient field are the real numbers; the dimension is at least one. *)
From Coq Require Import Reals ZArith.
From Verif Require Import Common.

(** 50-59 *)
Definition multiindex := list nat.

(** 61-70: the number of polynomials of degree at most [k] in dimension [d]. *)
Fixpoint pk_size (k d : nat) : nat :=
  match d with
  | 0 => 1
  | S d' =>
      if k =? 0 then 1 else
      match d' with
      | 0 => k + 1
      | _ => fold_left (fun n j => n + pk_size (k - j) d') (seq 0 (k + 1)) 0
      end
  end.

(** 72-79 *)
Definition pk_size_exact (k d : nat) : nat := if k =? 0 then 1 else pk_size k d - pk_size (k - 1) d.

(** 91-115: [r] is the number of dimensions from [dim] on; the flag tells whether the loop has returned. *)
Fixpoint pk_enumerate (r dim k : nat) (i : Z) (alpha : multiindex) (count : Z) : multiindex * Z :=
  match r with
  | 0 => (alpha, count)
  | S r' =>
      let alpha := upd dim k alpha in
      let count := (count + 1)%Z in
      if (count =? i)%Z then (alpha, count) else
      let '(found, alpha, count) :=
        fold_left (fun st m =>
          let '(found, alpha, count) := st in
          if (found : bool) then st else
          let '(alpha, count) := pk_enumerate r' (dim + 1) (k - m) i (upd dim m alpha) count in
          ((count =? i)%Z, alpha, count)) (rev (seq 0 k)) (false, alpha, count) in
      if found then (alpha, count) else (upd dim 0 alpha, count)
  end.

(** 117-130 *)
Definition pk_multiindex (d i : nat) : res multiindex :=
  let alpha := repeat 0 d in
  if i =? 0 then Ok alpha else
  match find (fun k => (pk_size (k - 1) d <=? i) && (i <? pk_size k d)) (seq 1 24) with
  | Some k => Ok (fst (pk_enumerate d 0 k (Z.of_nat (i - pk_size (k - 1) d)) alpha (-1)%Z))
  | None => Throw
  end.

(** 132-139 *)
Definition qk_size (k d : nat) : nat := fold_left (fun n _ => n * (k + 1)) (seq 0 d) 1.

(** 141-149 *)
Fixpoint qk_multiindex (d i k : nat) : multiindex :=
  match d with 0 => [] | S d' => i mod (k + 1) :: qk_multiindex d' (i / (k + 1)) k end.

(** 151-222: the traits of the two kinds of bases *)
Inductive basis_type := Pk | Qk.
Definition traits_size (b : basis_type) (k d : nat) : nat := match b with Pk => pk_size k d | Qk => qk_size k d end.
Definition traits_multiindex (b : basis_type) (d i k : nat) : res multiindex :=
  match b with Pk => pk_multiindex d i | Qk => Ok (qk_multiindex d i k) end.

(** ** Integrals of monomials *)

(** Signed overflow of long is undefined. *)
Definition to_long (z : Z) : res Z :=
  if ((- 9223372036854775808 <=? z) && (z <=? 9223372036854775807))%Z then Ok z else UB.
(** The loops of 238, 240, 246, 248: the product of the numbers [from], ..., [to]. *)
Definition long_product (from to : Z) : res Z :=
  foldM (fun p i => to_long (p * (from + Z.of_nat i))) (seq 0 (Z.to_nat (to - from + 1))) 1%Z.
(** 228-251 *)
Definition binomial (n k : Z) : res Z :=
  if (n <=? 2 * k)%Z
  then let* nominator := long_product (k + 1) n in
       let* denominator := long_product 2 (n - k) in
       Ok (nominator / denominator)%Z
  else let* nominator := long_product (n - k + 1) n in
       let* denominator := long_product 2 k in
       Ok (nominator / denominator)%Z.

Inductive shape := Cube | Simplex.

(** The sums of 313-321, 336-344, 345-353: over k <= m of (-1)^k binomial(m,k) / (n+k+1). *)
Definition alternating_sum (m n : nat) : res R :=
  foldM (fun s k => let* b := binomial (Z.of_nat m) (Z.of_nat k) in
                    Ok (s + IZR ((if k mod 2 =? 1 then -1 else 1) * b) / INR (n + k + 1))%R) (seq 0 (m + 1)) 0%R.

(** 253-357: specialisations for the cube in any dimension and the simplex in dimensions 1 to 3; the others throw. *)
Definition integrate (s : shape) (d : nat) (a : multiindex) : res R :=
  match s, d with
  | Cube, _ => Ok (fold_left (fun result i => result / INR (nth i a 0%nat + 1))%R (seq 0 d) 1%R)
  | Simplex, 1 => Ok (1 / INR (nth 0 a 0%nat + 1))%R
  | Simplex, 2 =>
      let* sum := alternating_sum (nth 1 a 0 + 1) (nth 0 a 0) in
      Ok (sum / INR (nth 1 a 0%nat + 1))%R
  | Simplex, 3 =>
      let* sumk := alternating_sum (nth 2 a 0 + 1) (nth 1 a 0) in
      let* sumj := alternating_sum (nth 1 a 0 + nth 2 a 0 + 2) (nth 0 a 0) in
      Ok (sumk * sumj / INR (nth 2 a 0%nat + 1))%R
  | Simplex, _ => Throw
  end.

(** ** Evaluation of monomials *)

(** 371-372, 383-384 *)
Definition power_loop (x : R) (n : nat) : R := fold_left (fun p _ => p * x)%R (seq 0 n) 1%R.
(** 363-387: products from the last to the first coordinate *)
Fixpoint monomial_evaluate (dim : nat) (x : list R) (a : multiindex) : R :=
  match dim with
  | 0 => 1%R
  | S 0 => power_loop (nth 0 x 0%R) (nth 0 a 0)
  | S dim' => (power_loop (nth dim' x 0) (nth dim' a 0%nat) * monomial_evaluate dim' x a)%R
  end.

(** ** The Gram-Schmidt process *)

Definition matrix := nat -> nat -> R.

(** 617-629: the coefficient bi[j], where [g i l] is the integral of the product of the monomials i and l *)
Definition gs_coefficient (g c : matrix) (i j : nat) : R :=
  fold_left (fun b l => b + c j l * g i l)%R (seq 0 (j + 1)) 0%R.
(** 630-631: row i after the subtraction of row j *)
Definition gs_subtract (c : matrix) (i j : nat) (b : R) : matrix :=
  fun i' l => if (i' =? i) && (l <=? j) then (c i l - b * c j l)%R else c i' l.
(** 613-645: one pass of the loop over i *)
Definition gs_row (g c : matrix) (i : nat) : matrix :=
  let '(c, bi) :=
    fold_left (fun st j => let '(c, bi) := st in
                           let b := gs_coefficient g c i j in
                           (gs_subtract c i j b, bi ++ [b])) (seq 0 i) (c, []) in
  let s2 := fold_left (fun s2 b => s2 - b * b)%R bi (0 + g i i)%R in
  let s := (1 / sqrt s2)%R in
  fun i' l => if (i' =? i) && (l <=? i) then (s * c i l)%R else c i' l.
(** 597-655 *)
Definition gram_schmidt (n : nat) (g : matrix) : matrix :=
  fold_left (gs_row g) (seq 0 n) (fun i j => if i =? j then 1%R else 0%R).

(** 427-461: the constructors; the multi-indices of the basis *)
Definition basis_indices (b : basis_type) (k d : nat) : res (list multiindex) :=
  foldM (fun l i => let* a := traits_multiindex b d i k in Ok (l ++ [a])) (seq 0 (traits_size b k d)) [].

(** 624-626, 635-636 *)
Definition add_index (d : nat) (a b : multiindex) : multiindex := map (fun m => nth m a 0 + nth m b 0) (seq 0 d).
(** 624-627, 637: the integrals the process asks for (here all at once before it starts) *)
Definition gram_row (s : shape) (d : nat) (al : list multiindex) (i : nat) : res (list R) :=
  foldM (fun row l => let* v := integrate s d (add_index d (nth i al []) (nth l al [])) in Ok (row ++ [v]))
    (seq 0 (i + 1)) [].
Definition gram_table (s : shape) (d : nat) (al : list multiindex) : res (list (list R)) :=
  foldM (fun t i => let* row := gram_row s d al i in Ok (t ++ [row])) (seq 0 (length al)) [].

(** 583-595 *)
Definition same_index (d : nat) (a b : multiindex) : bool := forallb (fun j => nth j a 0 =? nth j b 0) (seq 0 d).
Definition invert_index (d : nat) (al : list multiindex) (a : multiindex) : res nat :=
  match find (fun i => same_index d a (nth i al [])) (seq 0 (length al)) with Some i => Ok i | None => Throw end.

(** 554-569: row i of the coefficients of the derivatives in direction s (the assignments for different i and s concern
    different entries) *)
Definition grad_row (d : nat) (al : list multiindex) (c : matrix) (s i : nat) : res (nat -> R) :=
  foldM (fun (row : nat -> R) j =>
    let e := nth s (nth j al []) 0 in
    if 0 <? e then
      let* l := invert_index d al (upd s (e - 1) (nth j al [])) in
      Ok (fun l' => if l' =? l then (row l' + c i j * INR e)%R else row l')
    else Ok row) (seq 0 (i + 1)) (fun _ => 0%R).
Definition grad_rows (d : nat) (al : list multiindex) (c : matrix) (s : nat) : res (list (nat -> R)) :=
  foldM (fun t i => let* row := grad_row d al c s i in Ok (t ++ [row])) (seq 0 (length al)) [].

(** OrthonormalPolynomialBasis 534-536: the multi-indices, the coefficients and the coefficients of the derivatives *)
Record basis := { alpha : list multiindex; coeffs : matrix; gradcoeffs : list (list (nat -> R)) }.

(** 540-569 after 427-443 *)
Definition construct (b : basis_type) (s : shape) (k d : nat) : res basis :=
  let* al := basis_indices b k d in
  let* g := gram_table s d al in
  let c := gram_schmidt (length al) (fun i l => nth l (nth i g []) 0%R) in
  let* gc := foldM (fun t r => let* rows := grad_rows d al c r in Ok (t ++ [rows])) (seq 0 d) [] in
  Ok {| alpha := al; coeffs := c; gradcoeffs := gc |}.

(** ** Evaluation *)

(** 469-480: entry i of the result of the first version, with coefficients [c] *)
Definition evaluate_all (d : nat) (al : list multiindex) (c : matrix) (x : list R) (i : nat) : R :=
  fold_left (fun r j => let value := monomial_evaluate d x (nth j al []) in
                        if j <=? i then r + c i j * value else r)%R (seq 0 (length al)) 0%R.
(** 505-511: entry i of the result of the second version *)
Definition evaluate_one (d : nat) (al : list multiindex) (c : matrix) (x : list R) (i : nat) : R :=
  fold_left (fun sum j => sum + c i j * monomial_evaluate d x (nth j al []))%R (seq 0 (i + 1)) 0%R.

(** 469-480 *)
Definition evaluate_function (d : nat) (o : basis) (x : list R) : list R :=
  map (evaluate_all d (alpha o) (coeffs o) x) (seq 0 (length (alpha o))).
(** 497-511 *)
Definition evaluate_function_upto (b : basis_type) (k d l : nat) (o : basis) (x : list R) : res (list R) :=
  if k <? l then Throw else
  Ok (map (evaluate_one d (alpha o) (coeffs o) x) (seq 0 (traits_size b l d))).
(** 482-495; the result by function and direction *)
Definition gradcoeff (o : basis) (s i j : nat) : R := nth i (nth s (gradcoeffs o) []) (fun _ => 0%R) j.
Definition evaluate_jacobian (d : nat) (o : basis) (x : list R) : list (list R) :=
  map (fun i => map (fun s => evaluate_all d (alpha o) (gradcoeff o s) x i) (seq 0 d)) (seq 0 (length (alpha o))).
(** 513-531 *)
Definition evaluate_jacobian_upto (b : basis_type) (k d l : nat) (o : basis) (x : list R) : res (list (list R)) :=
  if k <? l then Throw else
  Ok (map (fun i => map (fun s => evaluate_one d (alpha o) (gradcoeff o s) x i) (seq 0 d)) (seq 0 (traits_size b l d))).

(** OPBLocalBasis::partial 700-710 *)
Definition partial (d : nat) (o : basis) (order : list nat) (x : list R) : res (list R) :=
  if sum_nat order =? 0 then Ok (evaluate_function d o x) else Throw.

(** OPBLocalCoefficients 720-739: local keys (sub-entity, codimension, index) *)
Definition local_keys (b : basis_type) (k d : nat) : list (nat * nat * nat) :=
  map (fun i => (0, 0, i)) (seq 0 (traits_size b k d)).

(** OPBLocalInterpolation::interpolate 749-782, with the quadrature rule given as its points and weights *)
Definition interpolate (d : nat) (o : basis) (rule : list (list R * R)) (f : list R -> R) : list R :=
  fold_left (fun out q =>
    let y := f (fst q) in
    let phi := evaluate_function d o (fst q) in
    map (fun i => nth i out 0 + y * nth i phi 0 * snd q)%R (seq 0 (length (alpha o))))
    rule (map (fun _ => 0%R) (seq 0 (length (alpha o)))).
