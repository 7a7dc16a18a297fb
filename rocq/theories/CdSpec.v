(** Finite element functions and bilinear forms of the convection-diffusion equation. *)
From Verif Require Import Common CdModel.
From Coq Require Import Reals.
Open Scope R_scope.

(** Finite sums *)
Fixpoint rsum (n : nat) (f : nat -> R) : R := match n with O => 0 | S k => rsum k f + f k end.
Fixpoint lsum {A} (f : A -> R) (l : list A) : R := match l with [] => 0 | a :: l => f a + lsum f l end.
Definition inner (d : nat) (a b : vec) : R := rsum d (fun k => a k * b k).
Definition apply (d : nat) (A : mat) (x : vec) : vec := fun k => rsum d (fun l => A k l * x l).
(** The finite element function with n coefficients x and basis values phi, and its gradient for basis gradients G *)
Definition fun_at (n : nat) (x phi : vec) : R := rsum n (fun i => x i * phi i).
Definition grad_at (n : nat) (x : vec) (G : nat -> vec) : vec := fun k => rsum n (fun i => x i * G i k).
Definition zerov : vec := fun _ => 0.
Definition zerom : mat := fun _ _ => 0.
Definition plusv (x y : vec) : vec := fun i => x i + y i.

(** M is the derivative of the map r of n variables into the components below m, at every point. *)
Definition derivative (n m : nat) (M : mat) (r : vec -> vec) : Prop :=
  forall x delta i, (i < m)%nat -> r (plusv x delta) i = r x i + rsum n (fun j => M i j * delta j).

(** Gradients on the physical cell *)
Definition grads (d : nat) (jac : mat) (js : nat -> vec) : nat -> vec := fun i => apply d jac (js i).

(** Ansatz and test functions agree. *)
Definition galerkin (nu nv : nat) (p : vpoint) : Prop := nu = nv /\ forall i, (i < nu)%nat -> v_psi p i = v_phi p i /\ forall k, v_jsv p i k = v_js p i k.
Definition fgalerkin (n : nat) (phi psi : vec) (js jsv : nat -> vec) : Prop := forall i, (i < n)%nat -> psi i = phi i /\ forall k, jsv i k = js i k.
(** The basis functions sum up to one. *)
Definition unity (n : nat) (phi : vec) (js : nat -> vec) : Prop := rsum n phi = 1 /\ forall k, rsum n (fun i => js i k) = 0.

Definition symmetric (d : nat) (A : mat) : Prop := forall i j, (i < d)%nat -> (j < d)%nat -> A i j = A j i.
Definition psd (d : nat) (A : mat) : Prop := forall x, 0 <= inner d (apply d A x) x.

(** The face seen from the other cell *)
Definition opp (n : vec) : vec := fun k => - n k.
Definition flip_point (p : fpoint) : fpoint :=
  mkfp (f_weight p) (f_ie p) (opp (f_normal p)) (phi_n p) (phi_s p) (psi_n p) (psi_s p) (js_n p) (js_s p) (jsv_n p) (jsv_s p)
    (jac_n p) (jac_s p) (fA_n p) (fA_s p) (f_b p) (f_bc p) (f_j p) (f_o p) (f_g p).
Definition flip_face (F : face) : face :=
  mkface (opp (c_normal F)) (vol_n F) (vol_s F) (vol_f F) (cA_n F) (cA_s F) (order_n F) (order_s F).

(** ** The weak form *)
(** The integrand of the weak form of div(- A grad u + b u) + c u = f, tested with v: (A grad u) . grad v - u b . grad v + (c u - f) v *)
Definition weak_integrand (d : nat) (A : mat) (b : vec) (c f : R) (u : R) (gradu : vec) (v : R) (gradv : vec) : R :=
  inner d (apply d A gradu) gradv - u * inner d b gradv + (c * u - f) * v.

(** The interior penalty method on a face, Epshteyn and Riviere as well as Ern, Stephansen and Zunino: *)
(** normal, A times normal on both sides *)
Definition ip_normal (P : dgparam) (F : face) (p : fpoint) : vec := if dg_constA P then c_normal F else f_normal p.
Definition ip_An_s (d : nat) (P : dgparam) (F : face) (p : fpoint) : vec := apply d (if dg_constA P then cA_s F else fA_s p) (ip_normal P F p).
Definition ip_An_n (d : nat) (P : dgparam) (F : face) (p : fpoint) : vec := apply d (if dg_constA P then cA_n F else fA_n p) (ip_normal P F p).
(** normal permeabilities, weights of the averages: each side is weighted with the permeability of the other one *)
Definition ip_perm_s d P F p : R := inner d (ip_An_s d P F p) (ip_normal P F p).
Definition ip_perm_n d P F p : R := inner d (ip_An_n d P F p) (ip_normal P F p).
Definition ip_den d P F p : R := ip_perm_s d P F p + ip_perm_n d P F p + eps.
Definition ip_w_s d P F p : R := if dg_weights P then ip_perm_n d P F p / ip_den d P F p else 1 / 2.
Definition ip_w_n d P F p : R := if dg_weights P then ip_perm_s d P F p / ip_den d P F p else 1 / 2.
(** penalty: alpha / h times the harmonic mean of the permeabilities times k (k + d - 1) *)
Definition ip_gamma d P F p : R :=
  dg_alpha P / (Rmin (vol_s F) (vol_n F) / vol_f F) * (if dg_weights P then 2 * ip_perm_s d P F p * ip_perm_n d P F p / ip_den d P F p else 1)
  * INR (Nat.max (order_s F) (order_n F)) * INR (Nat.max (order_s F) (order_n F) + d - 1).
(** upwind flux of the velocity q in normal direction *)
Definition upwind_flux (q us un : R) : R := if Rle_dec 0 q then q * us else q * un.
(** The weak form on the face: numerical flux times the jump of the test function, and the symmetry term *)
Definition ip_flux d P F p (us un : R) (gs gn : vec) : R :=
  upwind_flux (inner d (f_b p) (f_normal p)) us un
  - (ip_w_s d P F p * inner d (ip_An_s d P F p) gs + ip_w_n d P F p * inner d (ip_An_n d P F p) gn)
  + ip_gamma d P F p * (us - un).
Definition ip_integrand d P F p (us un : R) (gs gn : vec) (vs vn : R) (gvs gvn : vec) : R :=
  ip_flux d P F p us un gs gn * (vs - vn)
  + theta P * (us - un) * (ip_w_s d P F p * inner d (ip_An_s d P F p) gvs + ip_w_n d P F p * inner d (ip_An_n d P F p) gvn).

(** On the boundary *)
Definition ipb_gamma d P F p : R :=
  dg_alpha P / (vol_s F / vol_f F) * (if dg_weights P then ip_perm_s d P F p else 1) * INR (order_s F) * INR (order_s F + d - 1).
Definition ipb_integrand d P F p (u : R) (gu : vec) (v : R) (gv : vec) : R :=
  match f_bc p with
  | Dirichlet => (upwind_flux (inner d (f_b p) (f_normal p)) u (f_g p) - inner d (ip_An_s d P F p) gu + ipb_gamma d P F p * (u - f_g p)) * v
                 + theta P * (u - f_g p) * inner d (ip_An_s d P F p) gv
  | Neumann => f_j p * v
  | Outflow => (inner d (f_b p) (f_normal p) * u + f_o p) * v
  | NoBC => 0
  end.
(** An outflow condition where the velocity points into the domain *)
Definition inflow d (p : fpoint) : Prop := f_bc p = Outflow /\ inner d (f_b p) (f_normal p) < - eps'.
(** The same point with the data of the boundary conditions set to zero *)
Definition homogeneous (p : fpoint) : fpoint :=
  mkfp (f_weight p) (f_ie p) (f_normal p) (phi_s p) (phi_n p) (psi_s p) (psi_n p) (js_s p) (js_n p) (jsv_s p) (jsv_n p)
    (jac_s p) (jac_n p) (fA_s p) (fA_n p) (f_b p) (f_bc p) 0 0 0.
