(** Weak forms of systems: what the local operators of FlowModel are to compute. *)
From Verif Require Import Common CdModel CdSpec WaveModel FlowModel.
From Coq Require Import Reals.
Open Scope R_scope.

(** A local residual r with m components, component d of size n d, tested with the function with the coefficients y *)
Definition tested (m : nat) (n : nat -> nat) (y r : mat) : R := rsum m (fun d => rsum (n d) (fun i => y d i * r d i)).
(** The product of a local matrix and a local vector *)
Definition times (m : nat) (n : nat -> nat) (M : tens) (z : mat) : mat :=
  fun d i => rsum m (fun e => rsum (n e) (fun j => M d i e j * z e j)).
(** The change of a local matrix *)
Definition minusT (M N : tens) : tens := fun a b c d => M a b c d - N a b c d.
Definition zeroT : tens := fun _ _ _ _ => 0.
(** Coefficients x + t z *)
Definition move (x : mat) (t : R) (z : mat) : mat := fun d i => x d i + t * z d i.
(** All components have n basis functions. *)
Definition alike (n : nat) : nat -> nat := fun _ => n.

(** ** Fields given by the coefficients x *)
Definition field (n : nat) (x : mat) (phi : vec) : vec := fun d => fun_at n (x d) phi.
Definition field_grad (n : nat) (x : mat) (G : nat -> vec) : mat := fun d => grad_at n (x d) G.

(** The contraction of two matrices, the trace, the transposed matrix, the symmetric part *)
Definition ddot (d : nat) (A B : mat) : R := rsum d (fun k => inner d (A k) (B k)).
Definition trace (d : nat) (A : mat) : R := rsum d (fun k => A k k).
Definition transposed (A : mat) : mat := fun k l => A l k.
Definition sym_part (A : mat) : mat := fun k l => (A k l + A l k) / 2.

(** ** The Navier-Stokes equations *)
(** velocity: dim components of vsize basis functions; pressure: the component dim, psize basis functions *)
Definition th_size (dim vsize psize : nat) : nat -> nat := fun d => if (d <? dim)%nat then vsize else psize.
(** rho (u . grad) u . v + mu (grad u [+ (grad u)^T]) : grad v - p div v - q div u; the gradient gu has the rows grad u_d *)
Definition ns_form (navier full : bool) (dim : nat) (mu rho : R) (u : vec) (gu : mat) (p : R) (v : vec) (gv : mat) (q : R) : R :=
  mu * ddot dim gu gv + (if full then mu * ddot dim (transposed gu) gv else 0) - p * trace dim gv - q * trace dim gu
  + (if navier then rho * inner dim (fun d => inner dim u (gu d)) v else 0).
(** its derivative in (u, p) in the direction (z, s) *)
Definition ns_form' (navier full : bool) (dim : nat) (mu rho : R) (u : vec) (gu : mat) (z : vec) (gz : mat) (s : R) (v : vec) (gv : mat) (q : R) : R :=
  mu * ddot dim gz gv + (if full then mu * ddot dim (transposed gz) gv else 0) - s * trace dim gv - q * trace dim gz
  + (if navier then rho * inner dim (fun d => inner dim z (gu d) + inner dim u (gz d)) v else 0).

Section flow_fields.
Variables (dim vsize psize : nat) (p : flpt).
Definition th_grads : nat -> vec := grads dim (fl_jac p) (fl_js p).
Definition th_u (x : mat) : vec := field vsize x (fl_phi p).
Definition th_gu (x : mat) : mat := field_grad vsize x th_grads.
Definition th_p (x : mat) : R := fun_at psize (x dim) (fl_psi p).
Definition th_vol : R := fl_weight p * fl_ie p.
End flow_fields.

(** the velocity of x with the negative of its pressure *)
Definition flip (dim : nat) (x : mat) : mat := fun d i => if (d <? dim)%nat then x d i else - x d i.

(** ** Linear elasticity: 2 mu eps(u) : eps(v) + lambda div u div v *)
Definition el_form (dim : nat) (mu lambda : R) (gu gv : mat) : R :=
  2 * mu * ddot dim (sym_part gu) (sym_part gv) + lambda * trace dim gu * trace dim gv.
Definition el_gu (dim n : nat) (p : elpt) (x : mat) : mat := field_grad n x (grads dim (el_jac p) (el_js p)).

(** ** Mixed diffusion *)
(** The Piola transformation of a linear map: v(x) = J v^ / det, div v = div^ v^ / det *)
Definition piola (dim : nat) (C : mxcell) (vhat : vec) : vec := fun k => apply dim (mx_J C) vhat k / mx_det C.
Definition piola_div (dim : nat) (C : mxcell) (jachat : mat) : R := trace dim jachat / mx_det C.
(** The flux with the coefficients x, and its divergence *)
Definition mx_sigma (dim nv : nat) (C : mxcell) (p : mxvp) (x : mat) : vec := grad_at nv (x 0%nat) (fun i => piola dim C (mxv_basis p i)).
Definition mx_div (dim nv : nat) (C : mxcell) (p : mxpp) (x : mat) : R := fun_at nv (x 0%nat) (fun i => piola_div dim C (mxp_vjac p i)).
Definition mx_u (np : nat) (p : mxpp) (x : mat) : R := fun_at np (x 1%nat) (mxp_basis p).
Definition mx_size (nv np : nat) : nat -> nat := fun d => if (d =? 0)%nat then nv else np.
(** K^{-1} sigma . tau - u div tau - q (div sigma + c u), integrated over the cell *)
Definition mx_weak (dim nv np : nat) (C : mxcell) (vpts : list mxvp) (ppts : list mxpp) (x y : mat) : R :=
  lsum (fun p => mxv_weight p * mx_det C * inner dim (apply dim (mx_Kinv C) (mx_sigma dim nv C p x)) (mx_sigma dim nv C p y)) vpts
  + lsum (fun p => mxp_weight p * mx_det C *
      (- mx_u np p x * mx_div dim nv C p y - mx_u np p y * (mx_div dim nv C p x + mxp_c p * mx_u np p x))) ppts.

(** ** Nonlinear convection and diffusion *)
(** D v(u) grad w . grad phi - q(u) . grad phi - f(u) phi *)
Definition nl_form (dim : nat) (D : mat) (f : R -> R) (q : R -> vec) (v : R -> R) (u : R) (gw : vec) (t : R) (gt : vec) : R :=
  inner dim (apply dim D (fun k => v u * gw k)) gt - inner dim (q u) gt - f u * t.
(** A residual of a scalar space, tested *)
Definition tested1 (n : nat) (y r : vec) : R := inner n y r.
