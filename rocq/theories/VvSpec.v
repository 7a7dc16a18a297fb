(** States given by coefficients of vector-valued basis functions; the forms are those of DgnsSpec. *)
From Verif Require Import Common CdModel CdSpec WaveModel FlowModel FlowSpec DgnsModel DgnsSpec VvModel.
From Coq Require Import Reals.
Open Scope R_scope.

(** the field with coefficients x and its gradient, for basis functions phi with local Jacobians lj *)
Definition vfield (n : nat) (x : vec) (phi : nat -> vec) : vec := fun k => rsum n (fun i => x i * phi i k).
Definition vgrad (dim n : nat) (x : vec) (geo : mat) (lj : nat -> mat) : mat := fun r c => rsum n (fun i => x i * apply dim geo (lj i r) c).
Section states.
Variables (dim vsize psize : nat).
Definition vv_cell (p : vvpt) (x : mat) : pstate := mkps (vfield vsize (x 0%nat) (vp_phi p)) (vgrad dim vsize (x 0%nat) (vp_geo p) (vp_lj p)) (fun_at psize (x 1%nat) (vp_psi p)).
Definition vv_s (p : vfpt) (x : mat) : pstate := mkps (vfield vsize (x 0%nat) (vf_phi_s p)) (vgrad dim vsize (x 0%nat) (vf_geo_s p) (vf_lj_s p)) (fun_at psize (x 1%nat) (vf_psi_s p)).
Definition vv_n (p : vfpt) (x : mat) : pstate := mkps (vfield vsize (x 0%nat) (vf_phi_n p)) (vgrad dim vsize (x 0%nat) (vf_geo_n p) (vf_lj_n p)) (fun_at psize (x 1%nat) (vf_psi_n p)).
Definition vv_b (p : vbpt) (x : mat) : pstate := mkps (vfield vsize (x 0%nat) (vb_phi p)) (vgrad dim vsize (x 0%nat) (vb_geo p) (vb_lj p)) (fun_at psize (x 1%nat) (vb_psi p)).
End states.
Definition vp_vol (p : vvpt) : R := vp_weight p * vp_ie p.
Definition vf_vol (p : vfpt) : R := vf_weight p * vf_ie p.
Definition vb_vol (p : vbpt) : R := vb_weight p * vb_ie p.
(** A boundary point with the walls of both operators; the slip factor is that of the operator with scalar basis functions. *)
Definition vb_form (dim : nat) (eps pen sc : R) (p : vbpt) (u v : pstate) : R :=
  match vb_bc p with
  | VelocityDirichlet => noslip_form false dim eps pen (vb_mu p) (vb_normal p) u v + wall_form dim sc (vb_normal p) u v
  | _ => 0 end.
Definition vb_load (dim : nat) (eps pen sc : R) (p : vbpt) (v : pstate) : R :=
  match vb_bc p with
  | VelocityDirichlet => - (vb_mu p * (eps * inner dim (traction false dim (vb_normal p) (s_gu v)) (vb_g p) + pen * inner dim (vb_g p) (s_u v)))
                         - sc * (s_p v * inner dim (vb_g p) (vb_normal p))
  | StressNeumann => inner dim (vb_j p) (s_u v)
  | _ => 0 end.

(** ** Product bases: the scalar basis functions in each component, numbered component by component *)
Section product.
Variables (dim n : nat).
Definition prod_phi (phi : vec) : nat -> vec := fun j k => if (k =? j / n)%nat then phi (j mod n)%nat else 0.
Definition prod_jac (js : nat -> vec) : nat -> mat := fun j r => if (r =? j / n)%nat then js (j mod n)%nat else (fun _ => 0).
(** the coefficients of the operator with scalar basis functions (children 0 .. dim-1 velocity, dim pressure) as those of the product basis *)
Definition prod_coeff (x : mat) : mat := fun c j => if (c =? 0)%nat then x (j / n)%nat (j mod n)%nat else x dim j.
Definition prod_pt (p : flpt) : vvpt := mkvv (fl_weight p) (fl_ie p) (prod_phi (fl_phi p)) (fl_psi p) (prod_jac (fl_js p)) (fl_jac p) (fl_mu p) (fl_rho p) (fl_f p).
Definition prod_face (p : nfpt) : vfpt := mkvf (nf_weight p) (nf_ie p) (nf_normal p) (prod_phi (nf_phi_s p)) (prod_phi (nf_phi_n p)) (nf_psi_s p) (nf_psi_n p)
  (prod_jac (nf_js_s p)) (prod_jac (nf_js_n p)) (nf_jac_s p) (nf_jac_n p) (nf_mu p).
Definition prod_wall (p : dbpt) : vbpt := mkvb (db_weight p) (db_ie p) (db_normal p) (prod_phi (db_phi p)) (db_psi p) (prod_jac (db_js p)) (db_jac p) (db_mu p) (db_bc p) (db_g p) (db_j p).
End product.
(** the face seen from the other cell *)
Definition turn_vface (p : vfpt) : vfpt :=
  mkvf (vf_weight p) (vf_ie p) (opp (vf_normal p)) (vf_phi_n p) (vf_phi_s p) (vf_psi_n p) (vf_psi_s p) (vf_lj_n p) (vf_lj_s p) (vf_geo_n p) (vf_geo_s p) (vf_mu p).
(** the velocity of x, its pressure multiplied by a *)
Definition with_p (a : R) (x : mat) : mat := fun c i => if (c =? 0)%nat then x c i else a * x c i.
