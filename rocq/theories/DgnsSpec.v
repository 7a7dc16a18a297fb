(** The interior penalty method for the Navier-Stokes equations: what the local operator of DgnsModel is to compute. *)
From Verif Require Import Common CdModel CdSpec WaveModel FlowModel FlowSpec DgnsModel.
From Coq Require Import Reals.
Open Scope R_scope.

(** Velocity, its gradient (rows grad u_d) and pressure at a point *)
Record pstate := mkps { s_u : vec; s_gu : mat; s_p : R }.
(** those of the coefficients x at points of cells and faces *)
Section states.
Variables (dim vsize psize : nat).
Definition cell_state (p : flpt) (x : mat) : pstate := mkps (th_u vsize p x) (th_gu dim vsize p x) (th_p dim psize p x).
Definition state_s (p : nfpt) (x : mat) : pstate :=
  mkps (field vsize x (nf_phi_s p)) (field_grad vsize x (grads dim (nf_jac_s p) (nf_js_s p))) (fun_at psize (x dim) (nf_psi_s p)).
Definition state_n (p : nfpt) (x : mat) : pstate :=
  mkps (field vsize x (nf_phi_n p)) (field_grad vsize x (grads dim (nf_jac_n p) (nf_js_n p))) (fun_at psize (x dim) (nf_psi_n p)).
Definition state_b (p : dbpt) (x : mat) : pstate :=
  mkps (field vsize x (db_phi p)) (field_grad vsize x (grads dim (db_jac p) (db_js p))) (fun_at psize (x dim) (db_psi p)).
End states.

(** the viscous traction (grad u [+ (grad u)^T]) n without the viscosity *)
Definition traction (full : bool) (dim : nat) (n : vec) (g : mat) : vec :=
  fun d => inner dim (g d) n + (if full then rsum dim (fun k => g k d * n k) else 0).
Definition jump (a b : vec) : vec := fun k => a k - b k.
Definition mean (a b : vec) : vec := fun k => (a k + b k) / 2.
Definition mean1 (a b : R) : R := (a + b) / 2.

(** ** The forms *)
(** Cells: rho (u . grad) u . v + mu (grad u [+ (grad u)^T]) : grad v - p div v - sc q div u *)
Definition cell_form (navier full : bool) (dim : nat) (sc mu rho : R) (u v : pstate) : R :=
  ns_form navier full dim mu rho (s_u u) (s_gu u) (s_p u) (s_u v) (s_gu v) (sc * s_p v).
(** Faces: - mu {t(u)} . [v] + eps mu {t(v)} . [u] + mu pen [u] . [v] + {p} [v] . n + sc {q} [u] . n *)
Definition face_form (full : bool) (dim : nat) (eps pen sc mu : R) (n : vec) (us un vs vn : pstate) : R :=
  let t s := traction full dim n (s_gu s) in
  let ju := jump (s_u us) (s_u un) in let jv := jump (s_u vs) (s_u vn) in
  mu * (- inner dim (mean (t us) (t un)) jv + eps * inner dim (mean (t vs) (t vn)) ju + pen * inner dim ju jv)
  + mean1 (s_p us) (s_p un) * inner dim jv n + sc * (mean1 (s_p vs) (s_p vn) * inner dim ju n).
(** A wall at which the velocity is given, and a wall at which only its normal component is given *)
Definition noslip_form (full : bool) (dim : nat) (eps pen mu : R) (n : vec) (u v : pstate) : R :=
  mu * (- inner dim (traction full dim n (s_gu u)) (s_u v) + eps * inner dim (traction full dim n (s_gu v)) (s_u u) + pen * inner dim (s_u u) (s_u v)).
Definition slip_form (full : bool) (dim : nat) (eps pen mu : R) (n : vec) (u v : pstate) : R :=
  mu * (- (inner dim (traction full dim n (s_gu u)) n * inner dim (s_u v) n) + eps * (inner dim (traction full dim n (s_gu v)) n * inner dim (s_u u) n)
        + pen * (inner dim (s_u u) n * inner dim (s_u v) n)).
Definition wall_form (dim : nat) (sc : R) (n : vec) (u v : pstate) : R := s_p u * inner dim (s_u v) n + sc * (s_p v * inner dim (s_u u) n).
Definition boundary_form (full : bool) (dim : nat) (eps pen sc : R) (p : dbpt) (u v : pstate) : R :=
  match db_bc p with
  | VelocityDirichlet => noslip_form full dim eps pen (db_mu p) (db_normal p) u v + wall_form dim sc (db_normal p) u v
  | SlipVelocity => (1 - db_slip p) * noslip_form full dim eps pen (db_mu p) (db_normal p) u v
                    + db_slip p * slip_form full dim eps pen (db_mu p) (db_normal p) u v + wall_form dim sc (db_normal p) u v
  | _ => 0 end.
(** what the data at the boundary contribute *)
Definition boundary_load (full : bool) (dim : nat) (eps pen sc : R) (p : dbpt) (v : pstate) : R :=
  match db_bc p with
  | VelocityDirichlet => - (db_mu p * (eps * inner dim (traction full dim (db_normal p) (s_gu v)) (db_g p) + pen * inner dim (db_g p) (s_u v)))
                         - sc * (s_p v * inner dim (db_g p) (db_normal p))
  | StressNeumann => inner dim (db_j p) (s_u v)
  | _ => 0 end.
Definition nf_vol (p : nfpt) : R := nf_weight p * nf_ie p.
Definition db_vol (p : dbpt) : R := db_weight p * db_ie p.

(** ** Residuals and matrices of faces *)
(** both residuals tested, and the product with the four matrices tested *)
Definition tested_face (m : nat) (n : nat -> nat) (ys yn : mat) (r : mat * mat) : R := tested m n ys (fst r) + tested m n yn (snd r).
Definition tested_product (m : nat) (n : nat -> nat) (ys yn zs zn : mat) (M : smats) : R :=
  tested m n ys (times m n (m_ss M) zs) + tested m n ys (times m n (m_sn M) zn) + tested m n yn (times m n (m_ns M) zs) + tested m n yn (times m n (m_nn M) zn).
Definition zerof : mat * mat := (zerom, zerom).
Definition zeroS : smats := mksm zeroT zeroT zeroT zeroT.
(** the face seen from the other cell *)
Definition turn_face (p : nfpt) : nfpt :=
  mknf (nf_weight p) (nf_ie p) (opp (nf_normal p)) (nf_phi_n p) (nf_phi_s p) (nf_psi_n p) (nf_psi_s p) (nf_js_n p) (nf_js_s p) (nf_jac_n p) (nf_jac_s p) (nf_mu p).
(** the velocity of x, its pressure multiplied by a *)
Definition with_pressure (dim : nat) (a : R) (x : mat) : mat := fun d i => if (d <? dim)%nat then x d i else a * x d i.

(** ** A whole mesh: the points of the cells, inner faces (with inside and outside cell) and boundary faces (with their cell).
    The coefficients and the test functions are given cell by cell. *)
Record mesh := mkmesh { m_cells : list (nat * list flpt); m_faces : list (nat * nat * list nfpt); m_walls : list (nat * list dbpt) }.
(** what the residual assembled for the solution X says when tested with Y *)
Definition assembled (navier full : bool) (eps pen sc : R) (dim vsize psize : nat) (T : mesh) (X Y : nat -> mat) : R :=
  let sz := th_size dim vsize psize in
  lsum (fun c => tested (S dim) sz (Y (fst c)) (dgns_lambda_volume dim vsize psize (snd c) (dgns_alpha_volume navier full sc dim vsize psize (snd c) (X (fst c)) zerom))) (m_cells T)
  + lsum (fun f => tested_face (S dim) sz (Y (fst (fst f))) (Y (snd (fst f)))
                     (dgns_alpha_skeleton full eps pen sc dim vsize psize (snd f) (X (fst (fst f))) (X (snd (fst f))) zerof)) (m_faces T)
  + lsum (fun w => tested (S dim) sz (Y (fst w))
                     (dgns_lambda_boundary full eps pen sc dim vsize psize (snd w) (dgns_alpha_boundary full eps pen sc dim vsize psize (snd w) (X (fst w)) zerom))) (m_walls T).
(** X solves the discrete equations *)
Definition solves (navier full : bool) (eps pen sc : R) (dim vsize psize : nat) (T : mesh) (X : nat -> mat) : Prop :=
  forall Y, assembled navier full eps pen sc dim vsize psize T X Y = 0.
