(** What the wave operators are meant to do. *)
From Verif Require Import Common CdModel CdSpec WaveModel.
From Coq Require Import Reals.
Open Scope R_scope.

Definition crossp (a b : vec) : vec :=
  fun k => match k with
           | 0 => a 1%nat * b 2%nat - a 2%nat * b 1%nat
           | 1 => a 2%nat * b 0%nat - a 0%nat * b 2%nat
           | _ => a 0%nat * b 1%nat - a 1%nat * b 0%nat
           end.
Definition unit_normal (d : nat) (n : vec) : Prop := inner d n n = 1.

(** ** The equations: flux through a surface element with (not necessarily normalised) normal n *)
(** acoustics: density and momentum (rho, w): (w . n, c^2 rho n) *)
Definition momentum (u : vec) : vec := fun k => u (k + 1)%nat.
Definition acoustics_nflux (d : nat) (c : R) (n u : vec) : vec :=
  fun i => match i with 0 => inner d (momentum u) n | S k => c * c * u 0%nat * n k end.
(** Maxwell: displacement and induction (D, B): (- n x B/mu, n x D/eps) *)
Definition fieldD (u : vec) : vec := u.
Definition fieldB (u : vec) : vec := fun k => u (k + 3)%nat.
Definition maxwell_nflux (eps mu : R) (n u : vec) : vec :=
  fun i => if (i <? 3)%nat then - crossp n (fieldB u) i / mu else crossp n (fieldD u) (i - 3)%nat / eps.

(** ** Upwinding *)
(** The splitting of the flux: on a wave (eigenvector) of speed l, A+ is l if the wave leaves and zero otherwise, A- is l if it enters. *)
Definition upwind_split (m : nat) (flux : vec -> vec) (Aplus Aminus : mat) : Prop :=
  forall l v, (forall i, (i < m)%nat -> flux v i = l * v i) ->
    forall i, (i < m)%nat -> apply m Aplus v i = Rmax l 0 * v i /\ apply m Aminus v i = Rmin l 0 * v i.
Definition solves (m : nat) (A : mat) (b x : vec) : Prop := forall i, (i < m)%nat -> apply m A x i = b i.
Definition regular (m : nat) (A : mat) : Prop := forall x, solves m A zerov x -> forall i, (i < m)%nat -> x i = 0.
Definition inverse (m : nat) (A X : mat) : Prop :=
  forall i j, (i < m)%nat -> (j < m)%nat -> rsum m (fun k => A i k * X k j) = if (i =? j)%nat then 1 else 0.

(** What is asked of FieldMatrix::solve (for the two systems solved per face) and of FieldMatrix::invert *)
Definition solve_ok (solve : nat -> mat -> vec -> vec) (d : nat) (c : R) (n : vec) : Prop :=
  forall k, (k = d - 1 \/ k = d)%nat ->
    solves (d + 1) (eigenvectors_transposed d c n) (unit_vector k) (solve (d + 1)%nat (eigenvectors_transposed d c n) (unit_vector k)).
Definition invert_ok (invert : nat -> mat -> mat) (eps mu : R) (n : vec) : Prop :=
  inverse 6 (maxwell_eigenvectors eps mu n) (invert 6%nat (maxwell_eigenvectors eps mu n)).
Definition dim_ok (d : nat) : Prop := d = 1%nat \/ d = 2%nat \/ d = 3%nat.
Definition acoustics_speed (d : nat) (c : R) (k : nat) : R := if (k =? d)%nat then - c else if (k =? d - 1)%nat then c else 0.
Definition maxwell_speed (eps mu : R) (k : nat) : R := if (k <? 2)%nat then 1 / sqrt (eps * mu) else if (k <? 4)%nat then - (1 / sqrt (eps * mu)) else 0.

(** ** Finite element states *)
Definition state_at (n : nat) (x : mat) (phi : vec) : vec := fun k => fun_at n (x k) phi.
Definition w_factor (p : wpoint) : R := w_weight p * w_ie p.
Definition wf_factor (p : wfpoint) : R := wf_weight p * wf_ie p.
Definition w_grad (d : nat) (p : wpoint) (k : nat) : vec := grads d (w_jac p) (w_js p) k.

(** ** Energy *)
Definition acoustics_energy (c : R) : vec := fun i => match i with 0 => c * c | _ => 1 end.
Definition maxwell_energy (eps mu : R) : vec := fun i => if (i <? 3)%nat then / eps else / mu.
(** the pairing of a state and a residual, component i weighted with H i *)
Definition pairing (m n : nat) (H : vec) (x r : mat) : R := rsum m (fun i => H i * rsum n (fun k => x i k * r i k)).

(** A mesh: number of cells, number of basis functions of a cell, its quadrature points; interior faces with the cells they separate, and
    boundary faces *)
Record iface := mkif { i_s : nat; i_n : nat; i_normal : vec; i_pts : list wfpoint }.
Record bface := mkbf { b_s : nat; b_normal : vec; b_pts : list wfpoint }.
Record wmesh := mkwm { m_cells : nat; m_dofs : nat -> nat; m_pts : nat -> list wpoint; m_inner : list iface; m_boundary : list bface }.
Definition mesh_ok (M : wmesh) : Prop :=
  (forall F, In F (m_inner M) -> (i_s F < m_cells M)%nat /\ (i_n F < m_cells M)%nat) /\
  (forall F, In F (m_boundary M) -> (b_s F < m_cells M)%nat).
Definition weights_ok (M : wmesh) : Prop :=
  (forall F p, In F (m_inner M) -> In p (i_pts F) -> 0 <= wf_factor p) /\
  (forall F p, In F (m_boundary M) -> In p (b_pts F) -> 0 <= wf_factor p).
Definition cell_weights_ok (M : wmesh) : Prop := forall c p, (c < m_cells M)%nat -> In p (m_pts M c) -> 0 <= w_factor p.
Definition normals (M : wmesh) (n : vec) : Prop := (exists F, In F (m_inner M) /\ n = i_normal F) \/ (exists F, In F (m_boundary M) /\ n = b_normal F).
Definition normals_ok (d : nat) (M : wmesh) : Prop :=
  (forall F, In F (m_inner M) -> unit_normal d (i_normal F)) /\ (forall F, In F (m_boundary M) -> unit_normal d (b_normal F)).

(** The rules integrate products of two basis functions of a cell exactly: Gauss' theorem, for the j-th coordinate *)
Definition gauss_exact (d : nat) (M : wmesh) : Prop :=
  forall c a b j, (c < m_cells M)%nat -> (j < d)%nat ->
    let n := m_dofs M c in
    lsum (fun p => w_factor p * (fun_at n a (w_phi p) * grad_at n b (w_grad d p) j + fun_at n b (w_phi p) * grad_at n a (w_grad d p) j)) (m_pts M c) =
    lsum (fun F => (if (i_s F =? c)%nat then lsum (fun p => wf_factor p * (fun_at n a (wf_phi_s p) * fun_at n b (wf_phi_s p) * i_normal F j)) (i_pts F) else 0) -
                   (if (i_n F =? c)%nat then lsum (fun p => wf_factor p * (fun_at n a (wf_phi_n p) * fun_at n b (wf_phi_n p) * i_normal F j)) (i_pts F) else 0))
         (m_inner M) +
    lsum (fun F => if (b_s F =? c)%nat then lsum (fun p => wf_factor p * (fun_at n a (wf_phi_s p) * fun_at n b (wf_phi_s p) * b_normal F j)) (b_pts F) else 0)
         (m_boundary M).
(** Every cell can represent the function one. *)
Definition ones (d : nat) (M : wmesh) (e : nat -> vec) : Prop :=
  (forall c p, (c < m_cells M)%nat -> In p (m_pts M c) -> forall j, (j < d)%nat -> grad_at (m_dofs M c) (e c) (w_grad d p) j = 0) /\
  (forall c p, (c < m_cells M)%nat -> In p (m_pts M c) -> fun_at (m_dofs M c) (e c) (w_phi p) = 1) /\
  (forall F p, In F (m_inner M) -> In p (i_pts F) ->
     fun_at (m_dofs M (i_s F)) (e (i_s F)) (wf_phi_s p) = 1 /\ fun_at (m_dofs M (i_n F)) (e (i_n F)) (wf_phi_n p) = 1) /\
  (forall F p, In F (m_boundary M) -> In p (b_pts F) -> fun_at (m_dofs M (b_s F)) (e (b_s F)) (wf_phi_s p) = 1).

(** The test of the assembled residual with the functions y: the sum over what the operators add for each cell and face *)
Definition tested (m : nat) (H : vec) (M : wmesh) (volume : nat -> mat -> mat -> mat) (skeleton : iface -> mat -> mat -> mat * mat -> mat * mat)
    (boundary : bface -> mat -> mat -> mat) (y x : nat -> mat) : R :=
  rsum (m_cells M) (fun c => pairing m (m_dofs M c) H (y c) (volume c (x c) zerom)) +
  lsum (fun F => let r := skeleton F (x (i_s F)) (x (i_n F)) (zerom, zerom) in
                 pairing m (m_dofs M (i_s F)) H (y (i_s F)) (fst r) + pairing m (m_dofs M (i_n F)) H (y (i_n F)) (snd r)) (m_inner M) +
  lsum (fun F => pairing m (m_dofs M (b_s F)) H (y (b_s F)) (boundary F (x (b_s F)) zerom)) (m_boundary M).

(** Boundary conditions *)
Definition absorbing (g : vec -> vec) : Prop := forall u i, g u i = 0.
Definition acoustics_wall (d : nat) (n : vec) (g : vec -> vec) : Prop :=
  forall u, g u 0%nat = u 0%nat /\ forall k, (k < d)%nat -> g u (k + 1)%nat = u (k + 1)%nat - 2 * inner d (momentum u) n * n k.
Definition conductor (g : vec -> vec) : Prop :=
  forall u i, (i < 3)%nat -> g u i = - u i /\ g u (i + 3)%nat = u (i + 3)%nat.
