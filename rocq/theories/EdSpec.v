(** Vector analysis on paper. *)
From Verif Require Import Common CdModel CdSpec EdModel.
From Coq Require Import Reals.
Open Scope R_scope.

(** The Levi-Civita symbol on 0, 1, 2 *)
Definition levi (i j k : nat) : R := (INR j - INR i) * (INR k - INR i) * (INR k - INR j) / 2.
(** Cross product and curl in space: a_i = sum_jk eps_ijk b_j c_k, a_i = sum_jk eps_ijk d_j b_k where J k j = d_j b_k *)
Definition cross (b c : vec) : vec := fun i => rsum 3 (fun j => rsum 3 (fun k => levi i j k * b j * c k)).
Definition curl (J : mat) : vec := fun i => rsum 3 (fun j => rsum 3 (fun k => levi i j k * J k j)).
(** Vectors in the plane, vectors perpendicular to it, and functions of two coordinates *)
Definition in_plane (b : vec) : vec := fun k => if (k <? 2)%nat then b k else 0.
Definition perpendicular (b : vec) : vec := fun k => if (k =? 2)%nat then b 0%nat else 0.
Definition plane_field (J : mat) : mat := fun k l => if ((k <? 2) && (l <? 2))%nat then J k l else 0.
Definition perpendicular_field (J : mat) : mat := fun k l => if ((k =? 2) && (l <? 2))%nat then J 0%nat l else 0.

(** A field with n coefficients x, its values and Jacobians from those of the basis functions *)
Definition value_at (n : nat) (x : vec) (phi : nat -> vec) : vec := fun k => rsum n (fun i => x i * phi i k).
Definition jacobian_at (n : nat) (x : vec) (J : nat -> mat) : mat := fun k l => rsum n (fun i => x i * J i k l).
(** The curl of a field in 2 or 3 dimensions, as a vector in space *)
Definition curl_of (dim : nat) (J : mat) : vec := if (dim =? 2)%nat then curl (plane_field J) else curl J.
(** The DOFs of the space within a container *)
Definition part (off : nat) (x : vec) : vec := fun i => x (off + i)%nat.
(** The two bilinear forms on a cell *)
Definition form_T (dim n : nat) (pts : list epoint) (x y : vec) : R :=
  lsum (fun p => e_weight p * e_ie p * e_mat p * inner dim (value_at n x (e_phi p)) (value_at n y (e_phi p))) pts.
Definition form_S (dim n : nat) (pts : list epoint) (x y : vec) : R :=
  lsum (fun p => e_weight p * e_ie p * / e_mat p * inner 3 (curl_of dim (jacobian_at n x (e_J p))) (curl_of dim (jacobian_at n y (e_J p)))) pts.
Definition unit (i : nat) : vec := fun k => if (k =? i)%nat then 1 else 0.
