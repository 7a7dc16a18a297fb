(** Two-phase flow with two-point fluxes on paper. *)
From Verif Require Import Common CdModel CdSpec TpModel.
From Coq Require Import Reals.
Open Scope R_scope.

(** The data of one phase *)
Definition sat (P : phase) (C : tpcell) (x : phase -> R) : R :=
  let s := tp_s C (x Gas - x Liquid) in match P with Liquid => s | Gas => 1 - s end.
Definition kr (P : phase) (C : tpcell) : R -> R := match P with Liquid => tp_krl C | Gas => tp_krg C end.
Definition mu (P : phase) (C : tpcell) : R -> R := match P with Liquid => tp_mul C | Gas => tp_mug C end.
Definition nu (P : phase) (C : tpcell) : R -> R := match P with Liquid => tp_nul C | Gas => tp_nug C end.
Definition rho (P : phase) (C : tpcell) : R -> R := match P with Liquid => tp_rhol C | Gas => tp_rhog C end.
Definition source (P : phase) (C : tpcell) : R := match P with Liquid => tp_ql C | Gas => tp_qg C end.
Definition btype (P : phase) (F : tpbound) : nat := match P with Liquid => tb_bcl F | Gas => tb_bcg F end.
Definition dirichlet (P : phase) (F : tpbound) : R := match P with Liquid => tb_gl F | Gas => tb_gg F end.
Definition neumann (P : phase) (F : tpbound) : R := match P with Liquid => tb_jl F | Gas => tb_jg F end.
Definition scale (l g : R) (P : phase) : R := match P with Liquid => l | Gas => g end.

(** Relative permeabilities and permeabilities are not negative, viscosities are positive. *)
Definition physical (C : tpcell) : Prop := 0 <= tp_k C /\ (forall P s, 0 <= kr P C s) /\ (forall P p, 0 < mu P C p).
Definition mean (a b : R) : R := (a + b) / 2.
Definition harmonic (a b : R) : R := 2 * a * b / (a + b).

Section fluxes.
Variables (cells : nat -> tpcell) (x : state) (P : phase).
(** Minus the gradient of the potential of the phase across a face: the pressure difference and gravity *)
Definition drive (F : tpface) : R :=
  (x (tf_s F) P - x (tf_n F) P) / tf_dist F + mean (rho P (cells (tf_s F)) (x (tf_s F) P)) (rho P (cells (tf_n F)) (x (tf_n F) P)) * tf_gn F.
(** The mobility of the phase in the cell c at the saturation s *)
Definition mobility (c : nat) (s : R) : R := kr P (cells c) s / mu P (cells c) (x c P) * tp_k (cells c).
(** The saturation of the cell the phase comes from *)
Definition upstream (F : tpface) : R := if Rle_dec 0 (drive F) then sat P (cells (tf_s F)) (x (tf_s F)) else sat P (cells (tf_n F)) (x (tf_n F)).
(** The flux out of the inside cell *)
Definition flux (F : tpface) : R :=
  tf_area F * mean (nu P (cells (tf_s F)) (x (tf_s F) P)) (nu P (cells (tf_n F)) (x (tf_n F) P))
  * harmonic (mobility (tf_s F) (upstream F) + tp_eps) (mobility (tf_n F) (upstream F) + tp_eps) * drive F.
(** The flux out of the domain *)
Definition outflow (F : tpbound) : R :=
  tb_area F * match btype P F with
  | 1%nat => nu P (cells (tb_s F)) (x (tb_s F) P) * mobility (tb_s F) (sat P (cells (tb_s F)) (x (tb_s F)))
             * ((x (tb_s F) P - dirichlet P F) / tb_dist F + rho P (cells (tb_s F)) (x (tb_s F) P) * tb_gn F)
  | 0%nat => neumann P F
  | _ => 0
  end.
End fluxes.

(** The face seen from the other side *)
Definition reverse (F : tpface) : tpface := mktf (tf_n F) (tf_s F) (tf_dist F) (tf_area F) (- tf_gn F).
Definition when (b : bool) (v : R) : R := if b then v else 0.
(** What leaves the cell c through its faces, minus the sources in it *)
Definition cell_balance (cells : nat -> tpcell) (inner : list tpface) (bound : list tpbound) (x : state) (P : phase) (c : nat) : R :=
  lsum (fun F => when (c =? tf_s F)%nat (flux cells x P F)) inner - lsum (fun F => when (c =? tf_n F)%nat (flux cells x P F)) inner
  + lsum (fun F => when (c =? tb_s F)%nat (outflow cells x P F)) bound - source P (cells c) * tp_vol (cells c).
