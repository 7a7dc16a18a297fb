(** The errors up to a threshold. *)
From Verif Require Import HistoModel.
Local Open Scope R_scope.

Definition up_to (e : R) (x : list R) : list R := filter (fun v => if Rle_dec v e then true else false) x.
Definition total (x : list R) : R := fold_right Rplus 0 x.
Definition largest (m : R) (x : list R) : Prop := (forall v, In v x -> v <= m) /\ (In m x \/ (x = [] /\ m = 0)).
(** The bin [k] of [bins]: the share of the error it asks for. *)
Definition share (bins k : nat) : R := INR (S k) / INR bins.
