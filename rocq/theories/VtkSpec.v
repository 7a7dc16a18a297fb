(** What is to be in the output. *)
From Coq Require Import Ascii Reals.
From Verif Require Import VtkModel.
Local Open Scope R_scope.

(** [n] is found in [t] by going down [p]; the components of vector spaces are no spaces of their own. *)
Inductive reach : space -> path -> space -> Prop :=
| reach_here t : reach t [] t
| reach_child name ts i t p n : nth_error ts i = Some t -> reach t p n -> reach (SNode name ts) (i :: p) n.
Definition name_of (n : space) : string := match n with SLeaf l => l_name l | SVector s _ _ => s | SNode s _ => s end.
(** What is written for a node: leaves and vector spaces. *)
Definition output (n : space) : option (kind * func) :=
  match n with SLeaf l => Some (l_kind l, FLeaf l) | SVector _ k ls => Some (k, FVector ls) | SNode _ _ => None end.
Definition to_write (t : space) (pred : path -> bool) (p : path) (n : space) : Prop :=
  reach t p n /\ output n <> None /\ pred p = true.
(** Order of the components: by the first step in which their paths differ. *)
Inductive before : path -> path -> Prop :=
| before_here i j p q : (i < j)%nat -> before (i :: p) (j :: q)
| before_below i p q : before p q -> before (i :: p) (i :: q).
(** A name can be found. *)
Definition nameable (g : scheme) (n : space) : Prop :=
  name_of n <> ""%string \/ prefix g <> ""%string \/ suffix g <> ""%string.
(** The data set [d] is the one for [n] at [p]. *)
Definition describes (g : scheme) (p : path) (n : space) (d : dataset) : Prop :=
  output n = Some (d_kind d, d_func d) /\ component_name g (name_of n) p = Ok (d_name d).
(** The discrete function: combination of the basis functions, zero outside the entity set. *)
Definition combination (l : leaf) (c : nat) (x : R) (j : nat) : R :=
  fold_right (fun i s => coef l c i * nth i (basis l c x) (fun _ => 0) j + s) 0 (seq 0 (length (basis l c x))).
Definition function_value (l : leaf) (c : nat) (x : R) (j : nat) : R := if contains l c then combination l c x j else 0.
Definition is_digit (a : ascii) : bool := ((48 <=? nat_of_ascii a) && (nat_of_ascii a <=? 57))%nat.
(** First character is no digit. *)
Definition starts_without_digit (s : string) : Prop := match s with EmptyString => False | String a _ => is_digit a = false end.
