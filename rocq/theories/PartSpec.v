(** Vocabulary for the statements about partitions (C36-C38): distance in the mesh and contact of
    patches, without reference to how the code computes them. *)
From Verif Require Import Common PartModel.

(** Elements and sub-entities have valid indices. *)
Definition mesh_ok (m : mesh) : Prop :=
  (forall e s, In s (subs m e) -> s < n_sub m).

(** [within m h e f]: [f] can be reached from [e] by crossing at most [h] faces. *)
Inductive within (m : mesh) : nat -> nat -> nat -> Prop :=
| within_self h e : within m h e e
| within_step h e x f : In x (nbrs m e) -> within m h x f -> within m (S h) e f.

(** A patch touches sub-entity [s] within distance [h]. *)
Definition touches (m : mesh) (h : nat) (patch : list nat) (s : nat) : Prop :=
  exists e f, In e patch /\ within m h e f /\ In s (subs m f).

(** Two patches are in conflict: both touch a common sub-entity within the halo distance. *)
Definition conflict (m : mesh) (h : nat) (p q : list nat) : Prop :=
  exists s, touches m h p s /\ touches m h q s.

(** The patch with number [i] of a list of patches. *)
Definition patch_of {A} (ps : list A) (i : nat) (p : A) : Prop := nth_error ps i = Some p.

(** [l] lists (without repetition) the numbers of the other patches in conflict with patch [i]. *)
Definition conflicting (m : mesh) (h : nat) (ps : list (list nat)) (i : nat) (l : list nat) : Prop :=
  NoDup l /\
  forall j, In j l <->
    (i <> j /\ exists p q, patch_of ps i p /\ patch_of ps j q /\ conflict m h p q).

(** Element [e] of a patch of [label] has a sub-entity that another patch of the same label touches
    within distance [h]. *)
Definition shared (m : mesh) (h : nat) (label : list (list nat)) (e : nat) : Prop :=
  exists i j p q s,
    i <> j /\ patch_of label i p /\ patch_of label j q
    /\ In e p /\ In s (subs m e) /\ touches m h q s.
