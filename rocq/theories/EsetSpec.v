(** What a numbering of the entities of a grid view is. *)
From Verif Require Import Common EsetModel.
From Coq Require Import Permutation.

(** The guarantees of a grid view and its index set: types are grouped by dimension; the entities of a type are numbered 0, 1, ... *)
Record wf_grid (g : grid) : Prop := mkwf {
  wf_mono : forall d, g_off g d <= g_off g (S d);
  wf_types : forall c t, c <= g_dim g -> In t (g_types g c) -> g_off g (g_dim g - c) <= t < g_off g (g_dim g - c + 1);
  wf_nodup : forall c, c <= g_dim g -> NoDup (g_types g c);
  wf_entity : forall e, In e (g_entities g) -> e_codim e <= g_dim g /\ In (e_gt e) (g_types g (e_codim e));
  wf_index : forall c t, c <= g_dim g -> In t (g_types g c) ->
     Permutation (map e_base (filter (fun e => e_gt e =? t) (g_entities g))) (seq 0 (g_size g t)) }.

(** A partition set is closed if it consists of the sub-entities of its elements. *)
Definition closed (g : grid) (P : nat -> bool) : Prop :=
  forall s, (In s (g_entities g) /\ P (e_part s) = true) <->
            exists e, In e (g_entities g) /\ e_codim e = 0 /\ P (e_part e) = true /\ In s (g_subs g e).

(** The entities of the set: codimensions selected by the mask, partition types selected by P *)
Definition members (g : grid) (P : nat -> bool) (mask : list bool) : list gent :=
  filter (fun e => nth (e_codim e) mask false && P (e_part e)) (g_entities g).
Definition of_type (t : nat) (l : list gent) : list gent := filter (fun e => e_gt e =? t) l.
Definition of_codim (c : nat) (l : list gent) : list gent := filter (fun e => e_codim e =? c) l.

(** The indices handed out for l are 0, ..., length l - 1, each once. *)
Definition consecutive {A} (f : A -> res nat) (l : list A) : Prop := Permutation (map f l) (map Ok (seq 0 (length l))).

(** All queries of an index set answer for exactly the entities [members g P mask]. *)
Record numbering (g : grid) (P : nat -> bool) (mask : list bool) (idx uidx : gent -> res nat) (s : istate) : Prop := mknum {
  num_type : forall t, t < g_ngt g -> consecutive idx (of_type t (members g P mask));
  num_all : consecutive uidx (members g P mask);
  num_size_type : forall t, t < g_ngt g -> size_gt s t = Ok (length (of_type t (members g P mask)));
  num_size_codim : forall c, c <= g_dim g -> size_codim g s c = Ok (length (of_codim c (members g P mask)));
  num_types : forall c, c <= g_dim g -> types_codim s c = Ok (if nth c mask false then g_types g c else []);
  num_all_types : forall t, (exists l, types_all s = Ok l /\ In t l) <-> exists c, c <= g_dim g /\ nth c mask false = true /\ In t (g_types g c);
  num_codims : forall c, contains_codim s c = nth c mask false;
  num_contains : forall t, contains_gt s t = true <-> exists c, c <= g_dim g /\ nth c mask false = true /\ In t (g_types g c) }.

(** Storage of a std::array indexed by geometry types *)
Definition array_of (g : grid) (l : list nat) : Prop := length l = S (g_ngt g).
(** Grids of the same dimension (adaptation changes the entities only) *)
Definition same_kind (g g' : grid) : Prop := g_dim g = g_dim g' /\ forall d, g_off g d = g_off g' d.

(** The values an output without a cache writes *)
Fixpoint uncached {V} (x : nat -> V) (ops : list (vop V)) : list V :=
  match ops with
  | [] => []
  | SetVector y :: ops => uncached y ops
  | Evaluate c :: ops => x c :: uncached x ops
  end.
(** No cell is evaluated twice in a row across a change of the vector. [last]: the cell evaluated last; [changed]: since then the vector changed *)
Fixpoint never_twice {V} (last : option nat) (changed : bool) (ops : list (vop V)) : Prop :=
  match ops with
  | [] => True
  | SetVector _ :: ops => never_twice last true ops
  | Evaluate c :: ops => (changed = true -> last <> Some c) /\ never_twice (Some c) false ops
  end.

(** The selection of codimensions after a call *)
Definition select (m : list bool) (o : op) : list bool :=
  match o with ClearCodims => map (fun _ => false) m | Add c => upd c true m | Remove c => upd c false m | Update _ => m end.
(** The codimension given to a call exists. *)
Definition valid_op (g : grid) (o : op) : Prop := match o with Add c | Remove c => c <= g_dim g | _ => True end.
