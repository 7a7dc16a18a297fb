(** What a local operator is promised about the calls it receives, independently of the drivers. *)
From Verif Require Import LifeModel.
Local Open Scope R_scope.

Definition addressee (e : event) : op :=
  match e with
  | PreStep o _ _ _ | PreStage o _ _ | SetTime o _ | Eval o _ _ | Suggest o | PostStage o | PostStep o => o
  end.
Definition same (o o' : op) : bool := match o, o' with Spatial, Spatial | Temporal, Temporal => true | _, _ => false end.
(** The calls one operator receives. *)
Definition view (o : op) (l : list event) : list event := filter (fun e => same o (addressee e)) l.
(** The announcements among them. *)
Definition announces (e : event) : bool :=
  match e with PreStep _ _ _ _ | PreStage _ _ _ | PostStage _ | PostStep _ => true | _ => false end.
Definition announcements (o : op) (l : list event) : list event := filter announces (view o l).

(** The documented order (idefault.hh): preStep, then preStage and postStage for each stage in turn, then postStep. *)
Definition documented (o : op) (z : step) : list event :=
  PreStep o (start z) (size z) (stages (tabl z))
  :: flat_map (fun r => [PreStage o (start z + d (tabl z) r * size z) r; PostStage o]) (seq 1 (stages (tabl z)))
  ++ [PostStep o].
Definition initial_part {X : Type} (l m : list X) : Prop := exists rest, m = l ++ rest.

(** What an operator knows after some calls: the time set last, the stage announced last, whether it is in a stage. *)
Record known := mkknown { time_set : option R; stage_no : option nat; in_stage : bool }.
Definition learn (o : op) (k : known) (e : event) : known :=
  if same o (addressee e) then
    match e with
    | SetTime _ t => mkknown (Some t) (stage_no k) (in_stage k)
    | PreStage _ _ r => mkknown (time_set k) (Some r) true
    | PostStage _ => mkknown (time_set k) (stage_no k) false
    | _ => k
    end
  else k.
Definition knows (o : op) (l : list event) : known := fold_left (learn o) l (mkknown None None false).

(** The coefficient of the scheme with which an operator takes part: b for the spatial, a for the temporal one. *)
Definition coefficient (o : op) (T : tab) (r i : nat) : R := match o with Spatial => b T r i | Temporal => a T r i end.
Definition has (o : op) (p : place) : bool := match o with Spatial => has0 p | Temporal => has1 p end.
Definition renamed (e : event) : event :=
  match e with
  | PreStep _ t h s => PreStep Spatial t h s
  | PreStage _ t r => PreStage Spatial t r
  | SetTime _ t => SetTime Spatial t
  | Eval _ x p => Eval Spatial x p
  | Suggest _ => Suggest Spatial
  | PostStage _ => PostStage Spatial
  | PostStep _ => PostStep Spatial
  end.
