(** Model of the transfer of DOF vectors under grid adaptation (dune/pdelab/adaptivity/adaptivity.hh 30-860).
    A cell of the grid hierarchy is identified by its path: the numbers of the children from the cell up to its macro
    cell.  The persistent id of a cell is its path.  One process (the two communications add nothing); exact reals; scalar
    shape functions.  What the finite elements, geometries and quadrature rules deliver is data ([fem]). *)
From Verif Require Export Common.
From Coq Require Export Reals.
Local Open Scope R_scope.

Definition cell := list nat.
Definition cell_eq (a b : cell) : bool := if list_eq_dec Nat.eq_dec a b then true else false.
(** hasFather / father *)
Definition father (c : cell) : option cell := match c with _ :: (_ :: _) as f => Some f | _ => None end.
(** descendantElements(a, maxLevel): the strict descendants of [a] *)
Fixpoint below (a c : cell) : bool := match c with [] => false | _ :: f => cell_eq f a || below a f end.

(** A quadrature point: factor, fine and coarse shape functions there (246-254). *)
Definition qpoint := (R * list R * list R)%type.
Record fem := mkfem {
  leaves : nat;                                  (* leaves of the function space tree *)
  gtype : cell -> nat;                           (* GlobalGeometryTypeIndex *)
  sizes : cell -> list nat;                      (* local sizes of the leaves on a cell *)
  quad : cell -> cell -> nat -> list qpoint;     (* fine cell, coarse cell, leaf *)
  minv : nat -> nat -> list (list R);            (* inverse mass matrix by geometry type and leaf: 172-191 *)
  interp : cell -> cell -> nat -> list R -> list R (* fine cell, coarse cell, leaf, coarse coefficients: 396-412, 435-444 *) }.

(** LeafOffsetCache: 33-73.  An entry of zeros is an entry that has not been computed. *)
Definition cache := nat -> list nat.
Definition no_cache : cache := fun _ => [].
Definition offset (ch : cache) (gt k : nat) : nat := nth k (ch gt) 0%nat.
Definition back (ch : cache) (gt : nat) : nat := last (ch gt) 0%nat.
Definition cache_update (F : fem) (ch : cache) (c : cell) : cache :=
  if (back ch (gtype F c) =? 0)%nat then fun g => if (g =? gtype F c)%nat then psums 0 (sizes F c) else ch g else ch.

(** Sum of a loop over 0..n-1 *)
Definition loop (n : nat) (f : nat -> R) : R := fold_left (fun s i => s + f i) (seq 0 n) 0.

(** backup_visitor::leaf, one quadrature point: 244-269; indices past the end of a vector are undefined *)
Definition project_point (mi : list (list R)) (co fo : nat) (u_fine : list R) (uc : list R) (q : qpoint) : res (list R) :=
  let '(factor, fphi, cphi) := q in
  if (fo + length fphi <=? length u_fine)%nat && (co + length cphi <=? length uc)%nat && (length mi =? length cphi)%nat then
    let val := loop (length fphi) (fun i => nth (fo + i) u_fine 0 * nth i fphi 0) in
    Ok (fold_left (fun uc i => upd (co + i) (nth (co + i) uc 0 +
                     factor * (loop (length mi) (fun j => nth j (nth i mi []) 0 * nth j cphi 0) * val)) uc) (seq 0 (length cphi)) uc)
  else UB.
(** backup_visitor::leaf on all leaves: 226-273 *)
Definition project_leaf (F : fem) (ch : cache) (a c : cell) (u_fine : list R) (uc : list R) (k : nat) : res (list R) :=
  foldM (project_point (minv F (gtype F a) k) (offset ch (gtype F a) k) (offset ch (gtype F c) k) u_fine) (quad F c a k) uc.

Definition tmap := cell -> option (list R).
Definition put (m : tmap) (c : cell) (v : list R) : tmap := fun d => if cell_eq d c then Some v else m d.
Definition read (u : nat -> R) (dofs : list nat) : list R := map u dofs.

(** projection of the leaves below an ancestor: 303-327 *)
Definition project (F : fem) (old : list cell) (dofs : cell -> list nat) (u : nat -> R) (ch : cache) (a : cell) : res (cache * list R) :=
  let ch := cache_update F ch a in
  foldM (fun st c => let ch := cache_update F (fst st) c in
                     let* uc := foldM (project_leaf F ch a c (read u (dofs c))) (seq 0 (leaves F)) (snd st) in
                     Ok (ch, uc))
        (filter (below a) old) (ch, repeat 0 (back ch (gtype F a))).

(** The loop over the ancestors that might vanish: 291-328 *)
Fixpoint climb (F : fem) (old : list cell) (dofs : cell -> list nat) (vanish : cell -> bool) (u : nat -> R) (a : cell) (st : cache * tmap) : res (cache * tmap) :=
  if vanish a then
    match a with
    | _ :: f => match f with
                | [] => Ok st
                | _ => match snd st f with
                       | Some (_ :: _) => climb F old dofs vanish u f st
                       | _ => let* r := project F old dofs u (fst st) f in climb F old dofs vanish u f (fst r, put (snd st) f (snd r))
                       end
                end
    | [] => Ok st
    end
  else Ok st.
(** backup_visitor::operator(): 275-329 *)
Definition backup_cell (F : fem) (old : list cell) (dofs : cell -> list nat) (vanish : cell -> bool) (u : nat -> R) (st : cache * tmap) (e : cell) : res (cache * tmap) :=
  climb F old dofs vanish u e (cache_update F (fst st) e, put (snd st) e (read u (dofs e))).
(** GridAdaptor::backupData: 549-558 *)
Definition backup (F : fem) (old : list cell) (dofs : cell -> list nat) (vanish : cell -> bool) (u : nat -> R) (ch : cache) : res (cache * tmap) :=
  foldM (backup_cell F old dofs vanish u) old (ch, fun _ => None).

(** std::copy into u_fine: 445 *)
Definition write_at (off : nat) (l uf : list R) : res (list R) :=
  if (off + length l <=? length uf)%nat then Ok (firstn off uf ++ l ++ skipn (off + length l) uf) else UB.
(** replay_visitor::leaf: 431-448 *)
Definition replay_leaf (F : fem) (ch : cache) (e a : cell) (v : list R) (uf : list R) (k : nat) : res (list R) :=
  write_at (offset ch (gtype F e) k)
    (interp F e a k (slice (offset ch (gtype F a) k) (nth k (sizes F a) 0%nat) v)) uf.
(** The search for the nearest ancestor with data: 577-587 *)
Fixpoint nearest (m : tmap) (a : cell) : option (cell * list R) :=
  match m a with
  | Some v => Some (a, v)
  | None => match a with
            | _ :: f => match f with [] => None | _ => nearest m f end
            | [] => None
            end
  end.
(** local view add: entries of a local vector added to a global one *)
Fixpoint add_local (idx : list nat) (l : list R) (u : nat -> R) : nat -> R :=
  match idx, l with
  | d :: idx, x :: l => add_local idx l (fun g => if (g =? d)%nat then u g + x else u g)
  | _, _ => u
  end.
Record rstate := mkr { rcache : cache; sumv : nat -> R; countv : nat -> R }.
(** replay_visitor::operator(): 450-481 *)
Definition local_values (F : fem) (ch : cache) (n : nat) (e a : cell) (v : list R) : res (list R) :=
  if cell_eq e a then Ok v else foldM (replay_leaf F ch e a v) (seq 0 (leaves F)) (repeat 0 n).
Definition replay_cell (F : fem) (dofs : cell -> list nat) (m : tmap) (st : rstate) (e : cell) : res rstate :=
  match nearest m e with
  | None => Throw
  | Some (a, v) =>
      let ch := cache_update F (rcache st) e in
      let* l := local_values F ch (length (dofs e)) e a v in
      Ok (mkr ch (add_local (dofs e) l (sumv st)) (add_local (dofs e) (repeat 1 (length (dofs e))) (countv st)))
  end.
(** GridAdaptor::replayData into a vector of zeros: 565-605 *)
Definition replay (F : fem) (new : list cell) (dofs : cell -> list nat) (m : tmap) (ch : cache) : res (nat -> R) :=
  let* st := foldM (replay_cell F dofs m) new (mkr ch (fun _ => 0) (fun _ => 0)) in
  Ok (fun d => sumv st d / (if Rlt_dec 0 (countv st d) then countv st d else 1)).

(** One vector through backup, adaptation and replay (632-658). *)
Definition transfer (F : fem) (old new : list cell) (odofs ndofs : cell -> list nat) (vanish : cell -> bool) (u : nat -> R) : res (nat -> R) :=
  let* b := backup F old odofs vanish u no_cache in
  replay F new ndofs (snd b) (fst b).

(** The order of the operations of adaptGrid and adapt_grid: vector [i] of pack [p]. *)
Inductive event := PreAdapt | Backup (p i : nat) | Adapt | Update (p : nat) | Fresh (p i : nat) | Replay (p i : nat) | PostAdapt.
(** iterateTuple: 735-785; [n] vectors left, [next]: iteratePacks of the remaining packs *)
Fixpoint iterate_tuple (next : list event) (p i n : nat) : list event :=
  match n with
  | O => next ++ [Update p]
  | S n' => Backup p i :: iterate_tuple next p (S i) n' ++ [Fresh p i; Replay p i]
  end.
(** iteratePacks: 787-815; a pack is given by its number of vectors *)
Fixpoint iterate_packs (p : nat) (packs : list nat) : list event :=
  match packs with [] => [Adapt] | n :: rest => iterate_tuple (iterate_packs (S p) rest) p 0 n end.
(** adaptGrid: 848-859 *)
Definition adapt_grid_packs (packs : list nat) : list event := PreAdapt :: iterate_packs 0 packs ++ [PostAdapt].
(** adapt_grid with one and two vectors: 631-658, 671-703 *)
Definition adapt_grid_one : list event := [PreAdapt; Backup 0 0; Adapt; Update 0; Fresh 0 0; Replay 0 0; PostAdapt].
Definition adapt_grid_two : list event :=
  [PreAdapt; Backup 0 0; Backup 0 1; Adapt; Update 0; Fresh 0 0; Replay 0 0; Fresh 0 1; Replay 0 1; PostAdapt].
