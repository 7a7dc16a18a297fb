(** Model of the fast DG grid operator: sweep (dune/pdelab/gridoperator/fastdg/assembler.hh), engines
    (fastdg/residualengine.hh, jacobianengine.hh, jacobianapplyengine.hh), aliased views
    (backend/common/aliasedvectorview.hh, aliasedmatrixview.hh) and the fast index cache (lfsindexcache.hh 306-310,
    605-609).  Local operators read and write the global containers through pointers; a pointer is modelled by the
    position in the container, [None] is the null pointer.  Solution and result are different containers. *)
From Verif Require Import OrderingModel.
From Verif Require Export EngineModel.
Local Open Scope R_scope.

(** Sizes seen by the fast operator: number of local DOFs (maxLocalSize of the finite element maps,
    localfunctionspace.hh 107-108), block sizes of the containers, and the entity index of a cell within its type. *)
Record fspace := mkfspace { u_size : nat; v_size : nat; u_block : nat; v_block : nat; entity_index : nat -> nat }.

(** LFSIndexCache::update, fast branch: lfsindexcache.hh 306-310 and 605-609.  The head is C++ [back()]. *)
Definition fast_index (en : ent) : list nat := [snd en; 0%nat].

(** LFSIndexCache::update: the container index of a cell is (block = entity index, 0), whatever the ordering;
    BlockVector::data (backend/istl/vector.hh 152-161): its address. *)
Definition u_data (F : fspace) (c : nat) : nat := (u_block F * entity_index F c)%nat.
Definition v_data (F : fspace) (c : nat) : nat := (v_block F * entity_index F c)%nat.

(** ConstAliasedVectorView::operator() and AliasedVectorView::accumulate: aliasedvectorview.hh 96-100, 168-172. *)
Definition alias_read {X} (x0 : X) (x : nat -> X) (p n : nat) : nat -> X := fun i => if (i <? n)%nat then x (p + i)%nat else x0.
Definition alias_acc (w : R) (p n : nat) (v : vec) (r : vec) : vec :=
  fold_left (fun r i => fun g => if (g =? p + i)%nat then r g + w * v i else r g) (seq 0 n) r.
(** AliasedVectorView::rawAccumulate: aliasedvectorview.hh 174-178; and rawAccumulate of the view used by the default
    engines: gridfunctionspace/localvector.hh 90-95. *)
Definition alias_raw (w : R) (p n : nat) (v : vec) (r : vec) : vec := alias_acc w p n v r.
Definition default_raw (w : R) (v : vec) (r : vec) : vec := vadd r v.
(** AliasedMatrixView::accumulate: entry (i,j) at data[i * columns + j] (aliasedmatrixview.hh 140-144, 257-261);
    the block is stored by rows of [bs] entries. *)
Definition malias_acc (w : R) (p : nat * nat) (rows cols bs : nat) (m : mat) (a : mat) : mat :=
  fold_left (fun a i => fold_left (fun a j => fun g h =>
      let k := (i * cols + j)%nat in
      if ((g =? fst p + k / bs) && (h =? snd p + k mod bs))%nat then a g h + w * m i j else a g h) (seq 0 cols) a)
    (seq 0 rows) a.

Definition deref {A} (p : option A) : res A := match p with Some x => Ok x | None => UB end.

(** partition(): localassemblerenginebase.hh 102-105 (Partitions::interiorBorder) and fastdg/patternengine.hh 125-128
    (Partitions::all). *)
Record part := mkpart { interior_border : bool; own_cell : nat -> bool }.

(** One intersection: fastdg/assembler.hh 165-258. *)
Definition fast_visit (p : part) (fl : flags) (c : cell) (f : face) : bool :=
  (outside f <? cid c)%nat || two_sided fl || (interior_border p && negb (own_cell p (outside f))).
Definition fast_face_calls (e : env) (p : part) (fl : flags) (c : cell) (i : nat) (f : face) : list call :=
  match classify e f with
  | Skeleton | Periodic =>
      if uv_skeleton fl || v_skeleton fl then
        if fast_visit p fl c f then
          OnBindVOutside c f i :: AsmVSkeleton c f i ::
          (if uv_skeleton fl then
             [OnBindUVOutside c f i; LoadOutside c f i; AsmUVSkeleton c f i; OnUnbindUVOutside c f i] else [])
          ++ [OnUnbindVOutside c f i]
        else []
      else []
  | Boundary =>
      if uv_boundary fl || v_boundary fl then
        AsmVBoundary c f i :: (if uv_boundary fl then [AsmUVBoundary c f i] else []) else []
  | Processor =>
      if uv_boundary fl || v_boundary fl then
        AsmVProcessor c f i :: (if uv_boundary fl then [AsmUVProcessor c f i] else []) else []
  end.
(** fastdg/assembler.hh 156-260. *)
Fixpoint fast_faces_calls (e : env) (p : part) (fl : flags) (c : cell) (i : nat) (fs : list face) : list call :=
  match fs with
  | [] => []
  | f :: fs' =>
      if skip_intersection e c f then fast_faces_calls e p fl c i fs'
      else fast_face_calls e p fl c i f ++ fast_faces_calls e p fl c (S i) fs'
  end.
(** fastdg/assembler.hh 121-282. *)
Definition fast_cell_calls (e : env) (p : part) (fl : flags) (c : cell) : list call :=
  if skip_entity e c then []
  else
    [OnBindV c; AsmVVolume c; OnBindUV c; LoadInside c; AsmUVVolume c]
    ++ (if uv_skeleton fl || v_skeleton fl || uv_boundary fl || v_boundary fl
        then fast_faces_calls e p fl c 0 (faces c) else [])
    ++ (if uv_post fl || v_post fl then AsmVPost c :: (if uv_post fl then [AsmUVPost c] else []) else [])
    ++ [OnUnbindUV c; OnUnbindV c].
(** elements(entity_set, partition): fastdg/assembler.hh 120. *)
Definition fast_sweep (e : env) (p : part) (fl : flags) (cells : list cell) : list call :=
  flat_map (fast_cell_calls e p fl) (filter (fun c => negb (interior_border p) || own_cell p (cid c)) cells).

(** The views of the residual and jacobian apply engines. *)
Record fstate := mkfstate { p_rl : option nat; p_rn : option nat; p_sl : option nat; p_sn : option nat }.
Definition unbound : fstate := mkfstate None None None None.

Section Residual.
  Context {X : Type}.
  Variable x0 : X.
  Variable F : fspace.
  Variable L : terms X.
  Variable x : nat -> X.

  Definition facc_in (w : R) (on : bool) (v : (nat -> X) -> vec) (needs_x : bool) (s : fstate) (r : vec) : res (fstate * vec) :=
    if on then
      let* p := deref (p_rl s) in
      let* q := (if needs_x then deref (p_sl s) else Ok 0%nat) in
      Ok (s, alias_acc w p (v_size F) (v (alias_read x0 x q (u_size F))) r)
    else Ok (s, r).
  Definition facc_both (w : R) (on : bool) (v : (nat -> X) -> (nat -> X) -> vec * vec) (needs_x : bool) (s : fstate) (r : vec)
    : res (fstate * vec) :=
    if on then
      let* p := deref (p_rl s) in
      let* p' := deref (p_rn s) in
      let* q := (if needs_x then deref (p_sl s) else Ok 0%nat) in
      let* q' := (if needs_x then deref (p_sn s) else Ok 0%nat) in
      let vs := v (alias_read x0 x q (u_size F)) (alias_read x0 x q' (u_size F)) in
      Ok (s, alias_acc w p' (v_size F) (snd vs) (alias_acc w p (v_size F) (fst vs) r))
    else Ok (s, r).

  (** fastdg/residualengine.hh 157-393, fastdg/jacobianapplyengine.hh 131-310. *)
  Definition fast_step (a : la) (y : call) (s : fstate) (r : vec) : res (fstate * vec) :=
    let w := weight a in let t := time a in
    match y with
    | OnBindV c => Ok (mkfstate (Some (v_data F (cid c))) (p_rn s) (p_sl s) (p_sn s), r)
    | OnBindVOutside _ f _ => Ok (mkfstate (p_rl s) (Some (v_data F (outside f))) (p_sl s) (p_sn s), r)
    | OnBindUV c => Ok (mkfstate (p_rl s) (p_rn s) (Some (u_data F (cid c))) (p_sn s), r)
    | OnBindUVOutside _ f _ => Ok (mkfstate (p_rl s) (p_rn s) (p_sl s) (Some (u_data F (outside f))), r)
    | AsmVVolume c => facc_in w (do_lambda_volume L) (fun _ => lambda_volume L c t) false s r
    | AsmUVVolume c => facc_in w (do_alpha_volume L) (alpha_volume L c t) true s r
    | AsmVSkeleton c f i => facc_both w (do_lambda_skeleton L) (fun _ _ => lambda_skeleton L c f i t) false s r
    | AsmUVSkeleton c f i => facc_both w (do_alpha_skeleton L) (alpha_skeleton L c f i t) true s r
    | AsmVBoundary c f i => facc_in w (do_lambda_boundary L) (fun _ => lambda_boundary L c f i t) false s r
    | AsmUVBoundary c f i => facc_in w (do_alpha_boundary L) (alpha_boundary L c f i t) true s r
    | AsmVPost c => facc_in w (do_lambda_post L) (fun _ => lambda_post L c t) false s r
    | AsmUVPost c => facc_in w (do_alpha_post L) (alpha_post L c t) true s r
    | OnUnbindV _ => Ok (mkfstate None (p_rn s) (p_sl s) (p_sn s), r)
    | OnUnbindVOutside _ _ _ => Ok (mkfstate (p_rl s) None (p_sl s) (p_sn s), r)
    | LoadInside _ | LoadOutside _ _ _ | OnUnbindUV _ | OnUnbindUVOutside _ _ _
    | AsmVProcessor _ _ _ | AsmUVProcessor _ _ _ => Ok (s, r)
    end.

  (** FastDGGridOperator::residual, jacobian_apply. *)
  Definition fast_residual (e : env) (p : part) (cells : list cell) (a : la) (s : fstate) (r : vec) : res (fstate * vec) :=
    foldM (fun sr y => fast_step a y (fst sr) (snd sr)) (fast_sweep e p (res_flags L) cells) (s, r).
End Residual.

(** The views of the Jacobian engine. *)
Record fjstate := mkfjstate {
  p_ss : option (nat * nat); p_asn : option (nat * nat); p_ans : option (nat * nat); p_ann : option (nat * nat);
  p_xs : option nat; p_xn : option nat }.
Definition junbound : fjstate := mkfjstate None None None None None None.

Section Jacobian.
  Variable F : fspace.
  Variable L : terms R.
  Variable J : jterms.
  Variable x : vec.

  Definition fjacc (w : R) (on : bool) (v : vec -> mat) (s : fjstate) (m : mat) : res (fjstate * mat) :=
    if on then
      let* p := deref (p_ss s) in
      let* q := deref (p_xs s) in
      Ok (s, malias_acc w p (v_size F) (u_size F) (u_block F) (v (alias_read 0 x q (u_size F))) m)
    else Ok (s, m).

  (** fastdg/jacobianengine.hh 149-309. *)
  Definition fast_jstep (a : la) (y : call) (s : fjstate) (m : mat) : res (fjstate * mat) :=
    let w := weight a in let t := time a in
    match y with
    | OnBindUV c =>
        Ok (mkfjstate (Some (v_data F (cid c), u_data F (cid c))) (p_asn s) (p_ans s) (p_ann s) (Some (u_data F (cid c))) (p_xn s), m)
    | OnBindUVOutside c f _ =>
        let c := cid c in let n := outside f in
        Ok (mkfjstate (p_ss s) (Some (v_data F c, u_data F n)) (Some (v_data F n, u_data F c)) (Some (v_data F n, u_data F n))
              (p_xs s) (Some (u_data F n)), m)
    | AsmUVVolume c => fjacc w (do_alpha_volume L) (j_volume J c t) s m
    | AsmUVBoundary c f i => fjacc w (do_alpha_boundary L) (j_boundary J c f i t) s m
    | AsmUVPost c => fjacc w (do_alpha_post L) (j_post J c t) s m
    | AsmUVSkeleton c f i =>
        if do_alpha_skeleton L then
          let* pss := deref (p_ss s) in
          let* psn := deref (p_asn s) in
          let* pns := deref (p_ans s) in
          let* pnn := deref (p_ann s) in
          let* q := deref (p_xs s) in
          let* q' := deref (p_xn s) in
          let '((ss, sn), (ns, nn)) := j_skeleton J c f i t (alias_read 0 x q (u_size F)) (alias_read 0 x q' (u_size F)) in
          let acc p b m := malias_acc w p (v_size F) (u_size F) (u_block F) b m in
          Ok (s, acc pnn nn (acc pns ns (acc psn sn (acc pss ss m))))
        else Ok (s, m)
    | OnUnbindUV _ => Ok (mkfjstate None (p_asn s) (p_ans s) (p_ann s) (p_xs s) (p_xn s), m)
    | OnUnbindUVOutside _ _ _ => Ok (mkfjstate (p_ss s) None None None (p_xs s) (p_xn s), m)
    | _ => Ok (s, m)
    end.
  Definition fast_jacobian (e : env) (p : part) (cells : list cell) (a : la) (s : fjstate) (m : mat) : res (fjstate * mat) :=
    foldM (fun sm y => fast_jstep a y (fst sm) (snd sm)) (fast_sweep e p (jac_flags L) cells) (s, m).
End Jacobian.

(** interpolate(xold, f, x): gridoperator.hh 152-165 (the default operator keeps a copy if x and xold are the same
    object) and fastdg.hh 183-193.  The container of x is overwritten with the interpolation of f, then the
    unconstrained entries of xold are copied.  [same]: xold and x are the same object. *)
Definition copy_free (constrained : nat -> bool) (from to : vec) : vec := fun g => if constrained g then to g else from g.
Definition default_interpolate (constrained : nat -> bool) (same : bool) (xold f : vec) : vec :=
  let source := xold in copy_free constrained source f.
Definition fast_interpolate (constrained : nat -> bool) (same : bool) (xold f : vec) : vec :=
  copy_free constrained (if same then f else xold) f.
