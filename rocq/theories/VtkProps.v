(** C179: solutions written to VTK files. *)
From Coq Require Import Ascii Reals Lra Lia Sorting.Sorted.
From Verif Require Import CommonFacts VtkModel VtkSpec VtkProofs VtkProofs2.

(** What a call adds, after the data sets that were there before: one data set for each leaf and each vector space that is
    selected, in the order of the tree.  If it throws, one of them has no name, and those before it were added. *)
Theorem c179_written g pred t w w' thrown : add_solution g pred t w = (w', thrown) ->
  exists done new, w' = w ++ new /\ StronglySorted (fun a b => before (fst a) (fst b)) done /\
    Forall2 (fun pn d => describes g (fst pn) (snd pn) d) done new /\
    (thrown = false -> forall p n, In (p, n) done <-> to_write t pred p n) /\
    (thrown = true -> exists p n, to_write t pred p n /\ ~ nameable g n /\
       forall q m, In (q, m) done <-> to_write t pred q m /\ before q p).
Proof.
  unfold add_solution. rewrite visit_run. intros H.
  destruct (run_spec g pred (comps t) (comps_sorted t) (fun p n I => proj2 (proj1 (comps_reach t p n) I)) _ _ _ H) as (done & new & E & S & F & Hf & Ht & _).
  assert (W : forall p n, to_write t pred p n <-> In (p, n) (comps t) /\ pred p = true) by (intros p n; unfold to_write; rewrite comps_reach; tauto).
  exists done, new. repeat (split; [assumption|]). split.
  - intros T p n. rewrite W. auto.
  - intros T. destruct (Ht T) as (p & n & I & P & N & A). exists p, n. split; [now apply W|]. split; [auto|]. intros q m. rewrite W. auto.
Qed.
Print Assumptions c179_written.
(** In a list in this order no component comes twice. *)
Theorem c179_once (l : list (path * space)) : StronglySorted (fun a b => before (fst a) (fst b)) l -> NoDup (map fst l).
Proof.
  induction 1 as [|a l _ IH F]; cbn; constructor; auto. intros I. apply in_map_iff in I as (b & E & I). rewrite Forall_forall in F.
  specialize (F _ I). rewrite E in F. now apply before_irrefl in F.
Qed.
Print Assumptions c179_once.
(** It throws exactly if a selected component has no name and the scheme neither prefix nor suffix. *)
Theorem c179_success g pred t w : snd (add_solution g pred t w) = false <-> forall p n, to_write t pred p n -> nameable g n.
Proof.
  unfold add_solution. rewrite visit_run. destruct (run g pred [] (comps t) w) as (w', thrown) eqn:H.
  destruct (run_spec g pred (comps t) (comps_sorted t) (fun p n I => proj2 (proj1 (comps_reach t p n) I)) _ _ _ H) as (done & new & E & S & F & Hf & Ht & Hi).
  assert (W : forall p n, to_write t pred p n <-> In (p, n) (comps t) /\ pred p = true) by (intros p n; unfold to_write; rewrite comps_reach; tauto).
  cbn. destruct thrown.
  - split; [discriminate|]. intros A. destruct (Ht eq_refl) as (p & n & I & P & N & _). exfalso. apply N, (A p n), W. auto.
  - split; [|auto]. intros _ p n T. apply W in T. apply (Hf eq_refl) in T. now apply (Hi p n).
Qed.
Print Assumptions c179_success.
(** Names of named components. *)
Theorem c179_named g name p : name <> ""%string -> component_name g name p = Ok (prefix g ++ name ++ suffix g)%string.
Proof. unfold component_name. destruct name; [congruence|reflexivity]. Qed.
Print Assumptions c179_named.
(** Names of components without one: the numbers of the path between prefix and suffix. *)
Theorem c179_unnamed g p s : component_name g "" p = Ok s ->
  s = ((if is_empty (prefix g) then "" else prefix g ++ separator g) ++ String.concat (separator g) (map number p) ++
       (if is_empty (suffix g) then "" else separator g ++ suffix g))%string.
Proof. apply component_unnamed. Qed.
Print Assumptions c179_unnamed.
(** They differ for different components if the separator does not begin with a digit. *)
Theorem c179_distinct g p q s : starts_without_digit (separator g) -> component_name g "" p = Ok s ->
  component_name g "" q = Ok s -> p = q.
Proof.
  intros Hs Hp Hq. apply component_unnamed in Hp, Hq. rewrite Hp in Hq. apply sapp_left, sapp_right in Hq. now apply (path_name_inj _ Hs).
Qed.
Print Assumptions c179_distinct.
Example c179_meets : starts_without_digit (separator default_scheme) /\
  let u := SLeaf (mkleaf "" VertexData (fun _ => true) (fun _ x => [fun _ => x]) (fun _ _ => 1%R)) in
  let v := SVector "v" CellData [] in
  exists a b, add_solution (mkscheme "x" "" "_") (fun _ => true) (SNode "" [v; SNode "" [u; u]]) [] = ([mkset "xv" CellData (FVector []); a; b], false) /\
    d_name a = "x_1_0"%string /\ d_name b = "x_1_1"%string.
Proof. split; [reflexivity|]. cbn. do 2 eexists. split; [reflexivity|]. auto. Qed.
Example c179_throws_meets :
  let u := SLeaf (mkleaf "" VertexData (fun _ => true) (fun _ x => [fun _ => x]) (fun _ _ => 1%R)) in
  add_solution default_scheme (fun _ => true) (SNode "" [SVector "v" CellData []; u]) [] = ([mkset "v" CellData (FVector [])], true).
Proof. reflexivity. Qed.
(** Finding: without a separator two components may get the same name. *)
Theorem c179_separator_refuted : exists g p q s, prefix g <> ""%string /\ p <> q /\ component_name g "" p = Ok s /\ component_name g "" q = Ok s.
Proof. exists (mkscheme "x" "" ""), [1; 1], [11], "x11"%string. repeat split; discriminate. Qed.
Print Assumptions c179_separator_refuted.
(** Finding: two components with the same name, as the children of a power space of a named space, are both written under it
    without an error. *)
Theorem c179_duplicate_refuted l : l_name l <> ""%string -> exists a b,
  add_solution default_scheme (fun _ => true) (SNode "" [SLeaf l; SLeaf l]) [] = ([a; b], false) /\ d_name a = d_name b.
Proof.
  intros H. unfold add_solution. cbn. unfold add_set. rewrite !c179_named by assumption. cbn. do 2 eexists. split; reflexivity.
Qed.
Print Assumptions c179_duplicate_refuted.

Local Open Scope R_scope.
(** Values of a leaf: the discrete function, zero on cells that do not belong to the space. *)
Theorem c179_leaf_values l c x : exists y, evaluate (FLeaf l) c x = Ok y /\ forall j, y j = function_value l c x j.
Proof. apply leaf_value. Qed.
Print Assumptions c179_leaf_values.
(** Values of a vector space on cells that belong to all its children: component k is the function of child k. *)
Theorem c179_vector_values ls c x : Forall (fun l => contains l c = true) ls ->
  exists y, evaluate (FVector ls) c x = Ok y /\ forall k l, nth_error ls k = Some l -> y k = function_value l c x 0.
Proof. apply vector_value. Qed.
Print Assumptions c179_vector_values.
Example c179_vector_meets : let l a := mkleaf "" VertexData (fun _ => true) (fun _ x => [fun _ => 1; fun _ => x]) (fun _ i => a + INR i) in
  Forall (fun l => contains l 0 = true) [l 2; l 3] /\ function_value (l 2) 0 5 0 = 17 /\ function_value (l 3) 0 5 0 = 23.
Proof. cbn. split; [repeat constructor|]. unfold function_value, combination. cbn. split; lra. Qed.
(** Finding: on any other cell the evaluation of a vector space dereferences a null pointer, where leaves are zero. *)
Theorem c179_vector_outside_refuted ls c x : Exists (fun l => contains l c = false) ls -> evaluate (FVector ls) c x = UB.
Proof. apply vector_undefined. Qed.
Print Assumptions c179_vector_outside_refuted.
Example c179_outside_meets : let l := mkleaf "" VertexData (fun c => (c =? 0)%nat) (fun _ x => [fun _ => x]) (fun _ _ => 1) in
  Exists (fun l => contains l 1 = false) [l] /\ exists y, evaluate (FLeaf l) 1 0 = Ok y.
Proof. cbn. split; [now constructor|]. eexists. reflexivity. Qed.
