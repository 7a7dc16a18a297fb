(** C75-C77: interpolation and discrete grid functions. *)
From Coq Require Import Reals Lra Permutation.
From Verif Require Import Common CommonFacts LfsModel LfsSpec LfsProofs FunModel FunSpec FunProofs FunProofs2 FunProofs3 FunProofs4.

(** ** C75: interpolation into a function space *)

(** Only the DOFs of the elements change, and each gets the coefficient that the local interpolation of the last element
    having it computes. *)
Theorem c75_interpolate fem room f t elements a x :
  (forall e, In e elements -> ready fem t room e /\ exists gs, assigns e f t gs) -> room <= length a ->
  exists s x', interpolate fem elements f (t, a) x = Ok (s, x') /\
    (forall d, (forall e v, In e elements -> ~ local_value fem f t e d v) -> x' d = x d) /\
    (forall before e after d v, elements = before ++ e :: after -> local_value fem f t e d v ->
       (forall e' v', In e' after -> ~ local_value fem f t e' d v') -> x' d = v).
Proof.
  intros H L. destruct (interpolate_ok fem room f t elements t a x H (same_refl t) L) as (t2 & a2 & x' & F & _ & _ & U & W). exists (t2, a2), x'. auto.
Qed.
Print Assumptions c75_interpolate.

(** If the elements agree on shared DOFs, every element gets what its local interpolation computes, in any order of the
    elements. *)
Theorem c75_conforming fem room f t elements elements' a x :
  (forall e, In e elements -> ready fem t room e /\ exists gs, assigns e f t gs) -> room <= length a -> conforming fem f t elements ->
  Permutation elements elements' ->
  exists s s' x1 x2, interpolate fem elements f (t, a) x = Ok (s, x1) /\ interpolate fem elements' f (t, a) x = Ok (s', x2) /\
    (forall e d v, In e elements -> local_value fem f t e d v -> x1 d = v) /\ (forall d, x1 d = x2 d).
Proof.
  intros H L C P. destruct (conforming_ok fem room f t elements a x H L C) as (s & x1 & F & W & U).
  assert (P' : forall e, In e elements' -> In e elements) by (intros e; apply Permutation_in, Permutation_sym, P).
  destruct (conforming_ok fem room f t elements' a x) as (s' & x2 & F' & W' & U').
  { intros e I. apply H, P', I. } { exact L. } { intros e e' d v v' I I'. apply C; apply P'; assumption. }
  exists s, s', x1, x2. split; [exact F|]. split; [exact F'|]. split; [exact W|]. intros d.
  assert (Dec : (exists e v, In e elements /\ local_value fem f t e d v) \/ (forall e v, In e elements -> ~ local_value fem f t e d v)).
  { clear - H. induction elements as [|e els IH]; [right; intros ? ? []|]. destruct IH as [(e' & v & I & Lv)|N].
    - intros e' I. apply H. right. exact I.
    - left. exists e', v. split; [right; exact I|exact Lv].
    - destruct (wants_dec fem f t e d) as [(v & Lv)|N']; [apply H; left; reflexivity| |].
      + left. exists e, v. split; [left; reflexivity|exact Lv].
      + right. intros e' v [<-|I]; [apply N'|apply N, I]. }
  destruct Dec as [(e & v & I & Lv)|N].
  - rewrite (W e d v I Lv). symmetry. apply (W' e d v); [|exact Lv]. eapply Permutation_in; eassumption.
  - rewrite (U d N). symmetry. apply U'. intros e v I. apply N, P', I.
Qed.
Print Assumptions c75_conforming.

(** A function of the discrete space is interpolated by its own coefficients. *)
Theorem c75_reproduces fem room f t elements a x c :
  (forall e, In e elements -> ready fem t room e /\ exists gs, assigns e f t gs) -> room <= length a ->
  (forall e gs k l g, In e elements -> assigns e f t gs -> nth_error (leaves t) k = Some l -> nth_error gs k = Some g -> inside (fe l e) = true ->
     unisolvent (fem (path l) e) (basis (fe l e)) /\ forall p r, g p r = combination (coeffs c l e) (values (fem (path l) e) p) r) ->
  exists s x', interpolate fem elements f (t, a) x = Ok (s, x') /\
    forall e l, In e elements -> In l (leaves t) -> inside (fe l e) = true -> coeffs x' l e = coeffs c l e.
Proof.
  intros H L Sp. destruct (reproduces fem room f t elements a x c H L Sp) as (s & x' & F & E). exists s, x'. split; [exact F|].
  intros e l I Il In1. unfold coeffs. apply map_ext_in. intros q Q. apply In_nth_error in Q. destruct Q as (i & Q). eapply E; eassumption.
Qed.
Print Assumptions c75_reproduces.

(** *** A grid of two intervals with linear elements *)
Definition p1 : fel := mkfel (fun g => [g (fun _ => 0%R) 0; g (fun _ => 1%R) 0])
  (fun p => [fun _ => (1 - p 0%nat)%R; fun _ => p 0%nat]) (fun p => [fun _ _ => (-1)%R; fun _ _ => 1%R]).
Definition p1_fem (_ : list nat) (_ : nat) : fel := p1.
(** Element e has the vertices e and e + 1 (geometry type 0). *)
Definition p1_element (e : nat) : element := mkfe true 2 2 1 e [(0, e, 0); (0, e + 1, 0)].
(** A leaf that lives on element 0 only *)
Definition p1_part (e : nat) : element := mkfe (e =? 0) 2 2 1 e [(0, e, 0); (0, e + 1, 0)].
Definition p1_space := Inner 0 0 [Leaf 0 0 p1_element; Leaf 0 0 p1_part].
(** The function 3 + x, and 2 - x: local coordinates of [e, e+1] *)
Definition p1_up : nat -> point -> nat -> R := fun e p _ => (3 + INR e + p 0%nat)%R.
Definition p1_down : nat -> point -> nat -> R := fun e p _ => (2 - INR e - p 0%nat)%R.

Example p1_ready t e : t = p1_space \/ t = Leaf 0 0 p1_element -> e < 2 -> ready p1_fem t 4 e.
Proof.
  intros T E. assert (K : forall l, In l (leaves t) -> inside (fe l e) = true -> fe l e = p1_element e /\ basis (fe l e) = 2).
  { intros l I In1. destruct T as [-> | ->]; cbn in I.
    - destruct I as [<- | [<- | []]]; cbn in *; [split; reflexivity|]. split; [unfold p1_part, p1_element; rewrite In1; reflexivity|reflexivity].
    - destruct I as [<- | []]. split; reflexivity. }
  split; [|split].
  - intros l I In1. destruct (K l I In1) as (-> & _). reflexivity.
  - destruct T as [-> | ->]; cbn; [|lia]. destruct (e =? 0); cbn; lia.
  - intros l I In1. destruct (K l I In1) as (-> & _). split; [|repeat split]. cbn. repeat constructor; cbn; [|tauto].
    intros [X | []]. injection X. lia.
Qed.
Lemma p1_unisolvent : unisolvent p1 2.
Proof.
  intros g cs L H. destruct cs as [|c0 [|c1 [|? ?]]]; try discriminate. cbn. rewrite !H. unfold combination. cbn. f_equal; [lra|]. f_equal. lra.
Qed.
(** The coefficients of the functions: by vertex and leaf *)
Definition p1_coeffs : vec := fun d => match ti d with [_; 0] => (3 + INR (ei d))%R | _ => (2 - INR (ei d))%R end.

Example c75_meets : (forall e, In e [0; 1] -> ready p1_fem p1_space 4 e /\ exists gs, assigns e (FInner [FLeaf 1 p1_up; FLeaf 1 p1_down]) p1_space gs) /\
  (forall e gs k l g, In e [0; 1] -> assigns e (FInner [FLeaf 1 p1_up; FLeaf 1 p1_down]) p1_space gs -> nth_error (leaves p1_space) k = Some l ->
     nth_error gs k = Some g -> inside (fe l e) = true ->
     unisolvent (p1_fem (path l) e) (basis (fe l e)) /\ forall p r, g p r = combination (coeffs p1_coeffs l e) (values (p1_fem (path l) e) p) r).
Proof.
  split.
  - intros e I. split; [apply p1_ready; [left; reflexivity|in_cases I; subst; lia]|].
    eexists. apply Assign_inner. eapply Assign_cons; [apply Assign_leaf|]. eapply Assign_cons; [apply Assign_leaf|]. constructor.
  - intros e gs k l g I A Nl Ng In1.
    assert (Eg : gs = [p1_up e; p1_down e]).
    { eapply (proj1 (assigns_fun e)); [exact A|]. apply Assign_inner.
      refine (Assign_cons e (FLeaf 1 p1_up) _ _ _ [p1_up e] [p1_down e] (Assign_leaf e 1 p1_up _ _ _) _).
      refine (Assign_cons e (FLeaf 1 p1_down) [] _ [] [p1_down e] [] (Assign_leaf e 1 p1_down _ _ _) (Assign_nil e)). }
    subst gs. destruct k as [|[|k]]; cbn in Nl, Ng; try (destruct k; discriminate); injection Nl as <-; injection Ng as <-; cbn [fe basis p1_element p1_part] in *.
    + split; [apply p1_unisolvent|]. intros p r. unfold combination, coeffs, p1_coeffs, p1_up. cbn. rewrite plus_INR. cbn. lra.
    + split; [apply p1_unisolvent|]. intros p r. unfold combination, coeffs, p1_coeffs, p1_down. cbn. rewrite plus_INR. cbn. lra.
Qed.

(** A scalar function (or a vector-valued one) at the place of an inner node reads the finite element of a leaf that is not
    there on an element, although the same function written leaf by leaf is interpolated. *)
Theorem c75_subset_refuted : exists fem t room elements g a x, room <= length a /\ (forall e, In e elements -> ready fem t room e) /\
  (exists r, interpolate fem elements (FInner [FLeaf 1 g; FLeaf 1 g]) (t, a) x = Ok r) /\
  interpolate fem elements (FLeaf 1 g) (t, a) x = UB /\ interpolate fem elements (FLeaf 2 g) (t, a) x = UB.
Proof.
  exists p1_fem, p1_space, 4, [0; 1], p1_up, (repeat (mkdof 0 0 []) 4), (fun _ => 0%R).
  split; [cbn; lia|]. split; [intros e I; apply p1_ready; [left; reflexivity|in_cases I; subst; lia]|]. split; [eexists; reflexivity|]. split; reflexivity.
Qed.
Print Assumptions c75_subset_refuted.

(** ** C76: values *)

Theorem c76_value fem room x e p st o n fm : ready fem (Leaf o n fm) room e -> inside (fm e) = true -> usable (Leaf o n fm) room st ->
  exists st' y, dgf fem x e p st = Ok (st', y) /\ usable (Leaf o n fm) room st' /\
    forall r, y r = combination (coeffs x (mkleaf [] o n fm) e) (values (fem [] e) p) r.
Proof. intros Rd In1 U. apply (dgf_ok fem (Leaf o n fm) room x e p st o n fm); auto. Qed.
Print Assumptions c76_value.

Theorem c76_vector fem t room N dimR remap x e p st : children t N -> ready fem t room e -> usable t room st ->
  (forall k, k < dimR -> remap k < N /\ forall l, nth_error (leaves t) (remap k) = Some l -> inside (fe l e) = true) ->
  exists st' y, vdgf fem dimR remap x e p st = Ok (st', y) /\ usable t room st' /\ length y = dimR /\
    forall k v l, nth_error y k = Some v -> nth_error (leaves t) (remap k) = Some l ->
      v = combination (coeffs x l e) (values (fem [remap k] e) p) 0.
Proof. apply vdgf_ok. Qed.
Print Assumptions c76_vector.

(** Evaluating the interpolant of a function of the space gives the function back. *)
Theorem c76_interpolant fem room d g o n fm elements a x c e p st :
  (forall e, In e elements -> ready fem (Leaf o n fm) room e) -> room <= length a ->
  (forall e, In e elements -> inside (fm e) = true ->
     unisolvent (fem [] e) (basis (fm e)) /\ forall p r, g e p r = combination (coeffs c (mkleaf [] o n fm) e) (values (fem [] e) p) r) ->
  In e elements -> inside (fm e) = true -> usable (Leaf o n fm) room st ->
  exists s x' st' y, interpolate fem elements (FLeaf d g) (Leaf o n fm, a) x = Ok (s, x') /\
    dgf fem x' e p st = Ok (st', y) /\ forall r, y r = g e p r.
Proof.
  intros H L Sp I In1 U. destruct (c75_reproduces fem room (FLeaf d g) (Leaf o n fm) elements a x c) as (s & x' & F & E).
  - intros e' I'. split; [apply H, I'|]. eexists. apply Assign_leaf.
  - exact L.
  - intros e' gs k l g' I' A Nl Ng In2. inversion A; subst. destruct k as [|k]; [|destruct k; discriminate]. cbn in Nl, Ng. injection Nl as <-. injection Ng as <-.
    apply Sp; assumption.
  - destruct (c76_value fem room x' e p st o n fm (H e I) In1 U) as (st' & y & Y & _ & V). exists s, x', st', y. split; [exact F|]. split; [exact Y|].
    intros r. rewrite V, (E e (mkleaf [] o n fm) I (or_introl eq_refl) In1). symmetry. apply Sp; assumption.
Qed.
Print Assumptions c76_interpolant.

(** The local function answers with the coefficients at the time of the last bind, whatever was done before and whatever
    happens to the vector afterwards. *)
Theorem c76_local_function fem dim IT room o n fm before e mid st0 x0 g x out p : ready fem (Leaf o n fm) room e -> inside (fm e) = true ->
  usable (Leaf o n fm) room st0 -> foldM (gvf_step fem dim IT) before ((None, st0), x0, []) = Ok (g, x, out) ->
  (forall o, In o mid -> match o with Bind _ | Unbind => False | _ => True end) ->
  (exists g' x' out' y, foldM (gvf_step fem dim IT) (before ++ Bind e :: mid ++ [Value p]) ((None, st0), x0, []) = Ok (g', x', out' ++ [Values y]) /\
     forall r, y r = combination (coeffs x (mkleaf [] o n fm) e) (values (fem [] e) p) r) /\
  (exists g' x' out' y, foldM (gvf_step fem dim IT) (before ++ Bind e :: mid ++ [Derivative p]) ((None, st0), x0, []) = Ok (g', x', out' ++ [Rows y]) /\
     forall j k, y j k = combination (coeffs x (mkleaf [] o n fm) e) (map (fun J i => rsum dim (fun l => IT e p i l * J j l)%R) (jacobians (fem [] e) p)) k).
Proof.
  intros Rd In1 U F M.
  assert (Q : forallb query mid = true). { apply forallb_forall. intros q I. specialize (M q I). destruct q; cbn; auto; contradiction. }
  destruct (gvf_ok fem dim IT room o n fm before e mid st0 x0 g x out Rd In1 U F Q) as (g' & x' & out' & R & H). split.
  - destruct (value_ok fem dim IT room o n fm x e g' x' out' p Rd In1 H) as (y & Y & E). exists g', x', out', y. split; [|exact E].
    rewrite app_comm_cons, app_assoc, foldM_app, R. cbn [bind foldM]. rewrite Y. reflexivity.
  - destruct (derivative_ok fem dim IT room o n fm x e g' x' out' p Rd In1 H) as (y & Y & E). exists g', x', out', y. split.
    + rewrite app_comm_cons, app_assoc, foldM_app, R. cbn [bind foldM]. rewrite Y. reflexivity.
    + intros j k. rewrite E. rewrite <- (Rmult_1_l (combination _ (map (fun J i => rsum dim _) _) _)). apply combination_map. intros J. rewrite umv_rsum, Rmult_1_l. reflexivity.
Qed.
Print Assumptions c76_local_function.

Example c76_meets : ready p1_fem (Leaf 0 0 p1_element) 4 1 /\ usable (Leaf 0 0 p1_element) 4 ((Leaf 0 0 p1_element, repeat (mkdof 0 0 []) 4), repeat 0%R 4) /\
  ready p1_fem p1_space 4 0 /\ children p1_space 2 /\
  exists r, foldM (gvf_step p1_fem 1 (fun _ _ _ _ => 1%R)) [Bind 0; Value (fun _ => 0%R); SetDofs p1_coeffs; Derivative (fun _ => 0%R); Unbind]
    ((None, ((Leaf 0 0 p1_element, repeat (mkdof 0 0 []) 4), repeat 0%R 4)), fun _ => 0%R, []) = Ok r /\ snd (fst r) = p1_coeffs.
Proof.
  split; [apply p1_ready; [right; reflexivity|lia]|]. split; [split; [apply Fresh; cbn; lia|cbn; lia]|]. split; [apply p1_ready; [left; reflexivity|lia]|].
  split.
  - eexists _, _, _. split; [reflexivity|]. split; [reflexivity|]. intros c [<- | [<- | []]]; eexists _, _, _; reflexivity.
  - eexists. split; reflexivity.
Qed.

(** ** C77: derivatives *)

(** The gradient is that of the function DiscreteGridFunction evaluates: its product with the image J v of a local
    direction is the derivative in this direction. *)
Theorem c77_gradient fem dim J IT room x e p st o n fm : ready fem (Leaf o n fm) room e -> inside (fm e) = true -> usable (Leaf o n fm) room st ->
  inverse_transposed dim J (IT e p) -> differentiable dim (fem [] e) p ->
  exists st' y, gradient fem dim IT x e p st = Ok (st', y) /\
    forall v, exists G, (forall s, exists st1 z, dgf fem x e (along p v s) st = Ok (st1, z) /\ z 0 = G s) /\
      derivable_pt_lim G 0 (rsum dim (fun k => y k * mapped dim J v k)%R).
Proof.
  intros Rd In1 U Inv D. destruct (gradient_ok fem dim IT (Leaf o n fm) room x e p st o n fm eq_refl Rd In1 (proj1 U)) as (st' & y & F & _ & E).
  exists st', y. split; [exact F|]. intros v. exists (fun s => combination (coeffs x (mkleaf [] o n fm) e) (values (fem [] e) (along p v s)) 0). split.
  - intros s. destruct (c76_value fem room x e (along p v s) st o n fm Rd In1 U) as (st1 & z & Z & _ & V). exists st1, z. split; [exact Z|apply V].
  - rewrite (rsum_ext dim _ _ (fun k _ => f_equal (fun a => (a * mapped dim J v k)%R) (E k))).
    destruct Rd as (C & _ & Dm). specialize (C _ (or_introl eq_refl) In1). destruct (Dm _ (or_introl eq_refl) In1) as (_ & _ & D3 & D4). cbn [path fe] in *.
    apply (directional dim (fem [] e) p v J (IT e p) _ (basis (fm e)) Inv D); [unfold coeffs; rewrite map_length; exact C|exact D3|apply D4].
Qed.
Print Assumptions c77_gradient.

Definition dleaf := mkleaf [] 0 0 (fun _ => mkfe true 0 0 0 0 []).
Lemma rows_of fem dim IT t room N x e p st : children t N -> ready fem t room e -> usable t room st -> (forall l, In l (leaves t) -> inside (fe l e) = true) ->
  exists st' y, vgradient fem dim IT x e p st = Ok (st', y) /\ length y = N /\
    forall k j, k < N -> nth k y (fun _ => 0%R) j = row fem dim IT x (nth k (leaves t) dleaf) e p k j.
Proof.
  intros Ch Rd U Hin. destruct (vgradient_ok fem dim IT t room N x e p st Ch Rd U Hin) as (st' & y & F & _ & L & E). exists st', y. split; [exact F|]. split; [exact L|].
  intros k j Hk. destruct (child_leaf t N k Ch Hk) as (l & Nl & _). rewrite (nth_error_nth _ _ dleaf Nl).
  destruct (nth_error y k) as [v|] eqn:Nv; [|apply nth_error_None in Nv; lia]. rewrite (nth_error_nth _ _ (fun _ => 0%R) Nv). apply E; assumption.
Qed.

(** Row k of the Jacobian is the gradient of component k. *)
Theorem c77_vector_gradient fem dim J IT t room N x e p st : children t N -> ready fem t room e -> usable t room st ->
  (forall l, In l (leaves t) -> inside (fe l e) = true) -> inverse_transposed dim J (IT e p) -> (forall k, k < N -> differentiable dim (fem [k] e) p) ->
  exists st' y, vgradient fem dim IT x e p st = Ok (st', y) /\ length y = N /\
    forall k v, k < N -> exists G, (forall s, exists st1 z, vdgf fem N (fun k => k) x e (along p v s) st = Ok (st1, z) /\ nth k z 0%R = G s) /\
      derivable_pt_lim G 0 (rsum dim (fun j => nth k y (fun _ => 0%R) j * mapped dim J v j)%R).
Proof.
  intros Ch Rd U Hin Inv D. destruct (rows_of fem dim IT t room N x e p st Ch Rd U Hin) as (st' & y & F & L & E). exists st', y. split; [exact F|]. split; [exact L|].
  intros k v Hk. destruct (child_leaf t N k Ch Hk) as (l & Nl & Pl & Il & _).
  exists (fun s => combination (coeffs x l e) (values (fem [k] e) (along p v s)) 0). split.
  - intros s. destruct (c76_vector fem t room N N (fun k => k) x e (along p v s) st Ch Rd U) as (st1 & z & Z & _ & Lz & V).
    { intros k' Hk'. split; [exact Hk'|]. intros l' N'. apply Hin. eapply nth_error_In, N'. }
    exists st1, z. split; [exact Z|]. destruct (nth_error z k) as [w|] eqn:Nz; [|apply nth_error_None in Nz; lia]. rewrite (nth_error_nth _ _ 0%R Nz). apply (V k w l Nz Nl).
  - rewrite (rsum_ext dim _ _ (fun j _ => f_equal (fun a => (a * mapped dim J v j)%R) (E k j Hk))). rewrite (nth_error_nth _ _ dleaf Nl). unfold row.
    destruct Rd as (C & _ & Dm). specialize (C _ Il (Hin l Il)). destruct (Dm _ Il (Hin l Il)) as (_ & _ & D3 & D4). rewrite Pl in D3, D4.
    apply (directional dim (fem [k] e) p v J (IT e p) _ (basis (fe l e)) Inv (D k Hk)); [unfold coeffs; rewrite map_length; exact C|exact D3|apply D4].
Qed.
Print Assumptions c77_vector_gradient.

Lemma combination_zero {V} (cs : list R) (vs : list V) (f : V -> nat -> R) r : (forall v, f v r = 0%R) -> combination cs (map f vs) r = 0%R.
Proof. intros H. rewrite (combination_map cs vs f f r r 0); [lra|]. intros v. rewrite H. lra. Qed.

(** Divergence and curl are the usual combinations of these derivatives. *)
Theorem c77_divergence fem dim IT m t room x e p st : children t dim -> ready fem t room e -> usable t room st ->
  (forall l, In l (leaves t) -> inside (fe l e) = true) -> (m = Diagonal -> forall i j, i < dim -> j < dim -> i <> j -> IT e p i j = 0%R) ->
  exists st' g st'' y, vgradient fem dim IT x e p st = Ok (st', g) /\ divergence fem dim IT m x e p st = Ok (st'', y) /\
    y 0 = rsum dim (fun k => nth k g (fun _ => 0%R) k).
Proof.
  intros Ch Rd U Hin Dg. destruct (rows_of fem dim IT t room dim x e p st Ch Rd U Hin) as (st' & g & F & L & E).
  destruct (over_children_ok fem t room dim x e p st (fun k c J y => fun r => if r =? 0 then (y 0%nat + c * compute_derivative dim m (IT e p) J k)%R else y r)
    (fun k J r => if r =? 0 then compute_derivative dim m (IT e p) J k else 0%R) Ch Rd U Hin) as (st'' & y & F' & _ & E').
  { intros k c J y r _. destruct (r =? 0) eqn:Z; [apply Nat.eqb_eq in Z; subst; reflexivity|lra]. }
  exists st', g, st'', y. split; [exact F|]. split; [exact F'|]. rewrite E'. apply rsum_ext. intros k Hk. rewrite E by exact Hk. unfold row.
  rewrite <- (Rmult_1_l (combination _ (map (fun J => umv _ _ _) _) _)). apply combination_map. intros J. cbn [Nat.eqb]. rewrite derivative_umv by assumption. lra.
Qed.
Print Assumptions c77_divergence.

Theorem c77_curl3 fem IT m t room x e p st : children t 3 -> ready fem t room e -> usable t room st ->
  (forall l, In l (leaves t) -> inside (fe l e) = true) -> (m = Diagonal -> forall i j, i < 3 -> j < 3 -> i <> j -> IT e p i j = 0%R) ->
  exists st' g st'' y, vgradient fem 3 IT x e p st = Ok (st', g) /\ curl3 fem 3 IT m x e p st = Ok (st'', y) /\
    let d k j := nth k g (fun _ => 0%R) j in
    y 0 = (d 2%nat 1%nat - d 1%nat 2%nat)%R /\ y 1 = (d 0%nat 2%nat - d 2%nat 0%nat)%R /\ y 2 = (d 1%nat 0%nat - d 0%nat 1%nat)%R.
Proof.
  intros Ch Rd U Hin Dg. destruct (rows_of fem 3 IT t room 3 x e p st Ch Rd U Hin) as (st' & g & F & L & E).
  destruct (over_children_ok fem t room 3 x e p st (fun k c J y =>
      let i1 := (k + 1) mod 3 in
      let i2 := (k + 2) mod 3 in
      let y := update y i1 (y i1 + c * compute_derivative 3 m (IT e p) J i2)%R in
      update y i2 (y i2 - c * compute_derivative 3 m (IT e p) J i1)%R)
    (fun k J r => if r =? (k + 2) mod 3 then (- compute_derivative 3 m (IT e p) J ((k + 1) mod 3))%R
                  else if r =? (k + 1) mod 3 then compute_derivative 3 m (IT e p) J ((k + 2) mod 3) else 0%R) Ch Rd U Hin) as (st'' & y & F' & _ & E').
  { intros k c J y r Hk. unfold update. destruct k as [|[|[|k]]]; try lia; cbn [Nat.add Nat.modulo Nat.divmod fst snd Nat.sub];
    destruct r as [|[|[|r]]]; cbn [Nat.eqb]; lra. }
  exists st', g, st'', y. split; [exact F|]. split; [exact F'|].
  assert (One : forall k i c (w : (nat -> nat -> R) -> nat -> R) r, i < 3 -> k < 3 -> (forall J, w J r = c * compute_derivative 3 m (IT e p) (J 0%nat) i)%R ->
     combination (coeffs x (nth k (leaves t) dleaf) e) (map w (jacobians (fem [k] e) p)) r = (c * nth k g (fun _ => 0%R) i)%R).
  { intros k i c w r Hi Hk W. rewrite E by exact Hk. unfold row. apply combination_map. intros J. rewrite W, derivative_umv by assumption. reflexivity. }
  cbv zeta. repeat split; rewrite E', rsum3; fold dleaf.
  - rewrite (combination_zero _ _ (fun J => _)) by reflexivity. rewrite (One 1 2 (-1)%R), (One 2 1 1%R); try lia; try lra; intros J; cbn [Nat.add Nat.modulo Nat.divmod fst snd Nat.sub Nat.eqb]; lra.
  - rewrite (One 0 2 1%R), (One 2 0 (-1)%R); try lia; try (intros J; cbn [Nat.add Nat.modulo Nat.divmod fst snd Nat.sub Nat.eqb]; lra).
    rewrite (combination_zero _ _ (fun J => _)) by reflexivity. lra.
  - rewrite (One 0 1 (-1)%R), (One 1 0 1%R); try lia; try (intros J; cbn [Nat.add Nat.modulo Nat.divmod fst snd Nat.sub Nat.eqb]; lra).
    rewrite (combination_zero _ _ (fun J => _)) by reflexivity. lra.
Qed.
Print Assumptions c77_curl3.

Theorem c77_curl2 fem IT m t room x e p st : children t 2 -> ready fem t room e -> usable t room st ->
  (forall l, In l (leaves t) -> inside (fe l e) = true) -> (m = Diagonal -> forall i j, i < 2 -> j < 2 -> i <> j -> IT e p i j = 0%R) ->
  exists st' g st'' y, vgradient fem 2 IT x e p st = Ok (st', g) /\ curl2 fem 2 IT m x e p st = Ok (st'', y) /\
    y 0 = (nth 1 g (fun _ => 0%R) 0%nat - nth 0 g (fun _ => 0%R) 1%nat)%R.
Proof.
  intros Ch Rd U Hin Dg. destruct (rows_of fem 2 IT t room 2 x e p st Ch Rd U Hin) as (st' & g & F & L & E).
  destruct (over_children_ok fem t room 2 x e p st (fun k c J y =>
      let sign := fold_left (fun s _ => (s * -1)%R) (seq 0 k) (-1)%R in
      let i2 := 1 - k in
      update y 0 (y 0%nat + sign * c * compute_derivative 2 m (IT e p) J i2)%R)
    (fun k J r => if r =? 0 then ((if k =? 0 then -1 else 1) * compute_derivative 2 m (IT e p) J (1 - k))%R else 0%R) Ch Rd U Hin) as (st'' & y & F' & _ & E').
  { intros k c J y r Hk. unfold update. destruct k as [|[|k]]; try lia; destruct r as [|r]; cbn [Nat.eqb Nat.sub fold_left seq]; lra. }
  exists st', g, st'', y. split; [exact F|]. split; [exact F'|].
  rewrite E', rsum2; fold dleaf. rewrite !E by lia. unfold row.
  rewrite (combination_map _ _ _ (fun J => umv 2 (IT e p) (J 0%nat)) 0 1 (-1)%R).
  2:{ intros J. cbn [Nat.eqb Nat.sub]. rewrite derivative_umv by (assumption || lia). lra. }
  rewrite (combination_map _ _ _ (fun J => umv 2 (IT e p) (J 0%nat)) 0 0 1%R).
  2:{ intros J. cbn [Nat.eqb Nat.sub]. rewrite derivative_umv by (assumption || lia). lra. }
  lra.
Qed.
Print Assumptions c77_curl2.

(** The Piola transform keeps the flux through the image of an edge, or of a face. *)
Theorem c77_piola2 fem IT invert determinant J room x e p st o n fm : ready fem (Leaf o n fm) room e -> inside (fm e) = true -> usable (Leaf o n fm) room st ->
  inverse_transposed 2 J (IT e p) -> (forall i j, i < 2 -> j < 2 -> rsum 2 (fun k => IT e p i k * invert (IT e p) k j)%R = delta i j) ->
  (forall M, determinant M = det2 M) ->
  exists st' y st'' yhat, piola fem 2 IT invert determinant x e p st = Ok (st', y) /\ dgf fem x e p st = Ok (st'', yhat) /\
    forall tangent, cross2 y (mapped 2 J tangent) = cross2 yhat tangent.
Proof.
  intros Rd In1 U Inv Iv Dt. destruct (c76_value fem room x e p st o n fm Rd In1 U) as (st' & yhat & Y & _ & _). unfold piola. rewrite Y. cbn [bind].
  eexists _, _, st', yhat. split; [reflexivity|]. split; [reflexivity|]. intros tau. pose proof (inverse_unique 2 _ _ _ Inv Iv) as Eq. pose proof (det2_inv _ _ Inv) as Dn.
  assert (N : det2 J <> 0%R) by (intros Z; rewrite Z in Dn; lra).
  assert (D : determinant (invert (IT e p)) = det2 J) by (rewrite Dt; unfold det2; rewrite !Eq by lia; ring).
  unfold cross2, mapped. cbv beta. rewrite !umv_rsum, !rsum2, D, !Eq by lia. unfold det2 in *. field. exact N.
Qed.
Print Assumptions c77_piola2.

Theorem c77_piola3 fem IT invert determinant J room x e p st o n fm : ready fem (Leaf o n fm) room e -> inside (fm e) = true -> usable (Leaf o n fm) room st ->
  inverse_transposed 3 J (IT e p) -> (forall i j, i < 3 -> j < 3 -> rsum 3 (fun k => IT e p i k * invert (IT e p) k j)%R = delta i j) ->
  (forall M, determinant M = det3 M) ->
  exists st' y st'' yhat, piola fem 3 IT invert determinant x e p st = Ok (st', y) /\ dgf fem x e p st = Ok (st'', yhat) /\
    forall t1 t2, rsum 3 (fun k => y k * cross3 (mapped 3 J t1) (mapped 3 J t2) k)%R = rsum 3 (fun k => yhat k * cross3 t1 t2 k)%R.
Proof.
  intros Rd In1 U Inv Iv Dt. destruct (c76_value fem room x e p st o n fm Rd In1 U) as (st' & yhat & Y & _ & _). unfold piola. rewrite Y. cbn [bind].
  eexists _, _, st', yhat. split; [reflexivity|]. split; [reflexivity|]. intros t1 t2. pose proof (inverse_unique 3 _ _ _ Inv Iv) as Eq. pose proof (det3_inv _ _ Inv) as Dn.
  assert (N : det3 J <> 0%R) by (intros Z; rewrite Z in Dn; lra).
  assert (D : determinant (invert (IT e p)) = det3 J) by (rewrite Dt; unfold det3; rewrite !Eq by lia; ring).
  rewrite !rsum3. unfold cross3, mapped. cbn [Nat.add Nat.modulo Nat.divmod fst snd Nat.sub]. rewrite !umv_rsum, !rsum3, D, !Eq by lia. unfold det3 in *. field. exact N.
Qed.
Print Assumptions c77_piola3.

(** The curl from a Jacobian; for global finite elements in three dimensions the linear combination of the curls. *)
Theorem c77_jacobian_to_curl J :
  jacobian_to_curl 3 3 J = Some [J 2%nat 1%nat - J 1%nat 2%nat; J 0%nat 2%nat - J 2%nat 0%nat; J 1%nat 0%nat - J 0%nat 1%nat]%R /\
  jacobian_to_curl 2 2 J = Some [J 1%nat 0%nat - J 0%nat 1%nat]%R /\
  jacobian_to_curl 1 2 J = Some [J 0%nat 1%nat; - J 0%nat 0%nat]%R.
Proof. repeat split. Qed.
Print Assumptions c77_jacobian_to_curl.

Theorem c77_global_curl_partial xl J : length J <= length xl -> (forall M, In M J -> length M = 3 /\ forall r, In r M -> length r = 3) ->
  exists y, global_curl 3 xl J = Ok y /\ length y = 3 /\
    forall a, a < 3 -> exists c, (forall i, i < length J -> exists l, jacobian_to_curl 3 3 (fun r c => nth c (nth r (nth i J []) []) 0%R) = Some l /\ nth a l 0%R = c i) /\
      nth a y 0%R = rsum (length J) (fun i => nth i xl 0 * c i)%R.
Proof.
  intros L H. destruct (global_curl3 xl J L H) as (y & F & Ly & E). exists y. split; [exact F|]. split; [exact Ly|]. intros a Ha.
  eexists. split; [|apply E, Ha]. intros i _. cbv beta. eexists. split; reflexivity.
Qed.
Print Assumptions c77_global_curl_partial.

(** In two dimensions the wrong case of the switch is taken: evaluating reads or writes outside the matrix or vector. *)
Theorem c77_global_curl_refuted : exists xl J, J <> [] /\ length J = length xl /\
  (forall M, In M J -> length M = 1 /\ forall r, In r M -> length r = 2) /\ global_curl 1 xl J = UB /\
  exists J', J' <> [] /\ length J' = length xl /\ (forall M, In M J' -> length M = 2 /\ forall r, In r M -> length r = 2) /\ global_curl 2 xl J' = UB.
Proof.
  exists [1%R], [[[1; 2]%R]]. split; [discriminate|]. split; [reflexivity|].
  split; [intros M [<- | []]; split; [reflexivity|]; intros r [<- | []]; reflexivity|]. split; [reflexivity|].
  exists [[[1; 2]; [3; 4]]%R]. split; [discriminate|]. split; [reflexivity|].
  split; [intros M [<- | []]; split; [reflexivity|]; intros r [<- | [<- | []]]; reflexivity|]. reflexivity.
Qed.
Print Assumptions c77_global_curl_refuted.

(** A sheared element: J = (1 1; 0 2) *)
Definition shear (i j : nat) : R := match i, j with 0, 0 => 1 | 0, 1 => 1 | 1, 1 => 2 | _, _ => 0 end%R.
Definition shear_IT (i j : nat) : R := match i, j with 0, 0 => 1 | 1, 0 => - (1 / 2) | 1, 1 => 1 / 2 | _, _ => 0 end%R.
Definition shear_T (i j : nat) : R := shear j i.
Example c77_meets : inverse_transposed 2 shear shear_IT /\ (forall i j, i < 2 -> j < 2 -> rsum 2 (fun k => shear_IT i k * shear_T k j)%R = delta i j) /\
  (forall p, differentiable 1 p1 p) /\ inverse_transposed 1 (fun _ _ => 1%R) (fun _ _ => 1%R) /\
  (let IT := fun i j => if i =? j then 1%R else 0%R in inverse_transposed 3 IT IT /\ forall i j, i < 3 -> j < 3 -> i <> j -> IT i j = 0%R).
Proof.
  split; [|split; [|split; [|split; [|split]]]].
  - intros [|[|i]] [|[|j]] Hi Hj; try lia; rewrite rsum2; cbn; lra.
  - intros [|[|i]] [|[|j]] Hi Hj; try lia; rewrite rsum2; unfold shear_T; cbn; lra.
  - intros p i J v N. destruct i as [|[|i]]; cbn in N; [| |destruct i; discriminate]; injection N as <-; cbn; unfold along, rsum; cbn.
    + replace (-1 * v 0%nat + 0)%R with (0 - (0 + 1 * v 0%nat))%R by ring. apply (derivable_pt_lim_minus (fun _ => 1%R)); [apply derivable_pt_lim_const|].
      apply (derivable_pt_lim_plus (fun _ => p 0%nat) (fun s => (s * v 0%nat)%R)); [apply derivable_pt_lim_const|].
      intros eps He. exists (mkposreal eps He). intros h Hh _. replace (((0 + h) * v 0%nat - 0 * v 0%nat) / h - 1 * v 0%nat)%R with 0%R by (field; exact Hh). rewrite Rabs_R0. exact He.
    + replace (1 * v 0%nat + 0)%R with (0 + 1 * v 0%nat)%R by ring.
      apply (derivable_pt_lim_plus (fun _ => p 0%nat) (fun s => (s * v 0%nat)%R)); [apply derivable_pt_lim_const|].
      intros eps He. exists (mkposreal eps He). intros h Hh _. replace (((0 + h) * v 0%nat - 0 * v 0%nat) / h - 1 * v 0%nat)%R with 0%R by (field; exact Hh). rewrite Rabs_R0. exact He.
  - intros [|i] [|j] Hi Hj; try lia. unfold rsum, delta. cbn. lra.
  - intros [|[|[|i]]] [|[|[|j]]] Hi Hj; try lia; rewrite rsum3; unfold delta; cbn; lra.
  - intros i j _ _ H. apply Nat.eqb_neq in H. rewrite H. reflexivity.
Qed.
