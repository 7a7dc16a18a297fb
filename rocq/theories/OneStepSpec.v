(** The stage equation of a one-step scheme, and the conditions under which the assembled residual is it. *)
From Verif Require Export EngineSpec OneStepModel.
Local Open Scope R_scope.

(** sum over i = 0..r of  a(r,i) f1 m(u_i, t_i) + b(r,i) f0 r(u_i, t_i) *)
Definition stage_formula (G : space) (L0 L1 : terms R) (e : env) (cells : list cell) (o : os) (us : nat -> vec) : vec :=
  fun g => lsum (fun i =>
    a (T o) (stage o) i * f1 o * operator_value 0 G e L1 (t0 o + d (T o) i * dt o) (us i) cells g +
    b (T o) (stage o) i * f0 o * operator_value 0 G e L0 (t0 o + d (T o) i * dt o) (us i) cells g) (seq 0 (S (stage o))).

(** Every coefficient is zero or larger than 1e-6 in absolute value, and a(r,r) = 1. *)
Definition zero_or_big (v : R) : Prop := v = 0 \/ / 1000000 < Rabs v.
Definition coefficients_ok (T : tab) (r : nat) : Prop :=
  a T r r = 1 /\ forall i, (i <= r)%nat -> zero_or_big (a T r i) /\ zero_or_big (b T r i).

(** No post-skeleton terms. *)
Definition no_post {X} (L : terms X) : Prop := do_alpha_post L = false /\ do_lambda_post L = false.
(** Both operators look at interior faces equally often, as far as they look at them at all. *)
Definition same_view {X} (L0 L1 : terms X) : Prop :=
  do_two_sided L0 = do_two_sided L1 \/
  do_alpha_skeleton L0 = false /\ do_lambda_skeleton L0 = false /\ do_two_sided L1 = true \/
  do_alpha_skeleton L1 = false /\ do_lambda_skeleton L1 = false /\ do_two_sided L0 = true.

(** Constraining is additive and doing it to a part first makes no difference. *)
Definition constrains_once (C : vec -> vec) : Prop := forall u v, C (vadd u (C v)) = C (vadd u v).

(** An operator with volume terms only, whose residual is its matrix times the solution. *)
Definition linear_mass (G : space) (L : terms R) (J : jterms) : Prop :=
  do_alpha_volume L = true /\ do_alpha_skeleton L = false /\ do_alpha_boundary L = false /\ do_alpha_post L = false /\
  do_lambda_volume L = false /\ do_lambda_skeleton L = false /\ do_lambda_boundary L = false /\ do_lambda_post L = false /\
  do_two_sided L = false /\
  forall c t x y i, (i < length (lfsv G (cid c)))%nat ->
    alpha_volume L c t x i = mv (length (lfsu G (cid c))) (j_volume J c t y) x i.

(** An operator with terms of any kind but no test-only ones, whose residual is its matrix times the solution. *)
Definition linear_operator (G : space) (L : terms R) (J : jterms) : Prop :=
  do_alpha_volume L = true /\
  do_lambda_volume L = false /\ do_lambda_skeleton L = false /\ do_lambda_boundary L = false /\ do_lambda_post L = false /\
  forall c t x y,
    (forall i, (i < length (lfsv G (cid c)))%nat -> alpha_volume L c t x i = mv (length (lfsu G (cid c))) (j_volume J c t y) x i) /\
    (forall i, (i < length (lfsv G (cid c)))%nat -> alpha_post L c t x i = mv (length (lfsu G (cid c))) (j_post J c t y) x i) /\
    (forall f k i, (i < length (lfsv G (cid c)))%nat -> alpha_boundary L c f k t x i = mv (length (lfsu G (cid c))) (j_boundary J c f k t y) x i) /\
    (forall f k x' y' i, let '((ss, sn), (ns, nn)) := j_skeleton J c f k t y y' in
       let n := length (lfsu G (cid c)) in let n' := length (lfsu G (outside f)) in
       ((i < length (lfsv G (cid c)))%nat -> fst (alpha_skeleton L c f k t x x') i = mv n ss x i + mv n' sn x' i) /\
       ((i < length (lfsv G (outside f)))%nat -> snd (alpha_skeleton L c f k t x x') i = mv n ns x i + mv n' nn x' i)).
(** The matrix terms on faces and the post-skeleton ones do not depend on time. *)
Definition steady_faces (L : terms R) (J : jterms) : Prop := forall c f k t t' y y',
  (do_alpha_skeleton L = true -> j_skeleton J c f k t y y' = j_skeleton J c f k t' y y') /\
  (do_alpha_boundary L = true -> j_boundary J c f k t y = j_boundary J c f k t' y) /\
  (do_alpha_post L = true -> j_post J c t y = j_post J c t' y).
(** The same matrix terms with those on cells at one time and all others at another time. *)
Definition at_times (tv tf : R) (J : jterms) : jterms :=
  mkjterms (fun c _ => j_volume J c tv) (fun c f k _ => j_skeleton J c f k tf) (fun c f k _ => j_boundary J c f k tf) (fun c _ => j_post J c tf).
(** The same operator made to look at interior faces from both sides or from one. *)
Definition viewed (two : bool) {X} (L : terms X) : terms X :=
  mkterms X (do_alpha_volume L) (do_lambda_volume L) (do_alpha_skeleton L) (do_lambda_skeleton L) (do_alpha_boundary L) (do_lambda_boundary L)
    (do_alpha_post L) (do_lambda_post L) two (alpha_volume L) (lambda_volume L) (alpha_skeleton L) (lambda_skeleton L)
    (alpha_boundary L) (lambda_boundary L) (alpha_post L) (lambda_post L).
