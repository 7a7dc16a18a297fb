(** Options of the deprecated Newton solver. *)
From Verif Require Import NewtonModel CommonFacts OldModel OldSpec.
Local Open Scope string_scope.

Definition okb {A} (t : string -> option pval) (key : string) (conv : pval -> option A) : bool :=
  match t key with Some v => match conv v with Some _ => true | None => false end | None => true end.
Lemma okb_iff {A} t key (conv : pval -> option A) : okb t key conv = true <-> readable t key conv.
Proof.
  unfold okb, readable. destruct (t key) as [v|].
  - split.
    + intros H v' E. injection E as <-. destruct (conv v); congruence.
    + intros H. specialize (H v eq_refl). destruct (conv v); congruence.
  - split; [discriminate|reflexivity].
Qed.
Lemma one_setting {A} t key (conv : pval -> option A) get (F : A -> oparams) old p :
  (forall v, get v = match conv v with Some a => Ok a | None => Throw end) -> F old = p ->
  match t key with Some v => bind (get v) (fun r => Ok (F r)) | None => Ok p end =
  if okb t key conv then Ok (F (read t key conv old)) else Throw.
Proof.
  intros Hg HF. unfold okb, read. destruct (t key) as [v|]; [|rewrite HF; reflexivity].
  rewrite Hg. destruct (conv v); reflexivity.
Qed.
Lemma strategy_names s : strategy_from_name s = match strategy_of (VString s) with Some a => Ok a | None => Throw end.
Proof.
  unfold strategy_from_name, strategy_of, names. cbn [List.find fst].
  repeat match goal with
  | |- context [string_dec ?a s] => destruct (string_dec a s) as [<-|]; [reflexivity|]
  | |- context [String.eqb s ?b] => destruct (String.eqb_spec s b) as [->|]; [congruence|]
  end.
  repeat match goal with |- context [String.eqb s ?b] => destruct (String.eqb_spec s b) as [->|]; [congruence|] end.
  reflexivity.
Qed.

Lemma params_eta (o : params) : mkparams (reduction o) (absolute_limit o) (keep_matrix o) (use_max_norm o) (hanging_nodes o)
  (min_linear_reduction o) (fixed_linear_reduction o) (reassemble_threshold o) (max_iterations o) (force_iteration o) (matrix_free o) = o.
Proof. destruct o; reflexivity. Qed.
Lemma oparams_eta (p : oparams) : mko (opt p) (strat p) (tries p) (damp p) (hang_defect p) (hang_prepare p) = p.
Proof. destruct p; reflexivity. Qed.
Lemma real_conv v : as_real v = match real_of v with Some a => Ok a | None => Throw end.
Proof. destruct v; reflexivity. Qed.
Lemma nat_conv v : as_nat v = match nat_of v with Some a => Ok a | None => Throw end.
Proof. destruct v; reflexivity. Qed.
Lemma bool_conv v : as_bool v = match bool_of v with Some a => Ok a | None => Throw end.
Proof. destruct v; reflexivity. Qed.
Lemma strategy_conv v : bind (as_string v) strategy_from_name = match strategy_of v with Some a => Ok a | None => Throw end.
Proof. destruct v; try reflexivity. apply strategy_names. Qed.
Lemma bind_assoc {A B C} (m : Common.res A) (f : A -> Common.res B) (g : B -> Common.res C) :
  bind (bind m f) g = bind m (fun a => bind (f a) g).
Proof. destruct m; reflexivity. Qed.

Theorem set_parameters_spec t p :
  set_parameters t p =
  if okb t "VerbosityLevel" nat_of && okb t "Reduction" real_of && okb t "MaxIterations" nat_of &&
     okb t "ForceIteration" bool_of && okb t "AbsoluteLimit" real_of && okb t "MinLinearReduction" real_of &&
     okb t "FixedLinearReduction" bool_of && okb t "ReassembleThreshold" real_of &&
     okb t "LineSearchStrategy" strategy_of && okb t "LineSearchMaxIterations" nat_of &&
     okb t "LineSearchDampingFactor" real_of && okb t "KeepMatrix" bool_of && okb t "UseMaxNorm" bool_of
  then Ok (result_options t p) else Throw.
Proof.
  unfold set_parameters, settings, result_options. destruct p as [o st n d h1 h2]. destruct o as [a1 a2 a3 a4 a5 a6 a7 a8 a9 a10 a11].
  set (P := fun a1 a2 a3 a4 a6 a7 a8 a9 a10 st n d => mko (mkparams a1 a2 a3 a4 a5 a6 a7 a8 a9 a10 a11) st n d h1 h2).
  Ltac next conv lem key F old :=
    cbn [foldM fst snd]; unfold set_opt; cbn [opt strat tries damp hang_defect hang_prepare reduction absolute_limit keep_matrix use_max_norm hanging_nodes
      min_linear_reduction fixed_linear_reduction reassemble_threshold max_iterations force_iteration matrix_free];
    rewrite (one_setting _ key conv _ F old) by (first [exact lem|reflexivity]);
    destruct (okb _ key conv); cbn [andb bind]; [|rewrite ?Bool.andb_false_r; reflexivity].
  next nat_of nat_conv "VerbosityLevel" (fun _ : nat => P a1 a2 a3 a4 a6 a7 a8 a9 a10 st n d) 0%nat. clear - P. unfold P.
  next real_of real_conv "Reduction" (fun r => P r a2 a3 a4 a6 a7 a8 a9 a10 st n d) a1.
  set (b1 := read t "Reduction" real_of a1). unfold P.
  next nat_of nat_conv "MaxIterations" (fun r => P b1 a2 a3 a4 a6 a7 a8 r a10 st n d) a9.
  set (b9 := read t "MaxIterations" nat_of a9). unfold P.
  next bool_of bool_conv "ForceIteration" (fun r => P b1 a2 a3 a4 a6 a7 a8 b9 r st n d) a10.
  set (b10 := read t "ForceIteration" bool_of a10). unfold P.
  next real_of real_conv "AbsoluteLimit" (fun r => P b1 r a3 a4 a6 a7 a8 b9 b10 st n d) a2.
  set (b2 := read t "AbsoluteLimit" real_of a2). unfold P.
  next real_of real_conv "MinLinearReduction" (fun r => P b1 b2 a3 a4 r a7 a8 b9 b10 st n d) a6.
  set (b6 := read t "MinLinearReduction" real_of a6). unfold P.
  next bool_of bool_conv "FixedLinearReduction" (fun r => P b1 b2 a3 a4 b6 r a8 b9 b10 st n d) a7.
  set (b7 := read t "FixedLinearReduction" bool_of a7). unfold P.
  next real_of real_conv "ReassembleThreshold" (fun r => P b1 b2 a3 a4 b6 b7 r b9 b10 st n d) a8.
  set (b8 := read t "ReassembleThreshold" real_of a8). unfold P.
  cbn [foldM fst snd]. cbn [opt strat tries damp hang_defect hang_prepare].
  transitivity (bind match t "LineSearchStrategy" with
         | Some v => bind (bind (as_string v) strategy_from_name) (fun r => Ok (P b1 b2 a3 a4 b6 b7 b8 b9 b10 r n d))
         | None => Ok (P b1 b2 a3 a4 b6 b7 b8 b9 b10 st n d) end
    (foldM (fun (p : oparams) (k : string * (pval -> oparams -> Common.res oparams)) =>
       match t (fst k) with Some v => snd k v p | None => Ok p end) (skipn 9 settings))).
  { destruct (t "LineSearchStrategy") as [v|]; [|reflexivity]. destruct v as [| | |nm]; reflexivity. }
  rewrite (one_setting _ "LineSearchStrategy" strategy_of _ (fun r => P b1 b2 a3 a4 b6 b7 b8 b9 b10 r n d) st) by (first [exact strategy_conv|reflexivity]).
  destruct (okb t "LineSearchStrategy" strategy_of); cbn [andb bind]; [|reflexivity].
  set (bst := read t "LineSearchStrategy" strategy_of st). unfold P, settings. cbn [skipn].
  next nat_of nat_conv "LineSearchMaxIterations" (fun r => P b1 b2 a3 a4 b6 b7 b8 b9 b10 bst r d) n.
  set (bn := read t "LineSearchMaxIterations" nat_of n). unfold P.
  next real_of real_conv "LineSearchDampingFactor" (fun r => P b1 b2 a3 a4 b6 b7 b8 b9 b10 bst bn r) d.
  set (bd := read t "LineSearchDampingFactor" real_of d). unfold P.
  next bool_of bool_conv "KeepMatrix" (fun r => P b1 b2 r a4 b6 b7 b8 b9 b10 bst bn bd) a3.
  set (b3 := read t "KeepMatrix" bool_of a3). unfold P.
  next bool_of bool_conv "UseMaxNorm" (fun r => P b1 b2 b3 r b6 b7 b8 b9 b10 bst bn bd) a4.
  reflexivity.
Qed.

Theorem set_parameters_ok t p p' : set_parameters t p = Ok p' -> all_readable t /\ p' = result_options t p.
Proof.
  rewrite set_parameters_spec. match goal with |- context [if ?b then _ else _] => destruct b eqn:E end; [|discriminate].
  injection 1 as <-. repeat rewrite Bool.andb_true_iff in E. repeat rewrite okb_iff in E. unfold all_readable. tauto.
Qed.
Theorem set_parameters_throws t p : ~ all_readable t -> set_parameters t p = Throw.
Proof.
  intros H. rewrite set_parameters_spec. match goal with |- context [if ?b then _ else _] => destruct b eqn:E end; [|reflexivity].
  exfalso. apply H. repeat rewrite Bool.andb_true_iff in E. repeat rewrite okb_iff in E. unfold all_readable. tauto.
Qed.
Theorem set_parameters_works t p : all_readable t -> exists p', set_parameters t p = Ok p'.
Proof.
  intros H. rewrite set_parameters_spec. match goal with |- context [if ?b then _ else _] => destruct b eqn:E end; [eauto|].
  exfalso. apply Bool.not_true_iff_false in E. apply E. repeat rewrite Bool.andb_true_iff. repeat rewrite okb_iff. unfold all_readable in H. tauto.
Qed.
