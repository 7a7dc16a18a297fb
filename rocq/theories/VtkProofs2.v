(** Names and values. *)
From Coq Require Import Ascii Reals Lra Lia DecimalString Decimal DecimalNat DecimalFacts.
From Verif Require Import CommonFacts VtkModel VtkSpec.

(** *** strings *)
Lemma sapp_assoc s t u : ((s ++ t) ++ u = s ++ t ++ u)%string.
Proof. induction s; cbn; congruence. Qed.
Lemma sapp_nil s : (s ++ "" = s)%string.
Proof. induction s; cbn; congruence. Qed.
Lemma sapp_left s t u : (s ++ t = s ++ u)%string -> t = u.
Proof. induction s; cbn; [auto|intros [=]; auto]. Qed.
Lemma sapp_length s t : String.length (s ++ t) = String.length s + String.length t.
Proof. induction s; cbn; auto. Qed.
Lemma sapp_right t : forall s u, (s ++ t = u ++ t)%string -> s = u.
Proof.
  intros s. induction s as [|a s IH]; intros [|b u] H; cbn in *; auto.
  - apply (f_equal String.length) in H. cbn in H. rewrite sapp_length in H. lia.
  - apply (f_equal String.length) in H. cbn in H. rewrite sapp_length in H. lia.
  - injection H as -> H. f_equal. auto.
Qed.
Fixpoint digits (s : string) : Prop := match s with EmptyString => True | String a s' => is_digit a = true /\ digits s' end.
Definition boundary (s : string) : Prop := match s with EmptyString => True | String a _ => is_digit a = false end.
Lemma digits_split d1 : forall d2 r1 r2, digits d1 -> digits d2 -> boundary r1 -> boundary r2 ->
  (d1 ++ r1 = d2 ++ r2)%string -> d1 = d2 /\ r1 = r2.
Proof.
  induction d1 as [|a d1 IH]; intros [|b d2] r1 r2 D1 D2 B1 B2 H; cbn in *; auto.
  - subst r1. cbn in B1. destruct D2. congruence.
  - subst r2. cbn in B2. destruct D1. congruence.
  - injection H as -> H. destruct (IH d2 r1 r2) as (-> & ->); intuition.
Qed.
Lemma uint_digits u : digits (NilEmpty.string_of_uint u).
Proof. induction u; cbn; auto. Qed.
Lemma number_digits n : digits (number n).
Proof. unfold number, NilZero.string_of_uint. destruct (Nat.to_uint n) as [|u|u|u|u|u|u|u|u|u|u] eqn:E; try exact (uint_digits _). cbn. auto. Qed.
Lemma nonnil n : Nat.to_uint n <> Decimal.Nil.
Proof. rewrite <- (Unsigned.of_to n) at 1. rewrite Unsigned.to_of. apply unorm_nonnil. Qed.
Lemma number_inj m n : number m = number n -> m = n.
Proof.
  intros H. apply Unsigned.to_uint_inj. unfold number in H. apply (f_equal NilZero.uint_of_string) in H.
  rewrite !NilZero.usu in H by apply nonnil. congruence.
Qed.
Lemma number_nonempty n : number n <> ""%string.
Proof. intros H. apply (f_equal NilZero.uint_of_string) in H. unfold number in H. rewrite NilZero.usu in H by apply nonnil. discriminate. Qed.

Lemma concat_cons sep s l : l <> [] -> String.concat sep (s :: l) = (s ++ sep ++ String.concat sep l)%string.
Proof. destruct l; [congruence|reflexivity]. Qed.
Lemma concat_snoc sep l s : l <> [] -> String.concat sep (l ++ [s]) = (String.concat sep l ++ sep ++ s)%string.
Proof.
  induction l as [|a [|b l] IH]; intros H; [congruence|reflexivity|]. cbn [app]. rewrite concat_cons by discriminate.
  change (b :: l ++ [s]) with ((b :: l) ++ [s]). rewrite IH by discriminate. rewrite (concat_cons sep a (b :: l)) by discriminate. now rewrite !sapp_assoc.
Qed.
Lemma path_name_concat sep p : path_name sep p = String.concat sep (map number p).
Proof.
  unfold path_name. induction p as [|n p IH] using rev_ind; [reflexivity|]. rewrite app_length, Nat.add_1_r, seq_S, fold_left_app. cbn [fold_left plus].
  rewrite app_nth2, Nat.sub_diag by lia. cbn [nth]. rewrite map_app. cbn [map].
  assert (E : forall l s, (forall i, In i l -> i < length p) ->
    fold_left (fun s i => (s ++ (if (0 <? i)%nat then sep else "") ++ number (nth i (p ++ [n]) 0))%string) l s =
    fold_left (fun s i => (s ++ (if (0 <? i)%nat then sep else "") ++ number (nth i p 0))%string) l s).
  { induction l as [|i l IHl]; intros s Hl; [reflexivity|]. cbn [fold_left]. rewrite app_nth1 by (apply Hl; now left). apply IHl. intros; apply Hl; now right. }
  rewrite E by (intros i; rewrite in_seq; lia). rewrite IH. destruct p as [|m p]; [reflexivity|].
  rewrite concat_snoc by discriminate. reflexivity.
Qed.
Lemma path_name_inj sep : starts_without_digit sep -> forall p q, String.concat sep (map number p) = String.concat sep (map number q) -> p = q.
Proof.
  intros Hs.
  assert (B : forall p, exists r, boundary r /\ forall n, String.concat sep (map number (n :: p)) = (number n ++ r)%string /\
              r = (if match p with [] => true | _ => false end then "" else sep ++ String.concat sep (map number p))%string).
  { intros [|m p]; [exists ""%string|exists (sep ++ String.concat sep (map number (m :: p)))%string]; (split; [|intros n; split; [|reflexivity]]).
    - exact I.
    - cbn. now rewrite sapp_nil.
    - destruct sep; [contradiction|exact Hs].
    - reflexivity. }
  induction p as [|m p IH]; intros [|n q] H; auto.
  - exfalso. destruct (B q) as (r & _ & E). destruct (E n) as (E1 & _). rewrite E1 in H. cbn in H. destruct (number n) eqn:N; [now apply number_nonempty in N|discriminate].
  - exfalso. destruct (B p) as (r & _ & E). destruct (E m) as (E1 & _). rewrite E1 in H. cbn in H. destruct (number m) eqn:N; [now apply number_nonempty in N|discriminate].
  - destruct (B p) as (r1 & B1 & E1), (B q) as (r2 & B2 & E2). destruct (E1 m) as (F1 & G1), (E2 n) as (F2 & G2). rewrite F1, F2 in H.
    apply digits_split in H as (H1 & H2); auto using number_digits. apply number_inj in H1. subst n. f_equal.
    assert (NE : forall x, (sep ++ x <> "")%string) by (intros x; destruct sep; [contradiction|discriminate]).
    destruct p as [|a p], q as [|b q]; auto; rewrite G1, G2 in H2.
    + exfalso. symmetry in H2. eapply NE, H2.
    + exfalso. eapply NE, H2.
    + apply IH. now apply sapp_left in H2.
Qed.
Lemma component_unnamed g p s : component_name g "" p = Ok s ->
  s = ((if is_empty (prefix g) then "" else prefix g ++ separator g) ++ String.concat (separator g) (map number p) ++
       (if is_empty (suffix g) then "" else separator g ++ suffix g))%string.
Proof.
  unfold component_name. cbn [is_empty]. rewrite path_name_concat. destruct (is_empty (prefix g)), (is_empty (suffix g)); cbn [andb negb]; try discriminate; intros [= <-];
    rewrite ?sapp_assoc, ?sapp_nil; reflexivity.
Qed.

(** *** values *)
Local Open Scope R_scope.
Lemma fold_comb l c x : forall is_ (y : nat -> R) j,
  fold_left (fun y i => fun j => y j + coef l c i * nth i (basis l c x) (fun _ => 0) j) is_ y j =
  y j + fold_right (fun i s => coef l c i * nth i (basis l c x) (fun _ => 0) j + s) 0 is_.
Proof. induction is_ as [|i is_ IH]; intros y j; cbn; [lra|]. rewrite IH. lra. Qed.
Lemma leaf_value l c x : exists y, leaf_evaluate l c x = Ok y /\ forall j, y j = function_value l c x j.
Proof.
  unfold leaf_evaluate, size, fe_values, function_value, combination. destruct (contains l c); [|exists (fun _ => 0); auto].
  destruct (Nat.eqb_spec (length (basis l c x)) 0) as [E|E].
  - exists (fun _ => 0). split; auto. intros j. rewrite E. reflexivity.
  - eexists. split; [reflexivity|]. intros j. rewrite fold_comb. lra.
Qed.
Lemma fold_comb_k l c x k : forall is_ (y : nat -> R) j,
  fold_left (fun (y : nat -> R) i => fun j => if (j =? k)%nat then y j + coef l c i * nth i (basis l c x) (fun _ => 0) 0%nat else y j) is_ y j =
  if (j =? k)%nat then y j + fold_right (fun i s => coef l c i * nth i (basis l c x) (fun _ => 0) 0%nat + s) 0 is_ else y j.
Proof. induction is_ as [|i is_ IH]; intros y j; cbn; [destruct (j =? k)%nat; lra|]. rewrite IH. destruct (j =? k)%nat; lra. Qed.
Definition vector_step (ls : list leaf) (c : nat) (x : R) (y : nat -> R) (k : nat) : res (nat -> R) :=
  match nth_error ls k with
  | None => UB
  | Some l =>
      let* b := fe_values l c x in
      Ok (fold_left (fun (y : nat -> R) i => fun j => if (j =? k)%nat then y j + coef l c i * nth i b (fun _ => 0) 0%nat else y j)
                    (seq 0 (size l c x)) y)
  end.
Lemma vector_steps ls c x : Forall (fun l => contains l c = true) ls -> forall n y, (n <= length ls)%nat -> (forall j, y j = 0) ->
  exists y', foldM (vector_step ls c x) (seq 0 n) y = Ok y' /\
    forall j, y' j = match nth_error ls j with Some l => if (j <? n)%nat then combination l c x 0 else 0 | None => 0 end.
Proof.
  intros HF. induction n as [|n IH]; intros y Hn Hy.
  - exists y. split; auto. intros j. rewrite Hy. now destruct (nth_error ls j).
  - destruct (IH y) as (y1 & E1 & A1); auto; try lia. rewrite seq_S, foldM_app, E1. cbn [bind foldM plus]. unfold vector_step at 1.
    destruct (nth_error ls n) as [l|] eqn:En; [|apply nth_error_None in En; lia].
    assert (Hc : contains l c = true) by (rewrite Forall_forall in HF; apply HF; eapply nth_error_In; eauto).
    unfold fe_values, size. rewrite Hc. cbn [bind]. eexists. split; [reflexivity|]. intros j. rewrite fold_comb_k, A1.
    destruct (Nat.eqb_spec j n) as [->|N].
    + rewrite En, Nat.ltb_irrefl. destruct (Nat.ltb_spec n (S n)); [|lia]. unfold combination. ring.
    + destruct (nth_error ls j); auto. destruct (Nat.ltb_spec j n), (Nat.ltb_spec j (S n)); auto; lia.
Qed.
Lemma vector_value ls c x : Forall (fun l => contains l c = true) ls ->
  exists y, vector_evaluate ls c x = Ok y /\ forall k l, nth_error ls k = Some l -> y k = function_value l c x 0.
Proof.
  intros HF. destruct (vector_steps ls c x HF (length ls) (fun _ => 0)) as (y & E & A); auto. exists y. split; [exact E|].
  intros k l Hk. rewrite A, Hk. assert (k < length ls)%nat by (apply nth_error_Some; congruence). rewrite (proj2 (Nat.ltb_lt _ _)) by lia.
  unfold function_value. rewrite Forall_forall in HF. rewrite HF; auto. eapply nth_error_In; eauto.
Qed.
Lemma vector_undefined ls c x : Exists (fun l => contains l c = false) ls -> vector_evaluate ls c x = UB.
Proof.
  intros H. apply Exists_exists in H as (l & I & Hc). apply In_nth_error in I as (k & Hk). assert (Hl : (k < length ls)%nat) by (apply nth_error_Some; congruence).
  change (foldM (vector_step ls c x) (seq 0 (length ls)) (fun _ => 0) = UB).
  assert (G : forall ks y, In k ks -> (forall i, In i ks -> (i < length ls)%nat) -> foldM (vector_step ls c x) ks y = UB).
  { induction ks as [|i ks IH]; intros y I Hb; [contradiction|]. cbn [foldM]. unfold vector_step at 1. destruct I as [->|I].
    - rewrite Hk. unfold fe_values. now rewrite Hc.
    - destruct (nth_error ls i) as [l'|] eqn:E; [|reflexivity]. unfold fe_values. destruct (contains l' c); [|reflexivity]. cbn [bind]. apply IH; auto. intros; apply Hb; now right. }
  apply G; [apply in_seq; lia|]. intros i Hi. apply in_seq in Hi. lia.
Qed.
