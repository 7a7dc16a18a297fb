(** C132: load balancing moves the DOFs with their entities. *)
From Verif Require Import Common CommonFacts LbModel LbSpec LbProofs.
From Coq Require Import Lia.

(** ** C132 *)
(** For any number of vectors and spaces and any moves, the balancing succeeds and every interior or border entity has the DOFs it had on the process it
    belonged to: the process itself, if it had the entity before, or the first that sent it. Other entities are zero. *)
Theorem c132_restores_partial : forall A (W : wire A) G ss moves q, grid_ok G -> Forall (wire_ok W) ss -> Forall (fun s => moves_ok G s moves) ss ->
  exists vs, load_balance W G ss moves q = Ok vs /\ Forall2 (fun s v =>
    (forall e p, In e (after s q) -> carries G s e -> origin s moves p q e -> v e = val s p e) /\
    (forall e, ~ (In e (after s q) /\ carries G s e) -> v e = repeat (zero W) (view_size s e))) ss vs.
Proof.
  intros A W G ss moves q HG HW HM. destruct (transfers_ok W G HG ss moves HW) as (M & E & I).
  { intros s p q' e Hs. rewrite Forall_forall in HM. now apply (HM s Hs). }
  unfold load_balance. rewrite E. cbn [bind]. specialize (I q).
  destruct (each_ok (fun '(s, m) => read_map G s q m (fun e => repeat (zero W) (view_size s e)))
    (fun '(s, m) v => (forall e p, In e (after s q) -> carries G s e -> origin s moves p q e -> v e = val s p e) /\
      (forall e, ~ (In e (after s q) /\ carries G s e) -> v e = repeat (zero W) (view_size s e))) (combine ss (M q))) as (vs & F & Q).
  - intros [s m] Hs. assert (K : In s ss /\ forall e, find (lid G q e) m = known G s moves q e).
    { clear - I Hs. induction I; cbn in *; [easy|]. destruct Hs as [Hs|Hs]; [injection Hs as -> ->; auto|]. destruct (IHI Hs). auto. }
    destruct K as [Ks K]. rewrite Forall_forall in HM. destruct (HM s Ks) as (M1 & M2 & M3).
    destruct (read_map_ok G HG s q m (fun e => repeat (zero W) (view_size s e))) as (v & Ev & R).
    + intros e Ie Ce. destruct (M2 q e Ie Ce) as [p O]. exists (val s p e). rewrite K. split; [now apply known_origin|]. apply M3. destruct O as [[? ->]|[_ (l1 & e' & l2 & El & <- & C & _)]]; [easy|].
      apply (M1 p q e'); [rewrite El; apply in_or_app; right; now left|easy|easy].
    + exists v. split; [exact Ev|]. split; intros e; destruct (R e) as [R1 R2].
      * intros p Ie Ce O. specialize (R1 (conj Ie Ce)). rewrite K, (known_origin G s moves p q e Ce O) in R1. congruence.
      * exact R2.
  - exists vs. split; [exact F|]. clear - Q I. revert vs Q. induction I; cbn; intros vs Q; inversion Q; subst; constructor; auto.
Qed.
Print Assumptions c132_restores_partial.

(** For vectors on which all processes agree, nothing depends on who sent what: they keep their values on all interior and border entities. *)
Theorem c132_consistent_partial : forall A (W : wire A) G ss moves q, grid_ok G -> Forall (wire_ok W) ss -> Forall (fun s => moves_ok G s moves) ss ->
  exists vs, load_balance W G ss moves q = Ok vs /\ Forall2 (fun s v => forall u, (forall p e, In e (before s p) -> carries G s e -> val s p e = u e) ->
    forall e, In e (after s q) -> carries G s e -> v e = u e) ss vs.
Proof.
  intros A W G ss moves q HG HW HM. destruct (c132_restores_partial A W G ss moves q HG HW HM) as (vs & E & F). exists vs. split; [exact E|].
  revert HM. clear E HW. induction F as [|s v ss vs [H1 _] F IH]; intros HM; constructor; [|apply IH; now inversion HM]. intros u U e Ie Ce. pose proof (Forall_inv HM) as (M1 & M2 & _). destruct (M2 q e Ie Ce) as [p O].
  rewrite (H1 e p Ie Ce O). apply U; [|exact Ce]. destruct O as [[? ->]|[_ (l1 & e' & l2 & El & <- & C & _)]]; [easy|]. apply (M1 p q e'); [rewrite El; apply in_or_app; right; now left|easy|easy].
Qed.
Print Assumptions c132_consistent_partial.

(** The announced size is that of the message, and the receiver reads all of it. *)
Theorem c132_message : forall A (W : wire A) G ss p q e w moves M, grid_ok G -> Forall (wire_ok W) ss ->
  (forall s, In s ss -> contains s p e = true -> carries G s (e_id e) -> In (e_id e) (before s p)) ->
  (forall s p q e, In s ss -> In (p, q, e) moves -> contains s p e = true -> carries G s (e_id e) -> In (e_id e) (before s p)) ->
  foldM (transfer W G ss) moves (fun p => map (fun s => fill_map G s p) ss) = Ok M ->
  exists msg ms, gather W G p e (combine ss (M p)) = Ok msg /\ comm_size G w p e (combine ss (M p)) = Ok (w * length msg) /\ scatter W G q e (combine ss (M q)) msg = Ok (ms, []).
Proof.
  intros A W G ss p q e w moves M HG HW H HM E. destruct (transfers_ok W G HG ss moves HW HM) as (M' & E' & I). rewrite E in E'. injection E' as <-.
  assert (F : Forall (fun s => contains s p e = true -> carries G s (e_id e) -> In (e_id e) (before s p)) ss) by now apply Forall_forall.
  exists (message W G ss p e). destruct (scatter_message W G HG ss moves M p q e [] I HW F) as (ms & E1 & _). rewrite app_nil_r in E1. exists ms. split; [now apply gather_message with moves|]. split; [|exact E1].
  specialize (I p). clear - I F. induction I as [|s m ss ms Hm I IH]; cbn [combine comm_size]; [cbn; f_equal; lia|]. pose proof (Forall_inv F) as F1. pose proof (Forall_inv_tail F) as F2. cbv beta in F1. rewrite (IH F2).
  unfold message. cbn [flat_map]. fold (message W G ss p e). rewrite app_length. destruct (has_dofs s (codim G (e_id e))) eqn:D; [|reflexivity]. unfold chunk. destruct (contains s p e) eqn:C.
  - rewrite Hm. unfold known. rewrite D. destruct (in_dec _ _ _) as [_|N]; [|exfalso; now apply N, F1]. cbn. f_equal. lia.
  - cbn. f_equal. lia.
Qed.
Print Assumptions c132_message.

(** FINDING: loadbalance.hh 309 with 441: only interior and border entities are written back, into a vector of zeros: a process loses the DOFs of its overlap and
    ghost entities, even if nothing moves. *)
Theorem c132_ghost_refuted : exists (G : lbgrid) (s : slot nat) W e, grid_ok G /\ wire_ok W s /\ moves_ok G s [] /\ carries G s e /\
  (forall p q, val s p e = val s q e) /\ val s 1 e = [5] /\
  exists v0 v1, load_balance W G [s] [] 0 = Ok [v0] /\ load_balance W G [s] [] 1 = Ok [v1] /\ v0 e = [5] /\ v1 e = [0].
Proof.
  exists (mkgrid 1 (fun _ => 0) (fun _ e => e)).
  exists (mkslot nat (fun c => c =? 0) (fun _ _ => true) (fun p => [p]) (fun p => [p]) (fun _ => 1) (fun _ e => [5 + e])), (mkwire nat (fun n => n) (fun n => n) 0), 0.
  split; [split; [easy|cbn; lia]|]. split; [split; [reflexivity|easy]|]. split.
  - split; [intros ? ? ? []|]. split; [|easy]. intros q e I C. exists q. left. auto.
  - repeat (split; [reflexivity|]). do 2 eexists. repeat (split; [reflexivity|]). reflexivity.
Qed.
Print Assumptions c132_ghost_refuted.
(** FINDING: loadbalance.hh 213: scatter also stores the empty list that is sent for a copy of an entity outside the entity set, and insert does not replace it: if this copy is sent
    first, the DOFs that follow are dropped, and the assertion 321 fails. *)
Theorem c132_copy_refuted : exists (G : lbgrid) (s : slot nat) W moves, grid_ok G /\ wire_ok W s /\
  (forall p q e, In (p, q, e) moves -> contains s p e = true -> In (e_id e) (before s p)) /\
  (forall q e, In e (after s q) -> In e (before s q) \/ exists p e', In (p, q, e') moves /\ e_id e' = e /\ contains s p e' = true) /\
  (forall p e, length (val s p e) = view_size s e) /\ load_balance W G [s] moves 1 = UB /\ exists vs, load_balance W G [s] (rev moves) 1 = Ok vs.
Proof.
  exists (mkgrid 1 (fun _ => 1) (fun _ e => e)).
  exists (mkslot nat (fun c => c =? 1) (fun _ e => e_copy e =? 1) (fun p => if p =? 0 then [7] else []) (fun p => if p =? 1 then [7] else []) (fun _ => 1) (fun _ _ => [5])), (mkwire nat (fun n => n) (fun n => n) 0), [(0, 1, mkent 7 0); (0, 1, mkent 7 1)].
  split; [split; [easy|cbn; lia]|]. split; [split; [reflexivity|easy]|]. split.
  - intros p q e [H|[H|[]]]; injection H as <- <- <-; cbn; auto.
  - split.
    + intros q e. cbn. destruct (Nat.eqb_spec q 1) as [->|]; [|easy]. intros [<-|[]]. right. exists 0, (mkent 7 1). cbn. auto.
    + split; [easy|]. split; [reflexivity|]. eexists. reflexivity.
Qed.
Print Assumptions c132_copy_refuted.

(** Two processes, two vectors (cells; cells and vertices). Cells 0, 1 | 2 with vertices 10, 11, 12, 13; vertex 12 is shared; cell 1 moves with its vertices. *)
Example c132_example :
  let G := mkgrid 1 (fun e => if e <? 10 then 0 else 1) (fun p e => 100 * e + p) in
  let b p := if p =? 0 then [0; 1; 10; 11; 12] else if p =? 1 then [2; 12; 13] else [] in
  let a p := if p =? 0 then [0; 10; 11] else if p =? 1 then [1; 2; 11; 12; 13] else [] in
  let s1 := mkslot nat (fun c => c =? 0) (fun _ _ => true) b a (fun e => if e <? 10 then 2 else 0) (fun p e => if e <? 10 then [e; e + 1] else []) in
  let s2 := mkslot nat (fun c => c <? 2) (fun _ _ => true) b a (fun _ => 1) (fun p e => [1000 * p + e]) in
  let W := mkwire nat (fun n => n) (fun n => n) 0 in
  let moves := [(0, 1, mkent 1 0); (0, 1, mkent 11 0); (0, 1, mkent 12 0)] in
  grid_ok G /\ Forall (wire_ok W) [s1; s2] /\ Forall (fun s => moves_ok G s moves) [s1; s2] /\
  exists v1 v2, load_balance W G [s1; s2] moves 1 = Ok [v1; v2] /\ map v1 [1; 2; 12] = [[1; 2]; [2; 3]; []] /\ map v2 [1; 2; 11; 12; 13; 0] = [[1]; [1002]; [11]; [1012]; [1013]; [0]].
Proof.
  cbv zeta. split; [|split; [|split]].
  - split; [cbn; intros; lia|]. intros e. cbn. destruct (e <? 10); lia.
  - repeat constructor; intros; reflexivity.
  - assert (O : forall s : slot nat, (forall p, before s p = if p =? 0 then [0; 1; 10; 11; 12] else if p =? 1 then [2; 12; 13] else []) ->
      (forall p, after s p = if p =? 0 then [0; 10; 11] else if p =? 1 then [1; 2; 11; 12; 13] else []) -> (forall p e, contains s p e = true) ->
      (forall p e, length (val s p e) = view_size s e) -> moves_ok (mkgrid 1 (fun e => if e <? 10 then 0 else 1) (fun p e => 100 * e + p)) s [(0, 1, mkent 1 0); (0, 1, mkent 11 0); (0, 1, mkent 12 0)]).
    { intros s B A C V. split; [|split; [|auto]].
      - intros p q e H _ _. rewrite B. destruct H as [H|[H|[H|[]]]]; injection H as <- <- <-; cbn; auto 10.
      - intros q e H _. rewrite A in H. destruct (Nat.eqb_spec q 0) as [->|]; [exists 0; left; rewrite B; cbn in *; intuition|]. destruct (Nat.eqb_spec q 1) as [->|]; [|easy].
        assert (N : forall n, n <> 2 -> n <> 12 -> n <> 13 -> ~ In n (before s 1)) by (intros; rewrite B; cbn; lia).
        destruct H as [<-|[<-|[<-|[<-|[<-|[]]]]]]; [exists 0; right|exists 1; left; rewrite B; cbn; auto|exists 0; right|exists 1; left; rewrite B; cbn; auto|exists 1; left; rewrite B; cbn; auto].
        + split; [apply N; lia|]. exists [], (mkent 1 0). eexists. split; [reflexivity|]. repeat split; auto.
        + split; [apply N; lia|]. exists [(0, 1, mkent 1 0)], (mkent 11 0). eexists. split; [reflexivity|]. repeat split; auto. intros p' e'' [K|[]]. injection K as <- <-. easy. }
    repeat constructor; apply O; intros; cbn; try reflexivity; now destruct (e <? 10).
  - do 2 eexists. split; [reflexivity|]. split; reflexivity.
Qed.
