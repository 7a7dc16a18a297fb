(** What the statistics of a pattern should be. *)
From Verif Require Import StatModel PatternSpec.

(** [s] describes a matrix with [n] rows and the given links, built with the estimate [e]. *)
Definition describes (s : stat) (n e : nat) (links : list (nat * N)) : Prop :=
  nonZeros s = sum_nat (map (fun i => row_size i links) (seq 0 n)) /\
  (forall i, i < n -> row_size i links <= longestRow s) /\
  (longestRow s = 0 \/ exists i, i < n /\ row_size i links = longestRow s) /\
  overflowed s = sum_nat (map (fun i => row_size i links - e) (seq 0 n)) /\
  estimate s = e /\ st_rows s = n.

(** The blocks of a matrix with the given structures in row-major order, by their block indices. *)
Fixpoint blocks (d : nat) (ro co : ostruct) : list (list (nat * nat)) :=
  match d, ro, co with
  | 0, _, _ => [[]]
  | S d', ONode rs, ONode cs =>
      flat_map (fun i => flat_map (fun j => map (cons (i, j)) (blocks d' (nth i rs (OLeaf 0)) (nth j cs (OLeaf 0)))) (seq 0 (length cs))) (seq 0 (length rs))
  | _, _, _ => []
  end.

(** Histories in which no two objects share a container. *)
Definition unshared (o : op) : Prop := match o with NewOn _ _ | Attach _ _ => False | _ => True end.
