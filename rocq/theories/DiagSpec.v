(** * Specification of the extraction of the diagonal. *)

From Coq Require Import List Arith Bool.
From Verif Require Import ClusterModel ClusterSpec IOModel IOSpec BlockModel BlockSpec Algebra BlasModel HMatModel HMatSpec.
Import ListNotations.

Section D.
  Variable K : Coef.
  Notation C := (car K).

  (** A leaf that contains an entry of the diagonal starts on the diagonal, and is square with a positive rank if it is low-rank. *)
  Definition on_diagonal (h : hinfo K) : Prop :=
    forall d, hcovers d d h = true -> c_off (h_t h) = c_off (h_s h) /\ match h_data h with DLow L => c_size (h_t h) = c_size (h_s h) /\ lrank L <> 0 | _ => True end.

  (** The diagonal of [M] over the interval of the cluster [t] is written at the positions [pos], in the first |t| coefficients of the
      buffer, and the rest of the buffer is unchanged. *)
  Definition is_diagonal (t : ctree) (pos : nat -> nat) (M : nat -> nat -> C) (b b' : list C) : Prop :=
    length b' = length b /\ (forall i, in_iv i (interval t) = true -> pos i < c_size t /\ get b' (pos i) = M i i) /\ (forall p, c_size t <= p -> get b' p = get b p).

  (** The permutation [tp] maps the indices of the cluster onto themselves, one to one: the case of the root and, if the
      permutation is local, of the clusters of the partition. *)
  Definition permutes (t : ctree) (tp : nat -> nat) : Prop :=
    (forall i, in_iv i (interval t) = true -> in_iv (tp i) (interval t) = true) /\ (forall i i', in_iv i (interval t) = true -> in_iv i' (interval t) = true -> tp i = tp i' -> i = i').

  (** The same cluster for the rows and the columns, as far as the indices go. *)
  Definition square (r : hinfo K) : Prop := c_off (h_t r) = c_off (h_s r) /\ c_size (h_t r) = c_size (h_s r).
End D.
