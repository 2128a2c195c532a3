(** * Specification vocabulary for overlapping decompositions. *)

From Coq Require Import List Arith Bool Permutation.
From Verif Require Import ClusterModel ClusterSpec IOModel BlockModel Algebra BlasModel HMatModel DistModel DistSpec DdmModel.
Import ListNotations.

Section S.
  Variable K : Coef.
  Notation C := (car K).
  Notation buf := (list C).
  Variable S : ddm K.
  Notation D := (dd_op S).
  Notation T := (d_t K D).
  Notation P := (world K D).

  (** [l2g r i]: the global number (the one of the user) of the local coefficient i of process r. *)
  Record overlapping (l2g : nat -> nat -> nat) : Prop := {
    (** every process has its own coefficients first, in the order of the partition, then those of the overlap *)
    ov_size : forall r o s, nth_error (pa_parts T) r = Some (o, s) -> s <= dof K S r;
    ov_inside : forall r o s i, nth_error (pa_parts T) r = Some (o, s) -> i < s -> l2g r i = user_index (d_perm K D) T (o + i);
    (** the neighbours are distinct processes; they share the same coefficients, listed in the same order on both sides *)
    ov_distinct : forall r, r < P -> NoDup (map fst (shared K S r));
    ov_match : forall r t I, r < P -> In (t, I) (shared K S r) ->
      t < P /\ t <> r /\ NoDup I /\ (forall k, In k I -> k < dof K S r) /\
      exists J, In (r, J) (shared K S t) /\ map (l2g r) I = map (l2g t) J;
    (** every coefficient of the overlap is one of some process, and is shared with it *)
    ov_cover : forall r o s i, nth_error (pa_parts T) r = Some (o, s) -> s <= i < dof K S r ->
      exists t o' s' k I, nth_error (pa_parts T) t = Some (o', s') /\ k < s' /\ l2g r i = user_index (d_perm K D) T (o' + k) /\
        In (t, I) (shared K S r) /\ In i I
  }.

  (** The messages of all the neighbours arrive, in some order. *)
  Definition all_arrive (arrival : nat -> list (nat * list nat)) : Prop := forall r, r < P -> Permutation (arrival r) (shared K S r).

  (** mu columns of dof coefficients on every process: the restrictions of the global columns X. *)
  Definition restrictions (l2g : nat -> nat -> nat) (bs : list buf) (mu : nat) (X : nat -> nat -> C) : Prop :=
    length bs = P /\
    forall r, r < P -> dof K S r * mu <= length (at_rank K bs r) /\
      forall i c, i < dof K S r -> c < mu -> get (at_rank K bs r) (i + c * dof K S r) = X (l2g r i) c.
  (** The same on the coefficients that belong to the process only. *)
  Definition inside_restrictions (l2g : nat -> nat -> nat) (bs : list buf) (mu : nat) (X : nat -> nat -> C) : Prop :=
    forall r o s, r < P -> nth_error (pa_parts T) r = Some (o, s) -> dof K S r * mu <= length (at_rank K bs r) /\
      forall i c, i < s -> c < mu -> get (at_rank K bs r) (i + c * dof K S r) = X (l2g r i) c.
  (** Work arrays of the right sizes, ddm.hpp 182-183. *)
  Definition work_sizes (mu : nat) (buffers works : list buf) : Prop :=
    forall r, r < P ->
      pa_n T * (if mu =? 1 then 1 else 2 * mu) <= length (at_rank K works r) /\
      forall o s, nth_error (pa_parts T) r = Some (o, s) -> s * (if mu =? 1 then 1 else 2 * mu) <= length (at_rank K buffers r).
  Definition local_sizes (mu : nat) (outs : list buf) : Prop := forall r, r < P -> dof K S r * mu <= length (at_rank K outs r).
End S.
Arguments overlapping {K} S l2g.
Arguments all_arrive {K} S arrival.
Arguments restrictions {K} S l2g bs mu X.
Arguments inside_restrictions {K} S l2g bs mu X.
Arguments work_sizes {K} S mu buffers works.
Arguments local_sizes {K} S mu outs.
