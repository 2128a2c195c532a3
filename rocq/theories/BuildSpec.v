(** * Specification: the blocks of a hierarchical matrix computed in parallel. *)

From Coq Require Import List Arith Bool Permutation.
From Verif Require Import ClusterModel IOModel IOSpec BlockModel Algebra BlasModel HMatModel BuildModel.
Import ListNotations.

Section BuildSpec.
  Variable K : Coef.
  Notation C := (car K).
  Variable gen : nat -> nat -> C.
  Variable compress : ctree -> ctree -> lrm K.

  (** The storage of a block: exactly one of the two representations, of the announced kind. *)
  Definition holds (c : cell K) (d : hdata K) : Prop :=
    match d with
    | DLow L => cl_kind K c = KLow /\ cl_low K c = Some L /\ cl_dense K c = None
    | DDense D => cl_kind K c = KDense /\ cl_low K c = None /\ cl_dense K c = Some D
    | DNone => cl_kind K c = KHier /\ cl_low K c = None /\ cl_dense K c = None
    end.
  (** The cells from [base] on hold the blocks of [L], in order: the compressed block, or the entries of the generator when the block is
      not to be compressed or the compression is refused. *)
  Definition computed (h : heap K) (base : nat) (L : list binfo) : Prop :=
    forall k i, nth_error L k = Some i ->
      exists c, nth (base + k) h None = Some c /\ cl_t K c = b_t i /\ cl_s K c = b_s i /\ holds c (block_data K gen compress i).
  (** Blocks that should have been compressed and are dense. *)
  Definition false_positive (i : binfo) : bool :=
    match b_task i, block_data K gen compress i with Some TLowRank, DDense _ => true | _, _ => false end.
End BuildSpec.

(** Every iteration of the two loops is given to exactly one thread. *)
Definition distributes (shares : list (list nat * list nat)) (adm dns : list nat) : Prop :=
  Permutation (concat (map fst shares)) adm /\ Permutation (concat (map snd shares)) dns.

(** What the user sees of a built matrix: clusters and data of the blocks that have data. *)
Definition has_data {K} (i : hinfo K) : bool := match h_data i with DNone => false | _ => true end.
