(** * Vocabulary of C79: which built matrices the algebra accepts. *)

From Coq Require Import List Arith ZArith Bool.
From Verif Require Import ClusterModel ClusterSpec IOModel IOSpec BlockModel BlockSpec Algebra HMatModel HMatSpec ArithModel ArithSpec.
Import ListNotations.

(** The compressed blocks (those the builder keeps: the factors have the sizes of the block) have rank at least 1. *)
Definition positive_ranks {K : Coef} (compress : ctree -> ctree -> lrm K) : Prop :=
  forall t s, mr (lU (compress t s)) = c_size t -> mc (lV (compress t s)) = c_size s -> 1 <= lrank (compress t s).

(** The compression loses nothing on the blocks the builder keeps. *)
Definition exact_compression {K : Coef} (gen : nat -> nat -> car K) (compress : ctree -> ctree -> lrm K) : Prop :=
  forall t s i j, mr (lU (compress t s)) = c_size t -> mc (lV (compress t s)) = c_size s -> i < c_size t -> j < c_size s ->
    lr_entry (compress t s) i j = gen (c_off t + i) (c_off s + j).

(** The clusters of the partition, when the cluster lies above it, are its children. *)
Definition one_level (parts : ctree -> list ctree) (T : ctree) (ps : list ctree) : Prop :=
  (c_rank T < 0)%Z -> ct_children T = ps /\ parts T = ps.

(** What the tree builder is called with: a whole matrix (no restriction to a part), on trees with a one-level partition that lie both
    above, or both below, the partition. *)
Record whole_build (parts : ctree -> list ctree) (B : bbuild) (T S : ctree) : Prop := {
  wb_whole : bb_tpart B = None;
  wb_consistent : bb_cons B = true;
  wb_t : partitioned T (bb_tparts B);
  wb_s : partitioned S (bb_sparts B);
  wb_tsize : nonempty T;
  wb_ssize : nonempty S;
  wb_tdepth : forall u, In u (ct_nodes T) -> depth_ok u;
  wb_sdepth : forall u, In u (ct_nodes S) -> depth_ok u;
  wb_tparts : one_level parts T (bb_tparts B);
  wb_sparts : one_level parts S (bb_sparts B);
  wb_level : above T = above S
}.
