(** * The distributed product of a vector with rounded local products.

    Source: distributed_operator/distributed_operator.hpp 92-137, local_operators/local_hmatrix.hpp 14-33.  The distributed operator is that of DistModel.v; its local
    operators call the rounded product of RoundModel.v.  Only the products of a vector are given a rounded local operator.  No proofs in this file. *)

From Coq Require Import List Arith Bool Reals.
From Verif Require Import ClusterModel IOModel BlockModel Algebra BlasModel HMatModel RealNum DistModel DistLink RoundModel.
Import ListNotations.

(** LocalHMatrix, local_hmatrix.hpp 14-33 (the products of several vectors, not modelled with rounding, are errors here). *)
Definition r_local_hmatrix (B : blas) (threads : list (list (hinfo Rc) * list (hinfo Rc))) (A : hmat Rc) (t s : nat * nat) (sym : symc) : lop Rc :=
  mkLop Rc t s [] [] sym false false
    (fun tr alpha x beta y => r_omp_vec B threads tr alpha A x beta y) (fun tr alpha x beta y => r_omp_vec B threads tr alpha A x beta y)
    (fun _ _ _ _ _ _ => None) (fun _ _ _ _ _ _ => None).
(** DistributedOperatorFromHMatrix, distributed_operator/utility.hpp 31-56. *)
Definition r_hmat_operator (B : blas) (tp sp : partition) (sy : symc) (use : bool) (ps : list (process Rc)) : dop Rc :=
  mkDop Rc tp sp (map (fun rp => [vlop_of Rc (r_local_hmatrix B (pr_threads Rc (snd rp)) (pr_hmat Rc (snd rp)) (fst rp) (0%nat, pa_n sp) sy)])
    (combine (pa_parts tp) ps)) use sy.
