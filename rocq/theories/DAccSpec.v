(** * Specification vocabulary for the accuracy of a distributed operator. *)

From Coq Require Import List Arith ZArith Bool Permutation.
From Verif Require Import ClusterModel ClusterSpec IOModel BlockModel BlockSpec Algebra BlasModel HMatModel HMatSpec HMatBuild P_HMat P_Block DistModel DistSpec DistLink P_Dist.
Import ListNotations.

(** The generator [G] (user numbering) in the numbering of the clusters. *)
Definition cluster_order {K : Coef} (tp sp : partition) (G : nat -> nat -> car K) (i j : nat) : car K := G (nth i (pa_perm tp) 0) (nth j (pa_perm sp) 0).

(** Process r keeps the hierarchical matrix built for part r (with the inputs [Br r]), its leaves distributed in some way over its threads. *)
Definition all_built {K : Coef} (sy : symc) (Br : nat -> bbuild) (gen : nat -> nat -> car K) (compress : ctree -> ctree -> lrm K) (fuel : nat) (T S : ctree)
    (ps : list (process K)) : Prop :=
  forall r p, nth_error ps r = Some p ->
    hbuild K sy (Br r) gen compress fuel T S = Some (pr_hmat K p) /\
    exists L Y, hleaves K (pr_hmat K p) = Some (L, Y) /\ Permutation (concat (map fst (pr_threads K p))) L /\ Permutation (concat (map snd (pr_threads K p))) Y.

(** The two ways DefaultApproximationBuilder builds the operator: one part of the rows per process, without symmetry or with it (then the process also
    is the one of the symmetry, and the matrix is square on one cluster tree). *)
Inductive dist_inputs {K : Coef} (sy : symc) (B : bbuild) (G : nat -> nat -> car K) (compress : ctree -> ctree -> lrm K) (T S : ctree) (fuel : nat)
    (tp sp : partition) (ps : list (process K)) : Prop :=
| di_unsymmetric :
    sy = SyN -> bb_uplo B = UpN -> partitioned T (bb_tparts B) -> partitioned S (bb_sparts B) -> nonempty T -> nonempty S ->
    (c_rank T < 0)%Z -> (forall u, In u (bb_tparts B) -> contains T u = true /\ 0 < c_size u) ->
    pa_parts tp = map interval (bb_tparts B) -> interval S = (0, pa_n sp) ->
    all_built sy (set_part B) (cluster_order tp sp G) compress fuel T S ps -> dist_inputs sy B G compress T S fuel tp sp ps
| di_symmetric :
    (sy = SyS \/ (sy = SyH /\ cplx K = true)) -> (forall a b, G b a = flip sy (G a b)) -> S = T -> sp = tp ->
    bb_uplo B <> UpN -> partitioned T (bb_tparts B) -> bb_sparts B = bb_tparts B -> nonempty T -> bb_cons B = true ->
    (c_rank T < 0)%Z -> (forall u, In u (bb_tparts B) -> contains T u = true) ->
    pa_parts tp = map interval (bb_tparts B) -> interval T = (0, pa_n tp) ->
    all_built sy (set_part_sym B) (cluster_order tp tp G) compress fuel T T ps -> dist_inputs sy B G compress T S fuel tp sp ps.
