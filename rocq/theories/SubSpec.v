(** * Specification of the diagonal block of a process. *)

From Coq Require Import List Arith ZArith Bool.
From Verif Require Import ClusterModel ClusterSpec IOModel IOSpec BlockModel BlockSpec Algebra HMatModel HMatSpec ArithModel.
Import ListNotations.

(** The clusters of process [p]: [u] for the rows, [v] for the columns.  A tree is either one part or is split above the parts; the rows
    are split only if the columns are. *)
Record process_clusters (B : bbuild) (T S : ctree) (p : nat) (u v : ctree) : Prop := {
  pc_t : nth_error (bb_tparts B) p = Some u;
  pc_s : nth_error (bb_sparts B) p = Some v;
  pc_ut : In u (ct_nodes T);
  pc_vs : In v (ct_nodes S);
  pc_T : T = u \/ (c_rank T < 0)%Z;
  pc_S : S = v \/ (c_rank S < 0)%Z;
  pc_TS : T = u \/ (c_rank S < 0)%Z
}.

(** The matrix [D] is one of the blocks of [A]. *)
Definition block_in {K : Coef} (A D : hmat K) : Prop := In D (preorder A).
(** The clusters that operator== takes for (t,s). *)
Definition same_clusters {K : Coef} (t s : ctree) (D : hmat K) : Prop := ceq t (h_t (rt_val D)) = true /\ ceq s (h_s (rt_val D)) = true.
