(** * C84: the distributed operations neither deadlock nor depend on the schedule of the processes.

    Vocabulary: ProcModel.v (the program of every process, the collective MPI routines, executions), ProcSpec.v ([reliable]: in every execution environment, no fault, no deadlock, the number
    of steps is bounded and the results are the given ones), DistModel.v and SolverModel.v (the same operations as functions on the buffers of all the processes, about which C35-C38, C42, C46
    are proved), DistSpec.v. *)

From Coq Require Import List Arith ZArith Bool Lia.
From Verif Require Import ClusterModel IOModel BlockModel Algebra BlasModel HMatModel DistModel SolverModel DdmModel DistSpec ProcModel ProcSpec ProcProofs ProcLink ProcDdm P_Dist.
Import ListNotations.

Lemma reliable_tog : forall K P A (ps : nat -> prog K A) res, tog K P ps res -> reliable K P ps res.
Proof. intros K P A ps res (n & H). exact (together_reliable K P A n ps res H). Qed.

(** The eight products of DistributedOperator and the internal ones used by the solvers. *)
Theorem C84_vector_product_global : forall K (D : dop K) ins outs ys, vec_g2g K D ins outs = Some ys ->
  reliable K (world K D) (fun r => p_vec_g2g K D r (at_rank K ins r) (at_rank K outs r)) (at_rank K ys).
Proof. intros. apply reliable_tog, tog_vec_g2g. assumption. Qed.
Theorem C84_matrix_product_global : forall K (D : dop K) ins outs mu ys, mat_g2g K D ins outs mu = Some ys ->
  reliable K (world K D) (fun r => p_mat_g2g K D r (at_rank K ins r) (at_rank K outs r) mu) (at_rank K ys).
Proof. intros. apply reliable_tog, tog_mat_g2g. assumption. Qed.
Theorem C84_transposed_vector_product_global : forall K (D : dop K) ins outs ys, tvec_g2g K D ins outs = Some ys ->
  reliable K (world K D) (fun r => p_tvec_g2g K D r (at_rank K ins r) (at_rank K outs r)) (at_rank K ys).
Proof. intros. apply reliable_tog, tog_tvec_g2g. assumption. Qed.
Theorem C84_transposed_matrix_product_global : forall K (D : dop K) ins outs mu ys, tmat_g2g K D ins outs mu = Some ys ->
  reliable K (world K D) (fun r => p_tmat_g2g K D r (at_rank K ins r) (at_rank K outs r) mu) (at_rank K ys).
Proof. intros. apply reliable_tog, tog_tmat_g2g. assumption. Qed.
Theorem C84_vector_product_local : forall K (D : dop K) ins outs works ys, vec_l2l K D ins outs works = Some ys ->
  reliable K (world K D) (fun r => p_vec_l2l K D r (at_rank K ins r) (at_rank K outs r) (at_rank K works r)) (at_rank K ys).
Proof. intros. apply reliable_tog, tog_vec_l2l. assumption. Qed.
Theorem C84_matrix_product_local : forall K (D : dop K) ins outs works mu ys, mat_l2l K D ins outs works mu = Some ys ->
  reliable K (world K D) (fun r => p_mat_l2l K D r (at_rank K ins r) (at_rank K outs r) (at_rank K works r) mu) (at_rank K ys).
Proof. intros. apply reliable_tog, tog_mat_l2l. assumption. Qed.
Theorem C84_transposed_vector_product_local : forall K (D : dop K) ins outs works ys, tvec_l2l K D ins outs works = Some ys ->
  reliable K (world K D) (fun r => p_tvec_l2l K D r (at_rank K ins r) (at_rank K outs r) (at_rank K works r)) (at_rank K ys).
Proof. intros. apply reliable_tog, tog_tvec_l2l. assumption. Qed.
Theorem C84_transposed_matrix_product_local : forall K (D : dop K) ins outs works mu ys, tmat_l2l K D ins outs works mu = Some ys ->
  reliable K (world K D) (fun r => p_tmat_l2l K D r (at_rank K ins r) (at_rank K outs r) (at_rank K works r) mu) (at_rank K ys).
Proof. intros. apply reliable_tog, tog_tmat_l2l. assumption. Qed.
(** The coarse operator: whatever the numbers of coarse vectors of the processes, process 0 gets E. *)
Theorem C84_coarse_operator : forall K parts sym n zs subs E, coarse_operator K parts sym n zs subs = Some E ->
  exists es, es 0 = md E /\ reliable K (length parts) (fun r => p_coarse K parts sym r (n r) (zs r) (subs r)) es.
Proof. intros K parts sym n zs subs E H. destruct (tog_coarse K parts sym n zs subs E H) as (es & H1 & H2). exists es. split; [exact H1|]. apply reliable_tog. exact H2. Qed.
(** The end of DDM::solve: the columns of the solution are gathered on all the processes. *)
Theorem C84_gather_solution : forall K (S : ddm K) mu locs xs works outs ys, gather_solution K S mu locs xs works outs = Some ys ->
  reliable K (world K (dd_op S)) (fun r => p_gather_solution K (dd_op S) r (dof K S r) mu (at_rank K locs r) (at_rank K xs r) (at_rank K works r) (at_rank K outs r)) (at_rank K ys).
Proof. intros. apply reliable_tog, tog_gather_solution. assumption. Qed.
Print Assumptions C84_gather_solution.
Print Assumptions C84_vector_product_global.
Print Assumptions C84_matrix_product_global.
Print Assumptions C84_transposed_vector_product_global.
Print Assumptions C84_transposed_matrix_product_global.
Print Assumptions C84_vector_product_local.
Print Assumptions C84_matrix_product_local.
Print Assumptions C84_transposed_vector_product_local.
Print Assumptions C84_transposed_matrix_product_local.
Print Assumptions C84_coarse_operator.

(** With C35: in every execution, when a process returns from vector_product_global_to_global it has A x, and all of them return. *)
Theorem C84_product_is_the_product : forall K (D : dop K) (A : nat -> nat -> car K),
  let NR := pa_n (d_t K D) in let NC := pa_n (d_s K D) in let P := world K D in
  partition_ok (d_t K D) P -> partition_ok (d_s K D) P -> row_blocks D A run_vec 1 ->
  forall ins outs x, (forall r, r < P -> holds_vec (at_rank K ins r) NC x) -> (forall r, r < P -> NR <= length (at_rank K outs r)) ->
  forall next, environment K P next -> forall k g, run K next k (start K (fun r => p_vec_g2g K D r (at_rank K ins r) (at_rank K outs r))) g ->
    ~ faulty K P g /\
    ((exists g', next g g') \/ forall r, r < P -> exists y, states g r = Run (Ret y) /\ holds_vec y NR (mul NC A x) /\ only_first NR (at_rank K outs r) y).
Proof.
  intros K D A NR NC P HT HS HB ins outs x Hi Ho next Henv k g Hrun. destruct (C35_vector_product_global K D A HT HS HB ins outs x Hi Ho) as (ys & E & _ & Hy).
  destruct (C84_vector_product_global K D ins outs ys E) as (N & H). destruct (H next Henv k g Hrun) as [H1 [[_ H2]|(_ & H2 & _)]]; (split; [exact H1|]); [left; exact H2|].
  right. intros r Hr. exists (at_rank K ys r). split; [exact (H2 r Hr)|]. exact (Hy r Hr).
Qed.
Print Assumptions C84_product_is_the_product.

(** ** Environments exist: every interleaving is one ([step]), and so is an MPI library where every collective call waits for all the processes. *)
Inductive synchronous (K : Coef) (P : nat) {A : Type} (g : config K A) : config K A -> Prop :=
| YEnters : forall r g', enters K P g r g' -> synchronous K P g g'
| YLeaves : forall r g', all_arrived K P g r -> leaves K P g r g' -> synchronous K P g g'.
Lemma arrived_may : forall K P A (g : config K A) r, all_arrived K P g r -> may_leave K P g r.
Proof. intros K P A g r (c & k & E & H). exists c, k. split; [exact E|]. intros j Hj _. apply H. exact Hj. Qed.
Example C84_any_interleaving : forall K P A, environment K P (A := A) (step K P).
Proof.
  intros K P A. split; [intros g g' H; exact H|]. intros g [r g' H|r g' H1 H2]; exists g'; [eapply SEnters; exact H|eapply SLeaves; [apply arrived_may; exact H1|exact H2]].
Qed.
Example C84_synchronous : forall K P A, environment K P (A := A) (synchronous K P).
Proof.
  intros K P A. split.
  - intros g g' [r g1 H|r g1 H1 H2]; [eapply SEnters; exact H|eapply SLeaves; [apply arrived_may; exact H1|exact H2]].
  - intros g [r g' H|r g' H1 H2]; exists g'; [eapply YEnters; exact H|eapply YLeaves; eassumption].
Qed.

(** ** Examples: two processes with 2 and 1 rows of a matrix of order 3, with renumbering. *)
Definition pr_part : partition := mkPartition 3 [2; 0; 1] [(0, 2); (2, 1)] false.
Definition pr_dop (sy : symc) : dop Zc :=
  mkDop Zc pr_part pr_part
    [[vlop_of Zc (local_dense Zc (@mkMat Zc 2 3 [1; 2; 3; 4; 5; 6]%Z) (0, 2) (0, 3) [] [] SyN UpN false false)];
     [vlop_of Zc (local_dense Zc (@mkMat Zc 1 3 [7; 8; 9]%Z) (2, 1) (0, 3) [] [] SyN UpN false false)]] true sy.
Definition pr_in : list (list (car Zc)) := [[1; 10; 100]%Z; [1; 10; 100]%Z].
Definition pr_out : list (list (car Zc)) := [[0; 0; 0]%Z; [0; 0; 0]%Z].
Example C84_hyps_product : vec_g2g Zc (pr_dop SyN) pr_in pr_out = Some [[264; 798; 153]%Z; [264; 798; 153]%Z].
Proof. vm_compute. reflexivity. Qed.
Example C84_hyps_transposed : tvec_g2g Zc (pr_dop SyN) pr_in pr_out = Some [[384; 596; 172]%Z; [384; 596; 172]%Z].
Proof. vm_compute. reflexivity. Qed.
Definition pr_part1 : partition := mkPartition 3 [0; 1; 2] [(0, 2); (2, 1)] true.
Definition pr_loc : dop Zc := mkDop Zc pr_part1 pr_part1 (d_ops Zc (pr_dop SyN)) true SyN.
Example C84_hyps_local : tmat_l2l Zc pr_loc [[1; 10; 2; 20]%Z; [100; 200]%Z] [[0; 0; 0; 0]%Z; [0; 0]%Z] [repeat 0%Z 14; repeat 0%Z 10] 2 =
  Some [[721; 843; 1442; 1686]%Z; [965; 1930]%Z].
Proof. vm_compute. reflexivity. Qed.
(** Two processes with 1 and 0 coarse vectors. *)
Definition pr_sub (rows : list (list Z)) : list (list (car Zc) -> list (car Zc) -> nat -> nat -> nat -> option (list (car Zc))) :=
  [fun x y mu o s => Some (map (fun i => fold_right Z.add 0%Z (map (fun j => (nth (o + j) (nth i rows []) 0 * nth j x 0)%Z) (seq 0 s))) (seq 0 (length rows)) ++ skipn (length rows) y)].
Example C84_hyps_coarse :
  coarse_operator Zc [(0, 2); (2, 1)] SyN (fun r => 3 - r) (fun r => if r =? 0 then [[1; 1; 0]%Z] else [])
    (fun r => if r =? 0 then pr_sub [[1; 2; 3]%Z; [4; 5; 6]%Z] else pr_sub [[7; 8; 9]%Z]) = Some (@mkMat Zc 1 1 [12%Z]).
Proof. vm_compute. reflexivity. Qed.

(** Two processes with an overlap of one coefficient and two right-hand sides: the columns (1, 2, 3) and (10, 20, 30). *)
Definition pr_ddm : ddm Zc := mkDdm (K:=Zc) (pr_dop SyN) [3; 2] [[1]; [0]] [[[2; 0]]; [[0; 1]]].
Example C84_hyps_gather : gather_solution Zc pr_ddm 2 [repeat 9%Z 6; repeat 9%Z 4] [[3; 1; 77; 30; 10; 77]%Z; [2; 77; 20; 77]%Z] [repeat 0%Z 12; repeat 0%Z 12] [repeat 0%Z 7; repeat 5%Z 6] =
  Some [[1; 2; 3; 10; 20; 30; 0]%Z; [1; 2; 3; 10; 20; 30]%Z].
Proof. vm_compute. reflexivity. Qed.

(** ** Outside: the processes must hold the same flags and all of them must call. *)
(** Process 0 holds an operator marked as symmetric, process 1 the same one without the mark: the transposed product makes calls that do not match. *)
Theorem C84_different_flags_refuted : exists k g, run Zc (step Zc 2) k (start Zc (fun r => p_tvec_g2g Zc (pr_dop (if r =? 0 then SyS else SyN)) r (at_rank Zc pr_in r) (at_rank Zc pr_out r))) g /\ faulty Zc 2 g.
Proof.
  set (ps := fun r => p_tvec_g2g Zc (pr_dop (if r =? 0 then SyS else SyN)) r (at_rank Zc pr_in r) (at_rank Zc pr_out r)).
  assert (E0 : exists s n b c d k, ps 0 = Coll (Allgatherv s n b c d) k) by (unfold ps; cbv - [Z.add Z.mul]; repeat eexists).
  assert (E1 : exists b n k, ps 1 = Coll (Allreduce b n) k) by (unfold ps; cbv - [Z.add Z.mul]; repeat eexists).
  destruct E0 as (s & n & b & c & d & k & E0). destruct E1 as (b' & n' & k' & E1). clearbody ps.
  eexists 2, _. split.
  - eapply RS; [eapply (SEnters Zc 2 _ 0); constructor; [lia|cbn [start states]; rewrite E0; reflexivity]|].
    eapply RS; [eapply (SEnters Zc 2 _ 1); constructor; [lia|cbn [start states upd Nat.eqb]; rewrite E1; reflexivity]|]. apply R0.
  - right. exists 0, 1, 0, (Allgatherv s n b c d), (Allreduce b' n'). repeat split; lia.
Qed.
Print Assumptions C84_different_flags_refuted.
(** Process 1 does not call: process 0 waits for ever. *)
Theorem C84_missing_process_refuted : forall next, environment Zc 2 (A := list (car Zc)) next ->
  forall k g, run Zc next k (start Zc (fun r => if r =? 0 then mpi Zc (Allreduce (K:=Zc) [1%Z] 1) else Ret (K:=Zc) [])) g -> forall b, states g 0 <> Run (Ret b).
Proof.
  intros next [Hs _] k g Hrun b.
  assert (I : forall k g g', run Zc next k g g' ->
    (calls g 1 = [] /\ states g 1 = Run (Ret []) /\ ((exists kk, states g 0 = Run (Coll (Allreduce (K:=Zc) [1%Z] 1) kk) /\ calls g 0 = []) \/ exists kk, states g 0 = Wait (Allreduce (K:=Zc) [1%Z] 1) kk /\ length (calls g 0) = 1)) ->
    (calls g' 1 = [] /\ states g' 1 = Run (Ret []) /\ ((exists kk, states g' 0 = Run (Coll (Allreduce (K:=Zc) [1%Z] 1) kk) /\ calls g' 0 = []) \/ exists kk, states g' 0 = Wait (Allreduce (K:=Zc) [1%Z] 1) kk /\ length (calls g' 0) = 1))).
  { clear k g Hrun b. intros k g g' Hrun. induction Hrun as [g|k g g1 g2 Hn _ IH]; [tauto|]. intros (C1 & S1 & H). apply IH. clear IH. apply Hs in Hn. destruct Hn as [r g1 He|r g1 Hm Hl].
    - destruct He as [c kk Hr Es]. destruct r as [|[|r]]; [|rewrite S1 in Es; discriminate|lia]. cbn [calls states upd Nat.eqb]. split; [exact C1|]. split; [exact S1|]. right.
      destruct H as [(k0 & E0 & L0)|(k0 & E0 & L0)]; rewrite E0 in Es; [|discriminate]. injection Es as <- <-. exists k0. split; [reflexivity|]. rewrite L0. reflexivity.
    - destruct Hm as (c & k0 & E & Hneed). destruct Hl as [c' kk Hr Es]. destruct r as [|[|r]]; [|rewrite S1 in Es; discriminate|lia].
      destruct H as [(k1 & E0 & L0)|(k1 & E0 & L0)]; rewrite E0 in E; [discriminate|]. injection E as <- <-. specialize (Hneed 1 ltac:(lia) eq_refl). rewrite C1, L0 in Hneed. cbn [length] in Hneed. lia. }
  destruct (I k _ g Hrun) as (_ & _ & [(kk & E & _)|(kk & E & _)]).
  - cbn [start calls states Nat.eqb]. split; [reflexivity|]. split; [reflexivity|]. left. eexists. split; reflexivity.
  - rewrite E. discriminate.
  - rewrite E. discriminate.
Qed.
Print Assumptions C84_missing_process_refuted.
