(** * Properties C57, C58: the domain decomposition solver.

    Vocabulary: DdmModel.v (model; as in DistModel.v every function is the collective call on all the processes), DdmSpec.v
    (specification: [overlapping], [restrictions]), DistSpec.v ([partition_ok], [row_blocks], [mul], [holds_cols]). *)

From Coq Require Import List Arith ZArith Bool Lia Ring Permutation.
From Verif Require Import ClusterModel ClusterSpec IOModel BlockModel Algebra BlasModel BlasProofs HMatModel HMatSpec HMatProofs HMatTop HMatBuild DistModel DistSpec DistProofs
  DistVec DistMat DistLocal P_Dist DdmModel DdmSpec DdmProofs DdmTop.
Import ListNotations.

(** C57.  The product seen by the Krylov method: whatever the order of arrival of the messages, from the coefficients of X that
    belong to the processes (those of the overlap may be anything) to all the coefficients of A X, overlap included. *)
Theorem C57_product_with_overlap :
  forall K (S : ddm K) l2g (A : nat -> nat -> car K) arrival mu,
    let D := dd_op S in
    partition_ok (d_t K D) (world K D) -> d_s K D = d_t K D -> overlapping S l2g -> all_arrive S arrival ->
    (mu = 1 \/ d_sym K D <> SyH) ->
    (mu = 1 -> row_blocks D A run_vec 1) -> (mu <> 1 -> row_blocks D A (run_mat mu) mu) ->
    forall ins outs buffers works X,
      inside_restrictions S l2g ins mu X -> local_sizes S mu outs -> work_sizes S mu buffers works ->
      exists ys, gmv K S arrival mu ins outs buffers works = Some ys /\
        restrictions S l2g ys mu (fun a c => mul (pa_n (d_t K D)) A (fun b => X b c) a) /\
        forall r, r < world K D -> only_first (dof K S r * mu) (at_rank K outs r) (at_rank K ys r).
Proof.
  intros K S l2g A arrival mu D HT Hd HO Ha Hs H1 H2 ins outs buffers works X.
  apply (gmv_ok K S l2g HT HO A Hd); [fold D; rewrite Hd; exact HT| |exact Hs|exact Ha].
  destruct (Nat.eqb_spec mu 1) as [E|E]; [apply H1, E|apply H2, E].
Qed.
Print Assumptions C57_product_with_overlap.

(** The exchange alone: the processes agree on the overlap afterwards. *)
Theorem C57_exchange_is_consistent :
  forall K (S : ddm K) l2g arrival mu bs (Y : nat -> nat -> car K),
    partition_ok (d_t K (dd_op S)) (world K (dd_op S)) -> overlapping S l2g -> all_arrive S arrival -> inside_restrictions S l2g bs mu Y ->
    exists ys, scaledexchange K S arrival mu bs = Some ys /\ restrictions S l2g ys mu Y.
Proof.
  intros K S l2g arrival mu bs Y HT HO Ha Hi. destruct (scaledexchange_ok K S l2g HT HO arrival mu bs Y Ha Hi) as (ys & E1 & E2 & _).
  exists ys. auto.
Qed.
Print Assumptions C57_exchange_is_consistent.

(** C58.  Whatever the Krylov method does: it receives the restrictions of the right-hand sides; the columns X returned to the user on every
    process are those of which it computed the restrictions. *)
Theorem C58_solve :
  forall K (S : ddm K) l2g arrival krylov mu,
    let D := dd_op S in let n := pa_n (d_t K D) in
    partition_ok (d_t K D) (world K D) -> overlapping S l2g -> all_arrive S arrival -> d_perm K D = true -> mu <> 0 ->
    forall rhs works outs B,
      (forall r, r < world K D -> holds_cols (at_rank K rhs r) n mu B) ->
      (forall r, r < world K D -> n * (if mu =? 1 then 1 else 2 * mu) <= length (at_rank K works r)) ->
      (forall r, r < world K D -> n * mu <= length (at_rank K outs r)) ->
      exists bs, local_rhs K S arrival mu rhs = Some bs /\ restrictions S l2g bs mu B /\
        forall ws xs, krylov bs (map (fun r => vec0 K (dof K S r * mu)) (seq 0 (world K D))) = Some (ws, xs) -> local_sizes S mu ws -> local_sizes S mu xs ->
          exists ys X, solve K S arrival krylov mu rhs works outs = Some ys /\ inside_restrictions S l2g xs mu X /\
            forall r, r < world K D -> only_first (n * mu) (at_rank K outs r) (at_rank K ys r) /\ holds_cols (at_rank K ys r) n mu X.
Proof.
  intros K S l2g arrival krylov mu D n HT HO Ha Hp Hmu rhs works outs B Hr Hw Ho.
  exact (solve_ok K S l2g HT HO arrival krylov mu rhs works outs B Hmu Hp Ha Hr Hw Ho).
Qed.
Print Assumptions C58_solve.

(** The residual that the Krylov method computes for its result is the one of the columns that the user gets: when its product with the result
    is its right-hand side, the user gets a solution of A X = B. *)
Theorem C58_converged_is_solution :
  forall K (S : ddm K) l2g (A : nat -> nat -> car K) arrival krylov mu,
    let D := dd_op S in let n := pa_n (d_t K D) in
    partition_ok (d_t K D) (world K D) -> d_s K D = d_t K D -> overlapping S l2g -> all_arrive S arrival -> d_perm K D = true -> mu <> 0 ->
    (mu = 1 \/ d_sym K D <> SyH) ->
    (mu = 1 -> row_blocks D A run_vec 1) -> (mu <> 1 -> row_blocks D A (run_mat mu) mu) ->
    forall rhs works outs B,
      (forall r, r < world K D -> holds_cols (at_rank K rhs r) n mu B) ->
      (forall r, r < world K D -> n * (if mu =? 1 then 1 else 2 * mu) <= length (at_rank K works r)) ->
      (forall r, r < world K D -> n * mu <= length (at_rank K outs r)) ->
      (forall bs x0, local_sizes S mu bs -> local_sizes S mu x0 -> exists ws xs, krylov bs x0 = Some (ws, xs) /\ local_sizes S mu ws /\ local_sizes S mu xs /\
         exists arrival' os buffers works' ys, all_arrive S arrival' /\ local_sizes S mu os /\ work_sizes S mu buffers works' /\
           gmv K S arrival' mu xs os buffers works' = Some ys /\
           forall r i c, r < world K D -> i < dof K S r -> c < mu -> get (at_rank K ys r) (i + c * dof K S r) = get (at_rank K bs r) (i + c * dof K S r)) ->
      exists ys X, solve K S arrival krylov mu rhs works outs = Some ys /\
        (forall r, r < world K D -> holds_cols (at_rank K ys r) n mu X) /\
        forall a c, a < n -> c < mu -> mul n A (fun b => X b c) a = B a c.
Proof.
  intros K S l2g A arrival krylov mu D n HT Hd HO Ha Hp Hmu Hs H1 H2 rhs works outs B Hr Hw Ho Hk.
  destruct (C58_solve K S l2g arrival krylov mu HT HO Ha Hp Hmu rhs works outs B Hr Hw Ho) as (bs & Eb & [Lb Vb] & Hx).
  destruct (Hk bs (map (fun r => vec0 K (dof K S r * mu)) (seq 0 (world K D)))) as (ws & xs & Ek & Lw & Lx & ar & os & bu & wk & gs & Har & Los & Hwk & Eg & Vg).
  { intros r Hr'. exact (proj1 (Vb r Hr')). }
  { intros r Hr'. unfold at_rank. rewrite (nth_indep _ [] ((fun r => vec0 K (dof K S r * mu)) 0)) by (rewrite map_length, seq_length; exact Hr').
    rewrite (map_nth (fun r => vec0 K (dof K S r * mu)) (seq 0 (world K D)) 0 r), seq_nth by exact Hr'. cbn [Nat.add]. rewrite length_vec0. lia. }
  destruct (Hx ws xs Ek Lw Lx) as (ys & X & Es & HX & Hy). exists ys, X. split; [exact Es|]. split; [intros r Hr'; exact (proj2 (Hy r Hr'))|].
  intros a c Hac Hc.
  destruct (C57_product_with_overlap K S l2g A ar mu HT Hd HO Har Hs H1 H2 xs os bu wk X HX Los Hwk) as (gs' & Eg' & [_ Vg'] & _).
  rewrite Eg in Eg'. injection Eg' as <-.
  destruct (user_index_surj _ _ HT true a Hac) as (i & Hi & <-). destruct (part_find _ _ HT i Hi) as (r & o & s & Hr' & E & Bi).
  pose proof (ov_size K S l2g HO r o s E) as Hsd.
  pose proof (proj2 (Vg' r Hr') (i - o) c ltac:(lia) Hc) as V1. pose proof (Vg r (i - o) c Hr' ltac:(lia) Hc) as V2.
  pose proof (proj2 (Vb r Hr') (i - o) c ltac:(lia) Hc) as V3.
  rewrite (ov_inside K S l2g HO r o s (i - o) E ltac:(lia)) in V1, V3. fold D in V1, V3. rewrite Hp in V1, V3. replace (o + (i - o)) with i in V1, V3 by lia.
  transitivity (get (at_rank K gs r) (i - o + c * dof K S r)); [symmetry; exact V1|]. rewrite V2. exact V3.
Qed.
Print Assumptions C58_converged_is_solution.

(** *** Example: 4 unknowns renumbered, 2 processes with one coefficient of overlap each. *)
Definition ov_part : partition := mkPartition 4 [2; 0; 3; 1] [(0, 2); (2, 2)] false.
Definition ov_A (a b : nat) : Z := if a =? b then 2%Z else if (a =? b + 1) || (b =? a + 1) then (-1)%Z else (Z.of_nat a - 1)%Z.
Definition ov_block (o : nat) : mat Zc := of_fun Zc 2 4 (fun i j => ov_A (nth (o + i) [2; 0; 3; 1] 0) (nth j [2; 0; 3; 1] 0) : car Zc).
Definition ov_op : dop Zc :=
  mkDop Zc ov_part ov_part (map (fun o => [vlop_of Zc (local_dense Zc (ov_block o) (o, 2) (0, 4) [] [] SyN UpN false false)]) [0; 2]) true SyN.
Definition ov_S : ddm Zc := mkDdm ov_op [3; 3] [[1]; [0]] [[[2; 1]]; [[0; 2]]].
Definition ov_l2g (r i : nat) : nat := nth i (if r =? 0 then [2; 0; 3] else [3; 1; 0]) 0.
Lemma ov_part_ok : partition_ok ov_part 2.
Proof.
  split; [|reflexivity|cbn; tauto]. cbn. apply NoDup_Permutation; [repeat constructor; cbn; intuition lia|repeat constructor; cbn; intuition lia|].
  intros x. cbn. intuition lia.
Qed.
Lemma ov_over : overlapping ov_S ov_l2g.
Proof.
  split.
  - intros [|[|r]] o s E; cbn in E; try discriminate; try (destruct r; discriminate); injection E as <- <-; cbn; lia.
  - intros [|[|r]] o s i E Hi; cbn in E; try discriminate; try (destruct r; discriminate); injection E as <- <-; destruct i as [|[|i]]; try lia; reflexivity.
  - intros [|[|r]] Hr; cbn in Hr |- *; try lia; repeat constructor; cbn; tauto.
  - intros [|[|r]] t I Hr Hi; cbn in Hr; try lia; cbn in Hi; destruct Hi as [Hi|[]]; injection Hi as <- <-.
    + split; [cbn; lia|]. split; [lia|]. split; [repeat constructor; cbn; intuition lia|]. split; [cbn; intuition lia|]. exists [0; 2]. split; [left; reflexivity|reflexivity].
    + split; [cbn; lia|]. split; [lia|]. split; [repeat constructor; cbn; intuition lia|]. split; [cbn; intuition lia|]. exists [2; 1]. split; [left; reflexivity|reflexivity].
  - intros [|[|r]] o s i E Hi; cbn in E; try discriminate; try (destruct r; discriminate); injection E as <- <-; cbn in Hi.
    + exists 1, 2, 2, 0, [2; 1]. replace i with 2 by lia. cbn. split; [reflexivity|]. split; [lia|]. split; [reflexivity|]. split; [left; reflexivity|left; reflexivity].
    + exists 0, 0, 2, 1, [0; 2]. replace i with 2 by lia. cbn. split; [reflexivity|]. split; [lia|]. split; [reflexivity|]. split; [left; reflexivity|right; left; reflexivity].
Qed.
Lemma ov_rows : row_blocks ov_op ov_A run_vec 1 /\ forall mu, 1 <= mu -> row_blocks ov_op ov_A (run_mat mu) mu.
Proof.
  assert (Hw : forall o, wf_mat (ov_block o) 2 4) by (intros o; apply of_fun_wf).
  assert (Hv : forall o i j, i < 2 -> j < 4 -> window Zc 0 4 (me (ov_block o)) i j = part_matrix ov_op ov_A (o + i) j).
  { intros o i j Hi Hj. unfold window. replace ((0 <=? j) && (j <? 0 + 4)) with true by (symmetry; apply andb_true_iff; split; [apply Nat.leb_le|apply Nat.ltb_lt]; lia).
    rewrite Nat.sub_0_r. unfold ov_block. rewrite of_fun_me by lia. reflexivity. }
  split.
  - intros [|[|r]] o s E; cbn in E; try discriminate; try (destruct r; discriminate); injection E as <- <-.
    + exists [window Zc 0 4 (me (ov_block 0))]. split.
      * constructor; [|constructor]. apply (lop_vec_ok Zc (local_dense Zc (ov_block 0) (0, 2) (0, 4) [] [] SyN UpN false false) 4); [cbn; lia|reflexivity|reflexivity|].
        apply (dense_core_vec Zc (ov_block 0) 2 4 0 0 [] [] UpN (Hw 0) ltac:(lia) TrN).
      * intros i j Hi Hj. cbn [lsum]. rewrite Hv by assumption. apply Z.add_0_r.
    + exists [window Zc 0 4 (me (ov_block 2))]. split.
      * constructor; [|constructor]. apply (lop_vec_ok Zc (local_dense Zc (ov_block 2) (2, 2) (0, 4) [] [] SyN UpN false false) 4); [cbn; lia|reflexivity|reflexivity|].
        apply (dense_core_vec Zc (ov_block 2) 2 4 2 0 [] [] UpN (Hw 2) ltac:(lia) TrN).
      * intros i j Hi Hj. cbn [lsum]. rewrite Hv by assumption. apply Z.add_0_r.
  - intros mu Hmu [|[|r]] o s E; cbn in E; try discriminate; try (destruct r; discriminate); injection E as <- <-.
    + exists [window Zc 0 4 (me (ov_block 0))]. split.
      * constructor; [|constructor]. apply (lop_mat_ok Zc (local_dense Zc (ov_block 0) (0, 2) (0, 4) [] [] SyN UpN false false) 4); [cbn; lia|reflexivity|reflexivity|].
        apply (dense_core_mat Zc (ov_block 0) 2 4 0 0 [] [] UpN (Hw 0) ltac:(lia) TrN). exact Hmu.
      * intros i j Hi Hj. cbn [lsum]. rewrite Hv by assumption. apply Z.add_0_r.
    + exists [window Zc 0 4 (me (ov_block 2))]. split.
      * constructor; [|constructor]. apply (lop_mat_ok Zc (local_dense Zc (ov_block 2) (2, 2) (0, 4) [] [] SyN UpN false false) 4); [cbn; lia|reflexivity|reflexivity|].
        apply (dense_core_mat Zc (ov_block 2) 2 4 2 0 [] [] UpN (Hw 2) ltac:(lia) TrN). exact Hmu.
      * intros i j Hi Hj. cbn [lsum]. rewrite Hv by assumption. apply Z.add_0_r.
Qed.
Example ov_arrive : all_arrive ov_S (shared Zc ov_S).
Proof. intros r _. apply Permutation_refl. Qed.
(** Two columns x0 = (1,2,3,4), x1 = (0,1,0,-2); the overlap of the input holds garbage (77). *)
Example ov_product :
  gmv Zc ov_S (shared Zc ov_S) 2 [[3; 1; 77; 0; 0; 77]; [4; 2; 77; -2; 1; 77]]%Z (repeat (repeat 5%Z 7) 2) (repeat (repeat 0%Z 8) 2) (repeat (repeat 0%Z 16) 2)
  = Some [[1; -7; 11; 1; 1; -2; 5]; [11; 0; -7; -2; 2; 1; 5]]%Z /\
  map (fun a => fold_right Z.add 0%Z (map (fun b => ov_A a b * nth b [1; 2; 3; 4] 0) (seq 0 4))%Z) (seq 0 4) = [-7; 0; 1; 11]%Z.
Proof. vm_compute. auto. Qed.
(** The solver with a Krylov method that finds the solution (1,2,3,4) and leaves garbage elsewhere. *)
Example ov_solution :
  solve Zc ov_S (shared Zc ov_S) (fun b x0 => Some (repeat (repeat 9%Z 3) 2, [[3; 1; 77]; [4; 2; 77]]%Z)) 1 (repeat [-7; 0; 1; 11]%Z 2) (repeat (repeat 0%Z 4) 2) (repeat (repeat 0%Z 4) 2)
  = Some (repeat [1; 2; 3; 4]%Z 2) /\
  local_rhs Zc ov_S (shared Zc ov_S) 1 (repeat [-7; 0; 1; 11]%Z 2) = Some [[1; -7; 11]; [11; 0; -7]]%Z.
Proof. vm_compute. auto. Qed.

(** With several vectors and a complex Hermitian operator the product is conj(A conj(x)): [[1, i], [-i, 1]] and x = (1, 0) twice. *)
Definition herm_S : ddm Gc := mkDdm (mkDop Gc (mkPartition 2 [0; 1] [(0, 2)] true) (mkPartition 2 [0; 1] [(0, 2)] true) (d_ops Gc herm_op) true SyH) [2] [[]] [[]].
Theorem C57_hermitian_block_product_refuted :
  let z := (0, 0)%Z in let u := (1, 0)%Z in
  gmv Gc herm_S (fun _ => []) 1 [[u; z]] [[z; z]] [[z; z]] [[z; z]] = Some [[u; (0, -1)%Z]] /\
  gmv Gc herm_S (fun _ => []) 2 [[u; z; u; z]] [[z; z; z; z]] [repeat z 8] [repeat z 8] = Some [[u; (0, 1)%Z; u; (0, 1)%Z]].
Proof. vm_compute. auto. Qed.
Print Assumptions C57_hermitian_block_product_refuted.

(** For an operator that does not use the permutation, DDM::solve renumbers all the same: the operator is diag(1, 2, 3, 4) in its own numbering,
    the solution of the local problems is exact and the vector returned is not the solution. *)
Definition noperm_S : ddm Zc :=
  mkDdm (mkDop Zc ov_part ov_part (map (fun o => [vlop_of Zc (local_dense Zc (of_fun Zc 2 4 (fun i j => if (o + i =? j) then Z.of_nat (o + i + 1) else 0%Z) : mat Zc) (o, 2) (0, 4) [] [] SyN UpN false false)]) [0; 2]) false SyN)
    [2; 2] [[]; []] [[]; []].
Definition noperm_krylov (bs x0 : list (list (car Zc))) : option (list (list (car Zc)) * list (list (car Zc))) :=
  Some (bs, [[nth 0 (nth 0 bs []) 0 / 1; nth 1 (nth 0 bs []) 0 / 2]; [nth 0 (nth 1 bs []) 0 / 3; nth 1 (nth 1 bs []) 0 / 4]]%Z).
Theorem C58_without_permutation_refuted :
  let b := [12; 24; 36; 48]%Z in
  solve Zc noperm_S (fun _ => []) noperm_krylov 1 [b; b] (repeat (repeat 0%Z 4) 2) (repeat (repeat 0%Z 4) 2) = Some (repeat [6; 6; 36; 16]%Z 2) /\
  vec_g2g Zc (dd_op noperm_S) (repeat [6; 6; 36; 16]%Z 2) (repeat (repeat 0%Z 4) 2) = Some (repeat [6; 12; 108; 64]%Z 2).
Proof. vm_compute. auto. Qed.
Print Assumptions C58_without_permutation_refuted.
