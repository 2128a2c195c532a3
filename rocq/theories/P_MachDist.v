(** * Property C85: the machine integers of the products of several vectors by a distributed operator.

    The theorems C36 and C46 with the sizes, counts, displacements and indices computed in the 32-bit [int]s of the code (MachDistModel.v), where an overflow is undefined
    behaviour.  [fits n]: n is a value of the type int (MachDistSpec.v).  The rest of the vocabulary is that of P_Dist.v. *)

From Coq Require Import List Arith ZArith Bool Lia Permutation.
From Verif Require Import ClusterModel ClusterSpec IOModel BlockModel Algebra BlasModel HMatModel DistModel DistSpec DistProofs DistVec DistMat DistLocal P_Dist MachModel
  MachDistModel MachDistSpec MachDistProofs.
Import ListNotations.

(** Between global vectors.  The last condition is the only one that does not follow from the sizes of the arrays: the code multiplies the index of the vector by the
    number of coefficients of a part for all the vectors, before it divides by the number of vectors. *)
Theorem C85_matrix_product_global :
  forall K (D : dop K) (A : nat -> nat -> car K) mu,
    let NR := pa_n (d_t K D) in let NC := pa_n (d_s K D) in
    partition_ok (d_t K D) (world K D) -> partition_ok (d_s K D) (world K D) ->
    row_blocks D A (run_mat mu) mu -> 1 <= mu ->
    fits (2 * NR * mu) -> fits (NC * mu) ->
    (forall r o s, nth_error (pa_parts (d_t K D)) r = Some (o, s) -> fits ((mu - 1) * (s * mu))) ->
    forall ins outs X,
      (forall r, r < world K D -> holds_cols (at_rank K ins r) NC mu X) ->
      (forall r, r < world K D -> NR * mu <= length (at_rank K outs r)) ->
      exists ys, mat_g2g_m K D ins outs mu = Some ys /\ length ys = world K D /\
        forall r, r < world K D ->
          holds_cols (at_rank K ys r) NR mu (fun a c => mul NC A (fun b => X b c) a) /\
          only_first (NR * mu) (at_rank K outs r) (at_rank K ys r).
Proof.
  intros K D A mu NR NC HT HS HB Hmu F1 F2 F3 ins outs X Hi Ho. rewrite (mat_g2g_eq K D mu Hmu HT F1 F2).
  - exact (C36_matrix_product_global K D A mu HT HS HB ins outs X Hi Ho).
  - intros r s _ Es. unfold part_size in Es. destruct (nth_error (pa_parts (d_t K D)) r) as [[o s']|] eqn:E; [|discriminate]. injection Es as <-. exact (F3 r o s' E).
Qed.
Print Assumptions C85_matrix_product_global.

(** The condition is necessary: beyond it the product is undefined behaviour on every input, whatever the local operators. *)
Theorem C85_overflow :
  forall K (D : dop K) mu r o s, 1 <= mu -> r < world K D -> nth_error (pa_parts (d_t K D)) r = Some (o, s) -> ~ fits ((mu - 1) * (s * mu)) ->
    forall ins outs, mat_g2g_m K D ins outs mu = None.
Proof.
  intros K D mu r o s Hmu Hr E HB ins outs. apply (mat_g2g_none K D mu Hmu ins outs r s Hr); [|exact HB]. unfold part_size. rewrite E. reflexivity.
Qed.
Print Assumptions C85_overflow.

(** The transposed product; the condition above concerns only the operators declared symmetric or Hermitian. *)
Theorem C85_transposed_matrix_product_global :
  forall K (D : dop K) (A : nat -> nat -> car K) mu,
    let NR := pa_n (d_t K D) in let NC := pa_n (d_s K D) in
    partition_ok (d_t K D) (world K D) -> partition_ok (d_s K D) (world K D) ->
    sym_matrix D A ->
    match d_sym K D with
    | SyS | SyH => row_blocks D A (run_mat mu) mu
    | _ => transposed_blocks D A (run_tmat mu) mu \/ transposed_blocks_disjoint D A (run_tmat mu) mu
    end ->
    1 <= mu -> fits (2 * NR * mu) -> fits (NR * mu + NC * mu) ->
    (d_sym K D = SyS \/ d_sym K D = SyH -> forall r o s, nth_error (pa_parts (d_t K D)) r = Some (o, s) -> fits ((mu - 1) * (s * mu))) ->
    forall ins outs X,
      (forall r, r < world K D -> holds_cols (at_rank K ins r) NR mu X) ->
      (forall r, r < world K D -> NC * mu <= length (at_rank K outs r)) ->
      exists ys, tmat_g2g_m K D ins outs mu = Some ys /\ length ys = world K D /\
        forall r, r < world K D ->
          only_first (NC * mu) (at_rank K outs r) (at_rank K ys r) /\
          holds_cols (at_rank K ys r) NC mu (fun b c => tmul NR A (fun a => X a c) b).
Proof.
  intros K D A mu NR NC HT HS Hy HB Hmu F1 F2 F3 ins outs X Hi Ho. rewrite (tmat_g2g_eq K D mu Hmu HT F1).
  - exact (C46_transposed_matrix_product_global K D A mu HT HS Hy HB ins outs X Hi Ho).
  - apply (fits_le _ (NR * mu + NC * mu)); [|exact F2]. apply Nat.le_add_l.
  - exact F2.
  - intros Hsy r s _ Es. unfold part_size in Es. destruct (nth_error (pa_parts (d_t K D)) r) as [[o s']|] eqn:E; [|discriminate]. injection Es as <-. exact (F3 Hsy r o s' E).
Qed.
Print Assumptions C85_transposed_matrix_product_global.

(** Between the parts; [works = None]: the caller gives no work array and the function allocates its own, whose size the theorem shows sufficient. *)
Theorem C85_matrix_product_local :
  forall K (D : dop K) (A : nat -> nat -> car K) mu,
    let NR := pa_n (d_t K D) in let NC := pa_n (d_s K D) in
    partition_ok (d_t K D) (world K D) -> partition_ok (d_s K D) (world K D) ->
    (d_perm K D = true -> partition_local (d_t K D)) -> (d_perm K D = true -> partition_local (d_s K D)) ->
    row_blocks D A (run_mat mu) mu ->
    1 <= mu -> fits (NR * mu) -> fits (NC * mu) ->
    forall ins outs works X,
      (forall r o s, r < world K D -> nth_error (pa_parts (d_s K D)) r = Some (o, s) -> holds_cols (at_rank K ins r) s mu (fun i c => X (o + i) c)) ->
      (forall r o s, r < world K D -> nth_error (pa_parts (d_t K D)) r = Some (o, s) -> s * mu <= length (at_rank K outs r)) ->
      (forall w r, works = Some w -> r < world K D -> NC * mu <= length (at_rank K w r)) ->
      exists ys, mat_l2l_m K D ins outs works mu = Some ys /\ length ys = world K D /\
        forall r o s, r < world K D -> nth_error (pa_parts (d_t K D)) r = Some (o, s) ->
          only_first (s * mu) (at_rank K outs r) (at_rank K ys r) /\
          holds_cols (at_rank K ys r) s mu (fun i c => mul NC A (fun b => X b c) (o + i)).
Proof.
  intros K D A mu NR NC HT HS HTl HSl HB Hmu F1 F2 ins outs works X Hi Ho Hw. rewrite (mat_l2l_eq K D mu Hmu HT HS F1 F2).
  apply (C46_matrix_product_local K D A mu HT HS HTl HSl HB ins outs _ X Hi Ho).
  intros r Hr. destruct works as [w|]; [exact (Hw w r eq_refl Hr)|]. cbn [works_used]. unfold at_rank.
  rewrite (nth_indep _ [] (vec0 K (DistModel.nc K D * mu))) by (rewrite map_length, seq_length; exact Hr).
  rewrite (map_nth (fun _ => vec0 K (DistModel.nc K D * mu)) (seq 0 (world K D)) 0 r). unfold vec0. rewrite repeat_length. apply Nat.le_refl.
Qed.
Print Assumptions C85_matrix_product_local.

Theorem C85_transposed_matrix_product_local :
  forall K (D : dop K) (A : nat -> nat -> car K) mu,
    let NR := pa_n (d_t K D) in let NC := pa_n (d_s K D) in
    partition_ok (d_t K D) (world K D) -> partition_ok (d_s K D) (world K D) ->
    (d_perm K D = true -> partition_local (d_t K D)) -> (d_perm K D = true -> partition_local (d_s K D)) ->
    sym_matrix D A -> (d_sym K D = SyS \/ d_sym K D = SyH -> pa_parts (d_t K D) = pa_parts (d_s K D)) ->
    match d_sym K D with
    | SyS | SyH => row_blocks D A (run_mat mu) mu
    | _ => transposed_blocks D A (run_tmat mu) mu \/ transposed_blocks_disjoint D A (run_tmat mu) mu
    end ->
    1 <= mu -> fits (NR * mu) ->
    (forall r o s, nth_error (pa_parts (d_s K D)) r = Some (o, s) -> fits ((NC + world K D * s) * mu)) -> 1 <= world K D ->
    forall ins outs works X,
      (forall r o s, r < world K D -> nth_error (pa_parts (d_t K D)) r = Some (o, s) -> holds_cols (at_rank K ins r) s mu (fun i c => X (o + i) c)) ->
      (forall r o s, r < world K D -> nth_error (pa_parts (d_s K D)) r = Some (o, s) -> s * mu <= length (at_rank K outs r)) ->
      (forall w r o s, works = Some w -> r < world K D -> nth_error (pa_parts (d_s K D)) r = Some (o, s) -> NC * mu + world K D * (s * mu) <= length (at_rank K w r)) ->
      exists ys, tmat_l2l_m K D ins outs works mu = Some ys /\ length ys = world K D /\
        forall r o s, r < world K D -> nth_error (pa_parts (d_s K D)) r = Some (o, s) ->
          only_first (s * mu) (at_rank K outs r) (at_rank K ys r) /\
          holds_cols (at_rank K ys r) s mu (fun i c => tmul NR A (fun a => X a c) (o + i)).
Proof.
  intros K D A mu NR NC HT HS HTl HSl Hy Hp HB Hmu F1 F2 Hw1 ins outs works X Hi Ho Hw.
  assert (F2' : forall r s, r < world K D -> part_size (d_s K D) r = Some s -> fits ((DistModel.nc K D + world K D * s) * mu)).
  { intros r s _ Es. unfold part_size in Es. destruct (nth_error (pa_parts (d_s K D)) r) as [[o s']|] eqn:E; [|discriminate]. injection Es as <-. exact (F2 r o s' E). }
  assert (Fc : fits (NC * mu)).
  { destruct (part_nth _ _ HS 0 Hw1) as (o & s & E & _). refine (fits_le _ _ _ (F2 0 o s E)). apply Nat.mul_le_mono_r. apply Nat.le_add_r. }
  rewrite (tmat_l2l_eq K D mu Hmu HT HS F1 Fc F2').
  apply (C46_transposed_matrix_product_local K D A mu HT HS HTl HSl Hy Hp HB ins outs _ X Hi Ho).
  intros r o s Hr E. destruct works as [w|]; [exact (Hw w r o s eq_refl Hr E)|]. cbn [works_used]. unfold at_rank.
  match goal with |- context[map ?f _] => set (g := f) end.
  rewrite (nth_indep _ [] (g 0)) by (rewrite map_length, seq_length; exact Hr). rewrite (map_nth g (seq 0 (world K D)) 0 r), seq_nth by exact Hr. cbn [Nat.add].
  unfold g, vec0. rewrite repeat_length. rewrite (proj1 (part_size_ok _ _ _ _ E)). change (DistModel.nc K D) with NC. rewrite Nat.mul_add_distr_r, Nat.mul_assoc. apply Nat.le_refl.
Qed.
Print Assumptions C85_transposed_matrix_product_local.

(** Without the condition the property fails: 1000 vectors of 2200 coefficients and one process.  All the arrays are small, the theorem C36 applies and the code overflows. *)
Definition big_part : partition := mkPartition 2200 (seq 0 2200) [(0, 2200)] true.
Definition big_op (use : bool) : dop Zc := mkDop Zc big_part big_part [[]] use SyN.
Theorem C85_condition_refuted :
  forall use, exists mu,
    let D := big_op use in
    partition_ok (d_t Zc D) (world Zc D) /\ partition_ok (d_s Zc D) (world Zc D) /\ row_blocks D (fun _ _ => c0 Zc) (run_mat mu) mu /\ 1 <= mu /\
    fits (2 * pa_n (d_t Zc D) * mu) /\ fits (pa_n (d_s Zc D) * mu) /\
    forall ins outs, mat_g2g_m Zc D ins outs mu = None.
Proof.
  intros use. exists 1000. cbv zeta.
  assert (HP : partition_ok big_part 1).
  { split; [apply Permutation_refl|reflexivity|]. cbn [tiles big_part pa_parts pa_n]. split; reflexivity. }
  split; [exact HP|]. split; [exact HP|]. split.
  { intros r o s E. exists []. destruct r as [|r]; [|destruct r; discriminate]. cbn. split; [constructor|]. reflexivity. }
  split; [lia|]. split; [unfold fits; cbn [big_op d_t big_part pa_n]; rewrite !Nat2Z.inj_mul; reflexivity|].
  split; [unfold fits; cbn [big_op d_s big_part pa_n]; rewrite !Nat2Z.inj_mul; reflexivity|].
  intros ins outs. apply (C85_overflow Zc (big_op use) 1000 0 0 2200); [lia|cbn; lia|reflexivity|]. unfold fits. rewrite !Nat2Z.inj_mul. intros H. vm_compute in H. discriminate H.
Qed.
Print Assumptions C85_condition_refuted.

(** *** Example: the operator of 5 processes of P_Dist.v and 7 vectors meet the conditions on the sizes. *)
Example C85_hyps : forall l mu, mu <= 7 ->
  let D := ex_dop l in
  fits (2 * pa_n (d_t Zc D) * mu) /\ fits (pa_n (d_t Zc D) * mu + pa_n (d_s Zc D) * mu) /\
  (forall r o s, nth_error (pa_parts (d_t Zc D)) r = Some (o, s) -> o + s <= pa_n (d_t Zc D) -> fits ((mu - 1) * (s * mu)) /\ fits ((pa_n (d_s Zc D) + 5 * s) * mu)).
Proof.
  intros l mu Hmu D. change (pa_n (d_t Zc D)) with 23. change (pa_n (d_s Zc D)) with 23.
  split; [unfold fits; lia|]. split; [unfold fits; lia|]. intros r o s _ Hs. split.
  - apply (fits_le _ (6 * (23 * 7))); [apply Nat.mul_le_mono; [lia|apply Nat.mul_le_mono; lia]|reflexivity].
  - apply (fits_le _ ((23 + 5 * 23) * 7)); [apply Nat.mul_le_mono; lia|reflexivity].
Qed.
