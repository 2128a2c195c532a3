(** * Property C85, continued: the machine integers of the domain decomposition solver.

    The theorems C57 and C58 with the sizes, counts and indices computed in the 32-bit [int]s of the code (MachDdmModel.v), where an overflow is undefined behaviour. *)

From Coq Require Import List Arith ZArith Bool Lia Permutation.
From Verif Require Import ClusterModel ClusterSpec IOModel BlockModel Algebra BlasModel HMatModel DistModel DistSpec DistProofs DdmModel DdmSpec P_Ddm MachModel
  MachDistModel MachDistSpec MachDistProofs MachDdmModel MachDdmProofs.
Import ListNotations.

(** DDM::solve; [works] is the previous content of the work array, of any size.  The last condition on the sizes is again the square of the number of right-hand sides. *)
Theorem C85_solve :
  forall K (S : ddm K) l2g arrival krylov mu,
    let D := dd_op S in let n := pa_n (d_t K D) in
    partition_ok (d_t K D) (world K D) -> overlapping S l2g -> all_arrive S arrival -> d_perm K D = true -> 1 <= mu -> 1 <= n ->
    fits (n * (if mu =? 1 then 1 else 2 * mu)) -> (forall r, r < world K D -> fits (dof K S r * mu)) ->
    (forall r o s, nth_error (pa_parts (d_t K D)) r = Some (o, s) -> fits ((mu - 1) * (s * mu))) ->
    forall rhs works outs B,
      (forall r, r < world K D -> holds_cols (at_rank K rhs r) n mu B) ->
      (forall r, r < world K D -> n * mu <= length (at_rank K outs r)) ->
      exists bs, local_rhs_m K S arrival mu rhs = Some bs /\ restrictions S l2g bs mu B /\
        forall ws xs, krylov bs (map (fun r => vec0 K (dof K S r * mu)) (seq 0 (world K D))) = Some (ws, xs) -> local_sizes S mu ws -> local_sizes S mu xs ->
          exists ys X, solve_m K S arrival krylov mu rhs works outs = Some ys /\ inside_restrictions S l2g xs mu X /\
            forall r, r < world K D -> only_first (n * mu) (at_rank K outs r) (at_rank K ys r) /\ holds_cols (at_rank K ys r) n mu X.
Proof.
  intros K S l2g arrival krylov mu D n HT HO Ha Hp Hmu Hn1 F1 F2 F3 rhs works outs B Hr Ho.
  assert (Hsq : forall r s, r < world K D -> part_size (d_t K D) r = Some s -> fits ((mu - 1) * (s * mu))).
  { intros r s _ Es. unfold part_size in Es. destruct (nth_error (pa_parts (d_t K D)) r) as [[o s']|] eqn:E; [|discriminate]. injection Es as <-. exact (F3 r o s' E). }
  rewrite (local_rhs_eq K S mu Hmu Hn1 F1 F2). rewrite (solve_eq K S mu Hmu Hn1 HT F1 F2 Hsq).
  apply (C58_solve K S l2g arrival krylov mu HT HO Ha Hp ltac:(lia) rhs _ outs B Hr); [|exact Ho].
  intros r Hrk. unfold at_rank. match goal with |- context[map ?f _] => set (g := f) end.
  rewrite (nth_indep _ [] (g 0)) by (rewrite map_length, seq_length; exact Hrk). rewrite (map_nth g (seq 0 (world K (dd_op S))) 0 r). unfold g. rewrite resize_length. apply Nat.le_refl.
Qed.
Print Assumptions C85_solve.

(** Beyond it, with several right-hand sides, the end of the solve is undefined behaviour, whatever the Krylov method, the right-hand sides and the arrays. *)
Theorem C85_solve_overflow :
  forall K (S : ddm K) mu r o s, 2 <= mu -> r < world K (dd_op S) -> nth_error (pa_parts (d_t K (dd_op S))) r = Some (o, s) -> ~ fits ((mu - 1) * (s * mu)) ->
    forall arrival krylov rhs works outs, solve_m K S arrival krylov mu rhs works outs = None.
Proof.
  intros K S mu r o s Hmu Hr E HB arrival krylov rhs works outs. unfold solve_m.
  repeat match goal with |- (match ?x with _ => _ end) = None => destruct x as [?|]; [|reflexivity] end.
  assert (Hm1 : 1 <= mu) by lia. assert (Hm2 : mu <> 1) by lia.
  apply (gather_none K S mu Hm1 Hm2 r s); [exact Hr|unfold part_size; rewrite E; reflexivity|exact HB].
Qed.
Print Assumptions C85_solve_overflow.

(** The product given to the Krylov method. *)
Theorem C85_product_with_overlap :
  forall K (S : ddm K) l2g (A : nat -> nat -> car K) arrival mu,
    let D := dd_op S in let n := pa_n (d_t K D) in
    partition_ok (d_t K D) (world K D) -> d_s K D = d_t K D -> overlapping S l2g -> all_arrive S arrival ->
    (mu = 1 \/ d_sym K D <> SyH) ->
    (mu = 1 -> row_blocks D A run_vec 1) -> (mu <> 1 -> row_blocks D A (run_mat mu) mu) ->
    1 <= mu -> 1 <= n -> fits (n * (if mu =? 1 then 1 else 2 * mu)) -> (forall r, r < world K D -> fits (dof K S r * mu)) ->
    forall ins outs buffers works X,
      inside_restrictions S l2g ins mu X -> local_sizes S mu outs -> work_sizes S mu buffers works ->
      exists ys, gmv_m K S arrival mu ins outs buffers works = Some ys /\
        restrictions S l2g ys mu (fun a c => mul n A (fun b => X b c) a) /\
        forall r, r < world K D -> only_first (dof K S r * mu) (at_rank K outs r) (at_rank K ys r).
Proof.
  intros K S l2g A arrival mu D n HT Hd HO Ha Hs H1 H2 Hmu Hn1 F1 F2 ins outs buffers works X Hi Ho Hw.
  rewrite (gmv_eq K S mu Hmu Hn1 HT F1 F2 Hd) by (intros r Hr o s E; exact (ov_size K S l2g HO r o s E)).
  exact (C57_product_with_overlap K S l2g A arrival mu HT Hd HO Ha Hs H1 H2 ins outs buffers works X Hi Ho Hw).
Qed.
Print Assumptions C85_product_with_overlap.

(** *** Examples: the solver of P_Ddm.v, which meets the other hypotheses (ov_part_ok, ov_over, ov_arrive, ov_rows). *)
Example C85_solve_hyps : 1 <= pa_n (d_t Zc (dd_op ov_S)) /\ fits (pa_n (d_t Zc (dd_op ov_S)) * 4) /\ (forall r, r < 2 -> fits (dof Zc ov_S r * 2)) /\
  (forall r o s, nth_error (pa_parts (d_t Zc (dd_op ov_S))) r = Some (o, s) -> fits ((2 - 1) * (s * 2))).
Proof.
  split; [cbn; lia|]. split; [reflexivity|]. split; [intros [|[|r]] Hr; [reflexivity|reflexivity|lia]|].
  intros [|[|r]] o s E; cbn in E; try (destruct r; discriminate); injection E as <- <-; reflexivity.
Qed.
Example C85_solve_example :
  solve_m Zc ov_S (shared Zc ov_S) (fun b x0 => Some (repeat (repeat 9%Z 6) 2, [[3; 1; 77; 30; 10; 77]; [4; 2; 77; 40; 20; 77]]%Z)) 2 (repeat [-7; 0; 1; 11; -70; 0; 10; 110]%Z 2) [[]; repeat 4%Z 99]
    (repeat (repeat 0%Z 8) 2)
  = Some (repeat [1; 2; 3; 4; 10; 20; 30; 40]%Z 2).
Proof. vm_compute. reflexivity. Qed.
(** A solver on one process for 2200 unknowns, with 1000 right-hand sides: all the arrays are small. *)
Definition big_S : ddm Zc := mkDdm (mkDop Zc (mkPartition 2200 (seq 0 2200) [(0, 2200)] true) (mkPartition 2200 (seq 0 2200) [(0, 2200)] true) [[]] true SyN) [2200] [[]] [[]].
Theorem C85_solve_condition_refuted :
  let D := dd_op big_S in
  partition_ok (d_t Zc D) (world Zc D) /\ overlapping big_S (fun _ i => nth i (seq 0 2200) 0) /\ d_perm Zc D = true /\
  fits (pa_n (d_t Zc D) * (2 * 1000)) /\ (forall r, r < world Zc D -> fits (dof Zc big_S r * 1000)) /\
  forall arrival krylov rhs works outs, solve_m Zc big_S arrival krylov 1000 rhs works outs = None.
Proof.
  cbv zeta. split.
  { split; [apply Permutation_refl|reflexivity|]. cbn [tiles big_S dd_op d_t pa_parts pa_n]. split; reflexivity. }
  split.
  { split.
    - intros [|r] o s E; [|destruct r; discriminate]. injection E as <- <-. apply Nat.le_refl.
    - intros [|r] o s i E Hi; [|destruct r; discriminate]. injection E as <- <-. reflexivity.
    - intros [|r] _; [constructor|]. unfold shared. cbn [big_S dd_nb dd_int nth]. destruct r; constructor.
    - intros [|r] t I Hr Hi; [destruct Hi|]. cbn in Hr. lia.
    - intros [|r] o s i E Hi; [|destruct r; discriminate]. injection E as <- <-. change (dof Zc big_S 0) with 2200 in Hi. lia. }
  split; [reflexivity|].
  split; [unfold fits; cbn [big_S dd_op d_t pa_n]; rewrite !Nat2Z.inj_mul; reflexivity|].
  split. { intros [|r] Hr; [|cbn in Hr; lia]. change (dof Zc big_S 0) with 2200. unfold fits. rewrite !Nat2Z.inj_mul. reflexivity. }
  apply (C85_solve_overflow Zc big_S 1000 0 0 2200); [lia|cbn; lia|reflexivity|]. unfold fits. rewrite !Nat2Z.inj_mul. intros H. vm_compute in H. discriminate H.
Qed.
Print Assumptions C85_solve_condition_refuted.
