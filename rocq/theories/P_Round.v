(** * Property C86: rounding errors of the products of a hierarchical matrix and a vector.

    Vocabulary: RoundModel.v (the products with a BLAS given as a record), RoundSpec.v ([accurate_blas u B], [gam u k] = (1+u)^k - 1, [abs_value], [row_cost], [exact_row],
    [abs_row]); HMatSpec.v ([well_formed], [value]).  Real coefficients. *)

From Coq Require Import List Arith ZArith Bool Lia Ring Reals Lra Permutation.
From Verif Require Import ClusterModel ClusterSpec IOModel BlockModel BlockSpec Algebra BlasModel HMatModel HMatSpec HMatProofs RealNum CompReal RoundModel RoundSpec RoundProofs RoundLoops RoundRef.
Import ListNotations.
Local Open Scope R_scope.

(** C86.  For every distribution of the leaves over the threads and every order of the critical sections, each coefficient of the result is the coefficient of
    beta y + alpha op(A) x up to (1+u)^N - 1 times the same expression with absolute values, N being one plus two per thread plus the roundings of the leaves that touch the
    row.  The memory behind the output is unchanged. *)
Theorem C86_every_schedule :
  forall u B (A : hmat Rc) L Y sy, accurate_blas u B ->
    hleaves Rc A = Some (L, Y) -> well_formed (rt_val A) L Y sy ->
    forall t, compat Rc t sy ->
    forall threads alpha beta x y, Permutation (concat (map fst threads)) L -> Permutation (concat (map snd threads)) Y ->
      (c_size (in_cl Rc t (rt_val A)) <= length x)%nat -> (c_size (out_cl Rc t (rt_val A)) <= length y)%nat ->
      exists y', r_omp_vec B threads t alpha A x beta y = Some y' /\ length y' = length y /\
        (forall i, (i < c_size (out_cl Rc t (rt_val A)))%nat ->
          Rabs (get y' i - exact_row (rt_val A) (value L Y sy) t alpha beta x y i) <=
          gam u (1 + 2 * length threads + row_cost t L Y (c_off (out_cl Rc t (rt_val A)) + i)) * abs_row (rt_val A) (abs_value L Y) t alpha beta x y i) /\
        (forall p, (c_size (out_cl Rc t (rt_val A)) <= p)%nat -> get y' p = get y p).
Proof.
  intros u B A L Y sy HB HA W t Hc threads alpha beta x y P1 P2 Hx Hy.
  destruct (omp_round u B HB (rt_val A) L Y sy W t Hc A threads alpha beta x y eq_refl P1 P2 Hx Hy) as (y' & E1 & E2 & E3 & E4).
  exists y'. split; [exact E1|]. split; [exact E2|]. split; [|exact E4]. intros i Hi. rewrite <- Nat.add_assoc. apply (E3 i Hi).
Qed.
Print Assumptions C86_every_schedule.

(** The sequential product. *)
Theorem C86_sequential :
  forall u B (A : hmat Rc) L Y sy, accurate_blas u B ->
    hleaves Rc A = Some (L, Y) -> well_formed (rt_val A) L Y sy ->
    forall t, compat Rc t sy ->
    forall alpha beta x y,
      (c_size (in_cl Rc t (rt_val A)) <= length x)%nat -> (c_size (out_cl Rc t (rt_val A)) <= length y)%nat ->
      exists y', r_seq_vec B t alpha A x beta y = Some y' /\ length y' = length y /\
        (forall i, (i < c_size (out_cl Rc t (rt_val A)))%nat ->
          Rabs (get y' i - exact_row (rt_val A) (value L Y sy) t alpha beta x y i) <=
          gam u (1 + row_cost t L Y (c_off (out_cl Rc t (rt_val A)) + i)) * abs_row (rt_val A) (abs_value L Y) t alpha beta x y i) /\
        (forall p, (c_size (out_cl Rc t (rt_val A)) <= p)%nat -> get y' p = get y p).
Proof.
  intros u B A L Y sy HB HA W t Hc alpha beta x y Hx Hy.
  destruct (seq_round u B HB (rt_val A) L Y sy W t Hc A alpha beta x y eq_refl HA Hx Hy) as (y' & E1 & E2 & E3 & E4).
  exists y'. split; [exact E1|]. split; [exact E2|]. split; [|exact E4]. intros i Hi. apply (E3 i Hi).
Qed.
Print Assumptions C86_sequential.

(** Two runs, with any two numbers of threads and schedules, differ at most by the sum of the two bounds. *)
Theorem C86_two_runs :
  forall u B (A : hmat Rc) L Y sy, accurate_blas u B ->
    hleaves Rc A = Some (L, Y) -> well_formed (rt_val A) L Y sy ->
    forall t, compat Rc t sy ->
    forall threads1 threads2 alpha beta x y y1 y2,
      Permutation (concat (map fst threads1)) L -> Permutation (concat (map snd threads1)) Y ->
      Permutation (concat (map fst threads2)) L -> Permutation (concat (map snd threads2)) Y ->
      (c_size (in_cl Rc t (rt_val A)) <= length x)%nat -> (c_size (out_cl Rc t (rt_val A)) <= length y)%nat ->
      r_omp_vec B threads1 t alpha A x beta y = Some y1 -> r_omp_vec B threads2 t alpha A x beta y = Some y2 ->
      forall i, (i < c_size (out_cl Rc t (rt_val A)))%nat ->
        Rabs (get y1 i - get y2 i) <=
        2 * gam u (1 + 2 * Nat.max (length threads1) (length threads2) + row_cost t L Y (c_off (out_cl Rc t (rt_val A)) + i)) * abs_row (rt_val A) (abs_value L Y) t alpha beta x y i.
Proof.
  intros u B A L Y sy HB HA W t Hc th1 th2 alpha beta x y y1 y2 P1 P2 P3 P4 Hx Hy R1 R2 i Hi.
  destruct (omp_round u B HB (rt_val A) L Y sy W t Hc A th1 alpha beta x y eq_refl P1 P2 Hx Hy) as (z1 & E1 & _ & E3 & _).
  destruct (omp_round u B HB (rt_val A) L Y sy W t Hc A th2 alpha beta x y eq_refl P3 P4 Hx Hy) as (z2 & F1 & _ & F3 & _).
  rewrite R1 in E1. injection E1 as <-. rewrite R2 in F1. injection F1 as <-.
  pose proof (ab_u u B HB) as Hu. specialize (E3 i Hi). specialize (F3 i Hi).
  apply (near_mono u Hu _ (1 + 2 * Nat.max (length th1) (length th2) + row_cost t L Y (c_off (out_cl Rc t (rt_val A)) + i))) in E3; [|lia].
  apply (near_mono u Hu _ (1 + 2 * Nat.max (length th1) (length th2) + row_cost t L Y (c_off (out_cl Rc t (rt_val A)) + i))) in F3; [|lia].
  destruct E3 as [E3 _]. destruct F3 as [F3 _].
  set (S := exact_row (rt_val A) (value L Y sy) t alpha beta x y i) in *.
  replace (get y1 i - get y2 i) with ((get y1 i - S) - (get y2 i - S)) by ring.
  pose proof (Rabs_triang (get y1 i - S) (- (get y2 i - S))) as Q. rewrite Rabs_Ropp in Q. unfold Rminus at 1. lra.
Qed.
Print Assumptions C86_two_runs.

(** The usual form of the constant. *)
Theorem C86_constant : forall u k, 0 <= u -> INR k * u < 1 -> gam u k <= INR k * u / (1 - INR k * u).
Proof. exact gam_bound. Qed.
Print Assumptions C86_constant.

(** The reference loops with any rounding of relative error u are accurate; without rounding, the products are those of HMatModel.v. *)
Theorem C86_reference_blas : forall u rnd, 0 <= u -> (forall x, Rabs (rnd x - x) <= u * Rabs x) -> accurate_blas u (ref_blas rnd).
Proof. exact ref_accurate. Qed.
Print Assumptions C86_reference_blas.
Theorem C86_exact_arithmetic : forall t alpha A x beta y,
  (forall threads, r_omp_vec exact_blas threads t alpha A x beta y = omp_vec Rc threads t alpha A x beta y) /\
  r_seq_vec exact_blas t alpha A x beta y = seq_vec Rc t alpha A x beta y.
Proof. intros. split; [intros; apply exact_omp|apply exact_seq]. Qed.
Print Assumptions C86_exact_arithmetic.

(** *** A symmetric matrix of size 2, [[1, -1], [-1, 1]]: two dense diagonal blocks, one compressed block, and its mirror image. *)
Definition ex_ct (o n : nat) : ctree := CNode (mkCinfo (-1) o n 0 0 []) [].
Definition ex_d (o : nat) (v : R) : hinfo Rc := mkHinfo Rc (ex_ct o 1) (ex_ct o 1) SyS UpL (DDense (mkMat (K:=Rc) 1 1 [v])) SyN UpN.
Definition ex_lr : hinfo Rc := mkHinfo Rc (ex_ct 1 1) (ex_ct 0 1) SyN UpN (DLow (mkLrm (mkMat (K:=Rc) 1 1 [1]) (mkMat (K:=Rc) 1 1 [-1]))) SyN UpN.
Definition ex_root : hinfo Rc := mkHinfo Rc (ex_ct 0 2) (ex_ct 0 2) SyS UpL DNone SyS UpL.
Definition exR : hmat Rc := RNode ex_root [RNode (ex_d 0 1) []; RNode ex_lr []; RNode (ex_d 1 1) []].
Definition exL : list (hinfo Rc) := [ex_d 1 1; ex_lr; ex_d 0 1].
Example exR_leaves : hleaves Rc exR = Some (exL, [ex_lr]).
Proof. reflexivity. Qed.
Example exR_well_formed : well_formed (rt_val exR) exL [ex_lr] SyS.
Proof.
  constructor.
  - intros h [<-|[<-|[<-|[]]]]; (split; [|tauto]); (split; [cbn; lia|]); (split; [cbn; lia|]); cbn.
    + split; [repeat split; reflexivity|]. split; [reflexivity|]. discriminate.
    + repeat split; reflexivity.
    + split; [repeat split; reflexivity|]. split; [reflexivity|]. discriminate.
  - intros h [<-|[<-|[<-|[]]]]; split; reflexivity.
  - intros h [<-|[]]. split; [right; left; reflexivity|split; reflexivity].
  - intros _. split; [reflexivity|discriminate].
  - intros i j Hi Hj. cbn in Hi, Hj. destruct i as [|[|i]]; [| |discriminate]; (destruct j as [|[|j]]; [| |discriminate]); reflexivity.
Qed.
Example ex_one : forall t, compat Rc t SyS.
Proof. intros t. right. reflexivity. Qed.

(** A rounding that doubles every number (u = 1), with which the results can be computed by hand. *)
Definition dbl (x : R) : R := 2 * x.
Lemma dbl_ok : forall x, Rabs (dbl x - x) <= 1 * Rabs x.
Proof. intros x. unfold dbl. replace (2 * x - x) with x by ring. lra. Qed.
Lemma Reqb11 : R_eqb 1 1 = true.
Proof. destruct (R_eqb_spec 1 1); [reflexivity|congruence]. Qed.

(** The rounded product (1,1) on two threads. *)
Definition exT1 : list (list (hinfo Rc) * list (hinfo Rc)) := [([ex_d 0 1; ex_lr; ex_d 1 1], []); ([], [ex_lr])].
Definition exT2 : list (list (hinfo Rc) * list (hinfo Rc)) := [([ex_d 1 1; ex_lr], [ex_lr]); ([ex_d 0 1], [])].
Example exT_perm : forall T, In T [exT1; exT2] -> Permutation (concat (map fst T)) exL /\ Permutation (concat (map snd T)) [ex_lr].
Proof.
  intros T [<-|[<-|[]]]; cbn; (split; [|reflexivity]); [|reflexivity]. unfold exL.
  apply Permutation_trans with [ex_lr; ex_d 0 1; ex_d 1 1]; [constructor|]. apply Permutation_trans with [ex_lr; ex_d 1 1; ex_d 0 1]; [constructor; constructor|constructor].
Qed.

(** The hypotheses of the theorems hold for it, with two threads. *)
Example ex_C86 : exists y', r_omp_vec (ref_blas dbl) exT1 TrN 1 exR [1; 1] 1 [0; 0] = Some y' /\
  forall i, (i < 2)%nat -> Rabs (get (K := Rc) y' i) <= gam 1 (5 + row_cost TrN exL [ex_lr] i) * 2.
Proof.
  destruct (exT_perm exT1 (or_introl eq_refl)) as [P1 P2].
  destruct (C86_every_schedule 1 (ref_blas dbl) exR exL [ex_lr] SyS (C86_reference_blas 1 dbl Rle_0_1 dbl_ok) exR_leaves exR_well_formed TrN (ex_one TrN)
    exT1 1 1 [1; 1] [0; 0] P1 P2 (le_n 2) (le_n 2)) as (y' & E1 & _ & E3 & _).
  exists y'. split; [exact E1|]. intros i Hi. specialize (E3 i Hi). change (length exT1) with 2%nat in E3.
  change (c_off (out_cl Rc TrN (rt_val exR)) + i)%nat with i in E3.
  assert (X : exact_row (rt_val exR) (value exL [ex_lr] SyS) TrN 1 1 [1; 1] [0; 0] i = 0 /\ abs_row (rt_val exR) (abs_value exL [ex_lr]) TrN 1 1 [1; 1] [0; 0] i = 2).
  { unfold exact_row, abs_row. destruct i as [|[|i]]; [| |lia]; cbn; unfold leaf_abs, low_abs, rsum; cbn; unfold rsum; cbn;
      rewrite ?Rabs_R0, ?Rabs_R1; replace (Rabs (-1)) with 1 by (unfold Rabs; destruct (Rcase_abs (-1)); lra); split; lra. }
  destruct X as [X1 X2]. rewrite X1, X2, Rminus_0_r in E3. exact E3.
Qed.

(** Without exact arithmetic the result depends on the schedule: two distributions of the same leaves give different results. *)
Theorem C86_same_result_refuted :
  exists u B A L Y sy threads1 threads2 alpha beta x y y1 y2,
    accurate_blas u B /\ hleaves Rc A = Some (L, Y) /\ well_formed (rt_val A) L Y sy /\ compat Rc TrN sy /\
    Permutation (concat (map fst threads1)) L /\ Permutation (concat (map snd threads1)) Y /\
    Permutation (concat (map fst threads2)) L /\ Permutation (concat (map snd threads2)) Y /\
    r_omp_vec B threads1 TrN alpha A x beta y = Some y1 /\ r_omp_vec B threads2 TrN alpha A x beta y = Some y2 /\ y1 <> y2.
Proof.
  destruct (exT_perm exT1 (or_introl eq_refl)) as [P1 P2]. destruct (exT_perm exT2 (or_intror (or_introl eq_refl))) as [P3 P4].
  exists 1, (ref_blas dbl), exR, exL, [ex_lr], SyS, exT1, exT2, 1, 1, [1; 1], [0; 0].
  assert (E1 : exists a b c d, r_omp_vec (ref_blas dbl) exT1 TrN 1 exR [1; 1] 1 [0; 0] = Some [a; b] /\ r_omp_vec (ref_blas dbl) exT2 TrN 1 exR [1; 1] 1 [0; 0] = Some [c; d] /\ b <> d).
  { unfold r_omp_vec, r_scale. rewrite Reqb11. cbn. do 4 eexists. split; [reflexivity|]. split; [reflexivity|]. unfold dbl. lra. }
  destruct E1 as (a & b & c & d & E1 & E2 & E3). exists [a; b], [c; d].
  split; [exact (C86_reference_blas 1 dbl Rle_0_1 dbl_ok)|]. split; [exact exR_leaves|]. split; [exact exR_well_formed|]. split; [exact (ex_one TrN)|].
  repeat (split; [assumption|]). intros E. injection E as Ea Eb. contradiction.
Qed.
Print Assumptions C86_same_result_refuted.

(** The error is not small relative to the result: a coefficient that is 0 may be computed as something else. *)
Theorem C86_relative_error_refuted :
  exists u B A L Y sy alpha beta x y y1,
    accurate_blas u B /\ hleaves Rc A = Some (L, Y) /\ well_formed (rt_val A) L Y sy /\ compat Rc TrN sy /\
    r_seq_vec B TrN alpha A x beta y = Some y1 /\ exact_row (rt_val A) (value L Y sy) TrN alpha beta x y 1 = 0 /\ get y1 1 <> 0.
Proof.
  exists 1, (ref_blas dbl), exR, exL, [ex_lr], SyS, 1, 1, [1; 1], [0; 0].
  assert (E1 : exists a b, r_seq_vec (ref_blas dbl) TrN 1 exR [1; 1] 1 [0; 0] = Some [a; b] /\ b <> 0).
  { unfold r_seq_vec. rewrite exR_leaves. unfold r_scale. rewrite Reqb11. cbn. do 2 eexists. split; [reflexivity|]. unfold dbl. lra. }
  destruct E1 as (a & b & E1 & E2). exists [a; b].
  split; [exact (C86_reference_blas 1 dbl Rle_0_1 dbl_ok)|]. split; [exact exR_leaves|]. split; [exact exR_well_formed|]. split; [exact (ex_one TrN)|].
  split; [exact E1|]. split; [|exact E2]. unfold exact_row. cbn. unfold rsum. cbn. lra.
Qed.
Print Assumptions C86_relative_error_refuted.
