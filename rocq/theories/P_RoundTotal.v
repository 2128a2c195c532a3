(** * Property C87: the whole error of the product of a built matrix and a vector, compression and rounding together.

    Vocabulary: AccSpec.v ([fnorm], [vnorm], [accurate], [build_inputs]: as in C67), RoundModel.v and RoundSpec.v ([r_omp_vec], [accurate_blas], [row_cost], [abs_value],
    [abs_row]: as in C86).  Real coefficients; the compression itself is exact arithmetic. *)

From Coq Require Import List Arith ZArith Bool Lia Ring Reals Lra Permutation.
From Verif Require Import ClusterModel ClusterSpec IOModel BlockModel BlockSpec P_Block Algebra Field BlasModel HMatModel HMatSpec HMatBuild P_HMat
  RealNum CompModel CompReal CompSpec CompProofs CompSVD P_Comp P_Recomp AccSpec AccProofs TruncProofs P_Acc RoundModel RoundSpec RoundProofs RoundLoops RoundRef P_Round.
Import ListNotations.
Local Open Scope R_scope.

Lemma rsum_is_sum : forall n (f : nat -> R), rsum n f = sum (K := Rc) n f.
Proof. reflexivity. Qed.
Lemma vnorm_fnorm : forall n (f : nat -> R), vnorm (K := Rc) Rabs n f = fnorm (K := Rc) Rabs n 1 (fun i _ => f i).
Proof. intros n f. unfold vnorm, fnorm. f_equal. apply rsum_ext. intros i _. cbn [rsum seq map fold_right]. unfold rsum. cbn. lra. Qed.
Lemma vnorm_triangle : forall n (f g h : nat -> R), (forall i, (i < n)%nat -> h i = f i + g i) -> vnorm (K := Rc) Rabs n h <= vnorm (K := Rc) Rabs n f + vnorm (K := Rc) Rabs n g.
Proof. intros n f g h H. rewrite !vnorm_fnorm. apply (fnorm_triangle Rc Rabs C67_modulus_real). intros i j Hi _. apply H, Hi. Qed.
Lemma vnorm_le : forall n (f g : nat -> R) a, 0 <= a -> (forall i, (i < n)%nat -> Rabs (f i) <= a * Rabs (g i)) -> vnorm (K := Rc) Rabs n f <= a * vnorm (K := Rc) Rabs n g.
Proof.
  intros n f g a Ha H. unfold vnorm. rewrite <- (sqrt_square a) at 1 by exact Ha. rewrite <- sqrt_mult; [|nra|apply rsum_nonneg; intros; pose proof (Rabs_pos (g i)); nra].
  apply sqrt_le_1_alt. rewrite <- rsum_scal. apply rsum_le. intros i Hi. specialize (H i Hi). pose proof (Rabs_pos (f i)). pose proof (Rabs_pos (g i)).
  assert (0 <= a * Rabs (g i)) by (apply Rmult_le_pos; assumption). replace (a * a * (Rabs (g i) * Rabs (g i))) with ((a * Rabs (g i)) * (a * Rabs (g i))) by ring.
  apply Rmult_le_compat; assumption.
Qed.

Section OneProduct.
  Variables (gen : nat -> nat -> R) (A : hmat Rc) (L Y : list (hinfo Rc)) (sy : symc) (b u : R).
  Hypothesis H1 : hleaves Rc A = Some (L, Y).
  Hypothesis H2 : well_formed (rt_val A) L Y sy.
  Hypothesis H3 : fnorm (K := Rc) Rabs (c_size (h_t (rt_val A))) (c_size (h_s (rt_val A))) (block_at (fun i j => csub Rc (value L Y sy i j) (gen i j)) (h_t (rt_val A)) (h_s (rt_val A))) <= b.
  Hypothesis Hu : 0 <= u.
  Lemma total_of_rows : forall t (alpha beta : R) (x y y' : vec) (n : nat -> nat) (N : nat), compat Rc t sy ->
    let out := if is_N t then h_t (rt_val A) else h_s (rt_val A) in
    let inn := if is_N t then h_s (rt_val A) else h_t (rt_val A) in
    (c_size inn <= length x)%nat -> (c_size out <= length y)%nat ->
    (forall i, (i < c_size out)%nat -> near u (n i) (get y' i) (exact_row (rt_val A) (value L Y sy) t alpha beta x y i) (abs_row (rt_val A) (abs_value L Y) t alpha beta x y i)) ->
    (forall i, (i < c_size out)%nat -> (n i <= N)%nat) ->
    vnorm (K := Rc) Rabs (c_size out) (fun i => get y' i - (beta * get y i + alpha * rsum (c_size inn) (fun j => op_fun (K := Rc) t gen (c_off out + i) (c_off inn + j) * get x j)))
    <= Rabs alpha * b * vnorm (K := Rc) Rabs (c_size inn) (fun j => get x j)
       + gam u N * vnorm (K := Rc) Rabs (c_size out) (fun i => abs_row (rt_val A) (abs_value L Y) t alpha beta x y i).
  Proof.
    intros t alpha beta x y y' n N Hc out inn Hx Hy E2 HN.
    destruct (C20_schedule_independent Rc A L Y sy H1 H2 t alpha beta x y Hc Hx Hy) as (y0 & _ & F & _).
    pose proof (from_product Rc Rabs C67_modulus_real (rt_val A) (value L Y sy) gen t 1 alpha beta x y y0 _ (le_n 1) H3 F 0%nat (le_n 1)) as Q. cbv zeta in Q. fold out inn in Q.
    destruct F as (_ & F & _). fold out inn in F.
    assert (N1 : forall i, (i * 1 + 0)%nat = i) by (intros; lia).
    set (ex := fun i => beta * get y i + alpha * rsum (c_size inn) (fun j => op_fun (K := Rc) t gen (c_off out + i) (c_off inn + j) * get x j)).
    eapply Rle_trans; [apply (vnorm_triangle (c_size out) (fun i => get y0 i - ex i) (fun i => get y' i - get y0 i)); intros i _; unfold ex; ring|].
    apply Rplus_le_compat.
    - eapply Rle_trans; [|eapply Rle_trans; [exact Q|]].
      + right. unfold vnorm. f_equal. apply rsum_ext. intros i Hi. rewrite N1. unfold ex. cbn [csub cadd cmul Rc car].
        assert (X : rsum (c_size inn) (fun j => op_fun (K := Rc) t gen (c_off out + i) (c_off inn + j) * get x j) =
          sum (K := Rc) (c_size inn) (fun j => cmul Rc (op_fun (K := Rc) t gen (c_off out + i) (c_off inn + j)) (get x (j * 1 + 0)))).
        { etransitivity; [|apply rsum_is_sum]. apply rsum_ext. intros j _. rewrite (N1 j). reflexivity. }
        rewrite X. reflexivity.
      + right. f_equal. unfold vnorm. f_equal. apply rsum_ext. intros j _. rewrite N1. reflexivity.
    - assert (G : 0 <= gam u N) by (apply gam_pos; exact Hu).
      apply vnorm_le; [exact G|]. intros i Hi. specialize (E2 i Hi). specialize (HN i Hi).
      assert (X : get y0 i = exact_row (rt_val A) (value L Y sy) t alpha beta x y i).
      { specialize (F i 0%nat Hi (le_n 1)). rewrite N1 in F. rewrite F. unfold exact_row. fold out inn. cbn [cadd cmul Rc car]. f_equal. f_equal.
        etransitivity; [symmetry; apply rsum_is_sum|]. apply rsum_ext. intros j _. rewrite (N1 j). reflexivity. }
      rewrite X. pose proof (near_mono u Hu _ _ _ _ _ HN E2) as NM. pose proof (near_pos _ _ _ _ _ NM) as AP. destruct NM as [E3 _].
      rewrite (Rabs_right _ (Rle_ge _ _ AP)). exact E3.
Qed.
End OneProduct.

(** C87.  For every schedule the computed vector is at most |alpha| (eps ||A||_F + tol sqrt(MN)) ||x|| (compression) plus ((1+u)^N - 1) times the norm of
    |beta| |y| + |alpha| |op(A~)| |x| (rounding) away from beta y + alpha op(gen) x, for any N at least one plus two per thread plus the roundings of the leaves of each row. *)
Theorem C87_every_schedule :
  forall sy B gen compress T S fuel A eps tol u BL, 0 <= eps -> 0 <= tol ->
    build_inputs (K := Rc) sy B gen T S -> compress_ok Rc compress -> accurate (K := Rc) Rabs eps tol gen compress ->
    hbuild Rc sy B gen compress fuel T S = Some A -> accurate_blas u BL ->
    exists L Y, hleaves Rc A = Some (L, Y) /\
    forall t threads alpha beta x y N, compat Rc t sy -> Permutation (concat (map fst threads)) L -> Permutation (concat (map snd threads)) Y ->
      let out := if is_N t then h_t (rt_val A) else h_s (rt_val A) in
      let inn := if is_N t then h_s (rt_val A) else h_t (rt_val A) in
      (c_size inn <= length x)%nat -> (c_size out <= length y)%nat ->
      (forall i, (i < c_size out)%nat -> (1 + 2 * length threads + row_cost t L Y (c_off out + i) <= N)%nat) ->
      exists y', r_omp_vec BL threads t alpha A x beta y = Some y' /\ length y' = length y /\
        (forall p, (c_size out <= p)%nat -> get y' p = get y p) /\
        vnorm (K := Rc) Rabs (c_size out) (fun i => get y' i - (beta * get y i + alpha * rsum (c_size inn) (fun j => op_fun (K := Rc) t gen (c_off out + i) (c_off inn + j) * get x j)))
        <= Rabs alpha * (eps * fnorm (K := Rc) Rabs (c_size (h_t (rt_val A))) (c_size (h_s (rt_val A))) (block_at gen (h_t (rt_val A)) (h_s (rt_val A)))
             + tol * sqrt (INR (c_size (h_t (rt_val A)) * c_size (h_s (rt_val A))))) * vnorm (K := Rc) Rabs (c_size inn) (fun j => get x j)
           + gam u N * vnorm (K := Rc) Rabs (c_size out) (fun i => abs_row (rt_val A) (abs_value L Y) t alpha beta x y i).
Proof.
  intros sy B gen compress T S fuel A eps tol u BL He Ht HI Hco Hac HB HBL.
  destruct (C67_matrix Rc Rabs C67_modulus_real sy B gen compress T S fuel A eps tol He Ht HI Hco Hac HB) as (L & Y & H1 & H2 & H3). cbv zeta in H3.
  exists L, Y. split; [exact H1|]. intros t threads alpha beta x y N Hc P1 P2 out inn Hx Hy HN.
  destruct (omp_round u BL HBL (rt_val A) L Y sy H2 t Hc A threads alpha beta x y eq_refl P1 P2 Hx Hy) as (y' & E & E1 & E2 & E3).
  exists y'. split; [exact E|]. split; [exact E1|]. split; [exact E3|].
  exact (total_of_rows gen A L Y sy _ u H1 H2 H3 (ab_u u BL HBL) t alpha beta x y y' _ N Hc Hx Hy E2 HN).
Qed.
Print Assumptions C87_every_schedule.

(** The sequential product. *)
Theorem C87_sequential :
  forall sy B gen compress T S fuel A eps tol u BL, 0 <= eps -> 0 <= tol ->
    build_inputs (K := Rc) sy B gen T S -> compress_ok Rc compress -> accurate (K := Rc) Rabs eps tol gen compress ->
    hbuild Rc sy B gen compress fuel T S = Some A -> accurate_blas u BL ->
    exists L Y, hleaves Rc A = Some (L, Y) /\
    forall t alpha beta x y N, compat Rc t sy ->
      let out := if is_N t then h_t (rt_val A) else h_s (rt_val A) in
      let inn := if is_N t then h_s (rt_val A) else h_t (rt_val A) in
      (c_size inn <= length x)%nat -> (c_size out <= length y)%nat ->
      (forall i, (i < c_size out)%nat -> (1 + row_cost t L Y (c_off out + i) <= N)%nat) ->
      exists y', r_seq_vec BL t alpha A x beta y = Some y' /\ length y' = length y /\
        (forall p, (c_size out <= p)%nat -> get y' p = get y p) /\
        vnorm (K := Rc) Rabs (c_size out) (fun i => get y' i - (beta * get y i + alpha * rsum (c_size inn) (fun j => op_fun (K := Rc) t gen (c_off out + i) (c_off inn + j) * get x j)))
        <= Rabs alpha * (eps * fnorm (K := Rc) Rabs (c_size (h_t (rt_val A))) (c_size (h_s (rt_val A))) (block_at gen (h_t (rt_val A)) (h_s (rt_val A)))
             + tol * sqrt (INR (c_size (h_t (rt_val A)) * c_size (h_s (rt_val A))))) * vnorm (K := Rc) Rabs (c_size inn) (fun j => get x j)
           + gam u N * vnorm (K := Rc) Rabs (c_size out) (fun i => abs_row (rt_val A) (abs_value L Y) t alpha beta x y i).
Proof.
  intros sy B gen compress T S fuel A eps tol u BL He Ht HI Hco Hac HB HBL.
  destruct (C67_matrix Rc Rabs C67_modulus_real sy B gen compress T S fuel A eps tol He Ht HI Hco Hac HB) as (L & Y & H1 & H2 & H3). cbv zeta in H3.
  exists L, Y. split; [exact H1|]. intros t alpha beta x y N Hc out inn Hx Hy HN.
  destruct (seq_round u BL HBL (rt_val A) L Y sy H2 t Hc A alpha beta x y eq_refl H1 Hx Hy) as (y' & E & E1 & E2 & E3).
  exists y'. split; [exact E|]. split; [exact E1|]. split; [exact E3|].
  exact (total_of_rows gen A L Y sy _ u H1 H2 H3 (ab_u u BL HBL) t alpha beta x y y' _ N Hc Hx Hy E2 HN).
Qed.
Print Assumptions C87_sequential.

(** End to end: truncated SVD of relative tolerance eps (LAPACK as documented), every schedule. *)
Theorem C87_svd : forall eps gen d sy B T S fuel A u BL, 0 <= eps ->
  (forall t s, (1 <= c_size t)%nat -> (1 <= c_size s)%nat -> is_svd (X := Rn) (sv_u Rn (d t s)) (sv_s Rn (d t s)) (sv_vt Rn (d t s)) (c_size t) (c_size s) (block_at (K := Rc) gen t s)) ->
  build_inputs (K := Rc) sy B gen T S -> hbuild Rc sy B gen (svd_compress Rn (smallR eps) d) fuel T S = Some A -> accurate_blas u BL ->
  exists L Y, hleaves Rc A = Some (L, Y) /\
  forall t threads alpha beta x y N, compat Rc t sy -> Permutation (concat (map fst threads)) L -> Permutation (concat (map snd threads)) Y ->
    let out := if is_N t then h_t (rt_val A) else h_s (rt_val A) in
    let inn := if is_N t then h_s (rt_val A) else h_t (rt_val A) in
    (c_size inn <= length x)%nat -> (c_size out <= length y)%nat ->
    (forall i, (i < c_size out)%nat -> (1 + 2 * length threads + row_cost t L Y (c_off out + i) <= N)%nat) ->
    exists y', r_omp_vec BL threads t alpha A x beta y = Some y' /\
      vnorm (K := Rc) Rabs (c_size out) (fun i => get y' i - (beta * get y i + alpha * rsum (c_size inn) (fun j => op_fun (K := Rc) t gen (c_off out + i) (c_off inn + j) * get x j)))
      <= Rabs alpha * eps * normR (c_size (h_t (rt_val A))) (c_size (h_s (rt_val A))) (block_at (K := Rc) gen (h_t (rt_val A)) (h_s (rt_val A))) * vnorm (K := Rc) Rabs (c_size inn) (fun j => get x j)
         + gam u N * vnorm (K := Rc) Rabs (c_size out) (fun i => abs_row (rt_val A) (abs_value L Y) t alpha beta x y i).
Proof.
  intros eps gen d sy B T S fuel A u BL He HD HI HB HBL. destruct (C67_svd_real eps gen d He HD) as [G1 G2].
  destruct (C87_every_schedule sy B gen _ T S fuel A eps 0 u BL He (Rle_refl 0) HI G1 G2 HB HBL) as (L & Y & E & Q). exists L, Y. split; [exact E|].
  intros t threads alpha beta x y N Hc P1 P2 out inn Hx Hy HN. destruct (Q t threads alpha beta x y N Hc P1 P2 Hx Hy HN) as (y' & E1 & _ & _ & E2).
  exists y'. split; [exact E1|]. fold out inn in E2. rewrite fnorm_R, Rmult_0_l, Rplus_0_r, <- Rmult_assoc in E2. exact E2.
Qed.
Print Assumptions C87_svd.

(** ** Example: the matrix of order 23 of C67, compressed by ACA, every operation of the product returning twice the exact result (u = 1), two threads. *)
Example ex_C87 : exists A L Y y', hbuild Rc SyN (P_Block.exB None None UpN true) acc_gen (full_compress Rn (overR (1 / 1000)) (1 / 10 ^ 15) acc_gen) 200 exT exT = Some A /\
  hleaves Rc A = Some (L, Y) /\
  r_omp_vec (ref_blas dbl) [(L, []); ([], Y)] TrT 2 A (repeat 1 (c_size (h_t (rt_val A)))) (-1) (repeat 1 (c_size (h_s (rt_val A)))) = Some y' /\ length y' = c_size (h_s (rt_val A)).
Proof.
  destruct ex_accuracy as (H1 & (A & HB) & _).
  destruct (C67_full_aca_real (1 / 1000) (1 / 10 ^ 15) acc_gen) as [G1 G2]; [lra|].
  destruct (C87_every_schedule SyN _ acc_gen _ exT exT 200 A (1 / 1000) (1 / 10 ^ 15) 1 (ref_blas dbl) ltac:(lra) ltac:(lra) H1 G1 G2 HB (C86_reference_blas 1 dbl Rle_0_1 dbl_ok)) as (L & Y & E & Q).
  destruct (Q TrT [(L, []); ([], Y)] 2 (-1) (repeat 1 (c_size (h_t (rt_val A)))) (repeat 1 (c_size (h_s (rt_val A))))
    (1 + 2 * 2 + list_max (map (fun i => row_cost TrT L Y (c_off (h_s (rt_val A)) + i)) (seq 0 (c_size (h_s (rt_val A))))))%nat) as (y' & E1 & E2 & _).
  - exact I.
  - cbn. rewrite app_nil_r. reflexivity.
  - cbn. rewrite app_nil_r. reflexivity.
  - cbn [is_N]. rewrite repeat_length. lia.
  - cbn [is_N]. rewrite repeat_length. lia.
  - cbn [is_N length]. intros i Hi. apply Nat.add_le_mono_l.
    pose proof (proj1 (list_max_le (map (fun i => row_cost TrT L Y (c_off (h_s (rt_val A)) + i)) (seq 0 (c_size (h_s (rt_val A))))) _) (Nat.le_refl _)) as F. rewrite Forall_forall in F.
    apply F, in_map_iff. exists i. split; [reflexivity|]. apply in_seq. lia.
  - exists A, L, Y, y'. rewrite repeat_length in E2. auto.
Qed.
