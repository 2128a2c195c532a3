(** * Property C67: epsilon controls the error of the whole hierarchical matrix.

    Vocabulary: AccSpec.v ([fnorm], [vnorm]: Frobenius and Euclidean norms for a modulus; [accurate]: the contract of the low-rank generator, block
    by block; [build_inputs]: the cases of HMatrixTreeBuilder; [block_at]), HMatSpec.v ([value L Y sy]: the represented matrix).  Exact arithmetic. *)

From Coq Require Import List Arith ZArith Bool Lia Ring Reals Lra.
From Verif Require Import ClusterModel ClusterSpec IOModel BlockModel BlockSpec P_Block Algebra Field BlasModel HMatModel HMatSpec HMatBuild P_HMat
  RealNum CompModel CompReal CompSpec CompProofs CompSVD P_Comp P_Recomp AccSpec AccProofs.
Import ListNotations.
Local Open Scope R_scope.

(** std::abs. *)
Theorem C67_modulus_real : modulus Rc Rabs.
Proof.
  constructor; cbn.
  - apply Rabs_R0.
  - apply Rabs_pos.
  - apply Rabs_mult.
  - apply Rabs_triang.
  - reflexivity.
Qed.
Lemma Cmod_mul : forall x y, Cmod (Cmul x y) = Cmod x * Cmod y.
Proof. intros [a b] [c d]. unfold Cmod, Cmul. cbn [fst snd]. rewrite <- sqrt_mult by nra. f_equal. ring. Qed.
Lemma Cmod_add : forall x y, Cmod (Cadd x y) <= Cmod x + Cmod y.
Proof.
  intros [a b] [c d]. unfold Cmod, Cadd. cbn [fst snd]. set (p := a * a + b * b). set (q := c * c + d * d).
  assert (P : 0 <= p) by (unfold p; nra). assert (Q : 0 <= q) by (unfold q; nra). pose proof (sqrt_pos p). pose proof (sqrt_pos q).
  pose proof (sqrt_sqrt p P) as Sp. pose proof (sqrt_sqrt q Q) as Sq.
  rewrite <- (sqrt_square (sqrt p + sqrt q)) by lra. pose proof (fun z => Rle_0_sqr z) as SQ. unfold Rsqr in SQ. apply sqrt_le_1; [pose proof (SQ (a + c)); pose proof (SQ (b + d)); lra|apply SQ|].
  assert (CS : a * c + b * d <= sqrt p * sqrt q).
  { rewrite <- sqrt_mult by assumption. apply Rle_trans with (sqrt ((a * c + b * d) * (a * c + b * d))).
    - destruct (Rle_lt_dec 0 (a * c + b * d)) as [H1|H1]; [rewrite sqrt_square by exact H1; lra|]. pose proof (sqrt_pos ((a * c + b * d) * (a * c + b * d))). lra.
    - apply sqrt_le_1; [apply SQ|apply Rmult_le_pos; assumption|]. unfold p, q. pose proof (SQ (a * d - b * c)). nra. }
  unfold p, q in *. nra.
Qed.
Theorem C67_modulus_complex : modulus Cc Cmod.
Proof.
  constructor; cbn.
  - unfold Cmod. cbn. rewrite Rmult_0_l, Rplus_0_l. apply sqrt_0.
  - intros x. apply sqrt_pos.
  - apply Cmod_mul.
  - apply Cmod_add.
  - intros [a b]. unfold Cmod, Cconj. cbn. f_equal. ring.
Qed.
Print Assumptions C67_modulus_complex.

Section Main.
  Variable K : Coef.
  Variable md : car K -> R.
  Hypothesis MD : modulus K md.
  Notation C := (car K).
  Add Ring KrP : (c_ring K).

  Lemma built_accurate : forall sy B gen compress T S fuel A eps tol, 0 <= eps -> 0 <= tol -> build_inputs sy B gen T S -> compress_ok K compress ->
    accurate md eps tol gen compress -> hbuild K sy B gen compress fuel T S = Some A ->
    exists L Y, hleaves K A = Some (L, Y) /\ well_formed (rt_val A) L Y sy /\ data_on_leaves A /\
      (sy = SyN \/ forall i j, gen j i = flip sy (gen i j)) /\
      fnorm md (c_size (h_t (rt_val A))) (c_size (h_s (rt_val A))) (block_at (fun i j => csub K (value L Y sy i j) (gen i j)) (h_t (rt_val A)) (h_s (rt_val A))) <=
        allowed md eps tol (c_size (h_t (rt_val A))) (c_size (h_s (rt_val A))) (block_at gen (h_t (rt_val A)) (h_s (rt_val A))).
  Proof.
    intros sy B gen compress T S fuel A eps tol He Ht HI Hco Hac HB. unfold hbuild in HB.
    destruct (build_root B fuel T S) as [root|] eqn:E; [|discriminate]. injection HB as <-.
    assert (G : forall L Y, well_formed (rt_val (hfill K sy B gen compress root)) L Y sy -> (sy = SyN \/ forall i j, gen j i = flip sy (gen i j)) ->
      (forall h, In h L -> exists x, h = hleaf K sy B gen compress x /\ b_task x <> None /\ b_sym x = has_sym B (b_t x) (b_s x) /\ (b_sym x = true -> sy <> SyN)) ->
      fnorm md (c_size (h_t (rt_val (hfill K sy B gen compress root)))) (c_size (h_s (rt_val (hfill K sy B gen compress root))))
        (block_at (fun i j => csub K (value L Y sy i j) (gen i j)) (h_t (rt_val (hfill K sy B gen compress root))) (h_s (rt_val (hfill K sy B gen compress root)))) <=
        allowed md eps tol (c_size (h_t (rt_val (hfill K sy B gen compress root)))) (c_size (h_s (rt_val (hfill K sy B gen compress root))))
          (block_at gen (h_t (rt_val (hfill K sy B gen compress root))) (h_s (rt_val (hfill K sy B gen compress root))))).
    { intros L Y W Hg HL. apply (matrix_bound K md MD); try assumption. intros h Hh. destruct (HL h Hh) as (x & Eh & Q1 & Q2 & Q3).
      destruct (wf_leaves _ _ _ _ _ W h Hh) as [(S1 & S2 & _) _]. rewrite Eh in *. cbn [hleaf h_t h_s] in S1, S2.
      apply (leaf_bound K md MD); try assumption.
      - intros Q. destruct Hg as [->|Hg]; [destruct (Q3 Q eq_refl)|exact Hg].
      - intros Q. rewrite Q2 in Q. unfold has_sym in Q. destruct (bb_uplo B); [discriminate| |];
          apply andb_true_iff in Q; destruct Q as [Qa Qb]; apply Nat.eqb_eq in Qa, Qb; auto. }
    destruct HI as [Esy HN HT HS NT NS HV|R Hsy Hg HU ES HT HP NT HC HR].
    - destruct (nosym_built K sy B gen compress Hco (fun q => ltac:(congruence)) T S fuel root Esy HN HT HS NT NS HV E) as (L & H1 & H2 & H3 & H4 & H5 & H6).
      exists L, []. rewrite Esy in H2. rewrite <- Esy in H2 at 1. split; [exact H1|]. rewrite Esy in *. split; [exact H2|]. split; [exact H6|]. split; [left; reflexivity|].
      apply G; [exact H2|left; reflexivity|]. intros h Hh. destruct (H5 h Hh) as (x & E1 & _ & E2 & E3 & E4). exists x. auto.
    - rewrite ES in *. assert (Hgo : gen_ok K sy gen). { intros Eh i. rewrite (Hg i i) at 2. rewrite Eh. reflexivity. }
      destruct (sym_built K sy B gen compress Hco Hgo T R fuel root Hsy HU HT HP NT HC HR E) as (L & Y & H1 & H2 & H3 & H4 & H5 & H6).
      exists L, Y. split; [exact H1|]. split; [exact H2|]. split; [exact H6|]. split; [right; exact Hg|].
      apply G; [exact H2|right; exact Hg|]. intros h Hh. destruct (H5 h Hh) as (x & E1 & _ & E2 & E3 & E4). exists x. auto.
  Qed.

  (** The matrix: relative error epsilon in the Frobenius norm, plus the absolute tolerance of the generator. *)
  Theorem C67_matrix : forall sy B gen compress T S fuel A eps tol, 0 <= eps -> 0 <= tol -> build_inputs sy B gen T S -> compress_ok K compress ->
    accurate md eps tol gen compress -> hbuild K sy B gen compress fuel T S = Some A ->
    exists L Y, hleaves K A = Some (L, Y) /\ well_formed (rt_val A) L Y sy /\
      let R := h_t (rt_val A) in let Q := h_s (rt_val A) in
      fnorm md (c_size R) (c_size Q) (block_at (fun i j => csub K (value L Y sy i j) (gen i j)) R Q) <=
        eps * fnorm md (c_size R) (c_size Q) (block_at gen R Q) + tol * sqrt (INR (c_size R * c_size Q)).
  Proof.
    intros sy B gen compress T S fuel A eps tol He Ht HI Hco Hac HB.
    destruct (built_accurate sy B gen compress T S fuel A eps tol He Ht HI Hco Hac HB) as (L & Y & H1 & H2 & _ & _ & H3). exists L, Y. auto.
  Qed.

  Lemma from_product : forall (r : hinfo K) V gen t mu alpha beta x y y' b, (1 <= mu)%nat ->
    fnorm md (c_size (h_t r)) (c_size (h_s r)) (block_at (fun i j => csub K (V i j) (gen i j)) (h_t r) (h_s r)) <= b ->
    is_product r V t mu alpha beta x y y' ->
    forall c, (c < mu)%nat ->
    let out := if is_N t then h_t r else h_s r in let inn := if is_N t then h_s r else h_t r in
    vnorm md (c_size out) (fun i => csub K (get y' (i * mu + c)) (cadd K (cmul K beta (get y (i * mu + c)))
      (cmul K alpha (sum (c_size inn) (fun j => cmul K (op_fun t gen (c_off out + i) (c_off inn + j)) (get x (j * mu + c)))))))
      <= md alpha * b * vnorm md (c_size inn) (fun j => get x (j * mu + c)).
  Proof.
    intros r V gen t mu alpha beta x y y' b Hmu Hb (_ & HP & _) c Hc out inn.
    set (E := fun i j => op_fun t (fun i j => csub K (V i j) (gen i j)) (c_off out + i) (c_off inn + j)).
    assert (NE : fnorm md (c_size out) (c_size inn) E <= b).
    { eapply Rle_trans; [|exact Hb]. unfold E, out, inn. destruct t; cbn [is_N op_fun].
      - right. reflexivity.
      - rewrite fnorm_swap. right. reflexivity.
      - rewrite fnorm_swap. right. apply (fnorm_ext K md). intros i j _ _. rewrite (md_conj _ _ MD). reflexivity. }
    assert (EQ : vnorm md (c_size out) (fun i => csub K (get y' (i * mu + c)) (cadd K (cmul K beta (get y (i * mu + c)))
        (cmul K alpha (sum (c_size inn) (fun j => cmul K (op_fun t gen (c_off out + i) (c_off inn + j)) (get x (j * mu + c))))))) =
      vnorm md (c_size out) (fun i => sum (c_size inn) (fun j => cmul K (E i j) (cmul K alpha (get x (j * mu + c)))))).
    { unfold vnorm. f_equal. apply rsum_ext. intros i Hi. fold out inn in HP. rewrite (HP i c Hi Hc).
      replace (csub K _ _) with (sum (c_size inn) (fun j => cmul K (E i j) (cmul K alpha (get x (j * mu + c))))); [reflexivity|].
      transitivity (cmul K alpha (csub K (sum (c_size inn) (fun j => cmul K (op_fun t V (c_off out + i) (c_off inn + j)) (get x (j * mu + c))))
        (sum (c_size inn) (fun j => cmul K (op_fun t gen (c_off out + i) (c_off inn + j)) (get x (j * mu + c)))))); [|ring].
      rewrite <- sum_sub, <- sum_mul_l. apply sum_ext. intros j Hj. unfold E. destruct t; cbn [op_fun]; [ring|ring|]. rewrite (conj_sub K). ring. }
    rewrite EQ. eapply Rle_trans; [apply (product_bound K md MD)|].
    assert (VX : vnorm md (c_size inn) (fun j => cmul K alpha (get x (j * mu + c))) = md alpha * vnorm md (c_size inn) (fun j => get x (j * mu + c))).
    { unfold vnorm. rewrite <- (sqrt_square (md alpha)) by apply (md_pos _ _ MD). rewrite <- sqrt_mult; [|pose proof (md_pos _ _ MD alpha); nra|apply rsum_nonneg; intros; apply (m2_nonneg K md MD)].
      f_equal. rewrite <- rsum_scal. apply rsum_ext. intros j Hj. rewrite !(md_mul _ _ MD). ring. }
    rewrite VX. pose proof (md_pos _ _ MD alpha). pose proof (sqrt_pos (rsum (c_size inn) (fun j => md (get x (j * mu + c)) * md (get x (j * mu + c))))).
    replace (md alpha * b * vnorm md (c_size inn) (fun j => get x (j * mu + c))) with (b * (md alpha * vnorm md (c_size inn) (fun j => get x (j * mu + c)))) by ring.
    apply Rmult_le_compat_r; [|exact NE]. apply Rmult_le_pos; [assumption|unfold vnorm; assumption].
  Qed.

  (** The products, for each of the mu vectors and N, T, C. *)
  Theorem C67_product : forall sy B gen compress T S fuel A eps tol, 0 <= eps -> 0 <= tol -> build_inputs sy B gen T S -> compress_ok K compress ->
    accurate md eps tol gen compress -> hbuild K sy B gen compress fuel T S = Some A ->
    forall t mu alpha beta x y, (1 <= mu)%nat -> compat K t sy -> not_rank_0 beta A ->
      let out := if is_N t then h_t (rt_val A) else h_s (rt_val A) in
      let inn := if is_N t then h_s (rt_val A) else h_t (rt_val A) in
      (c_size inn * mu <= length x)%nat -> (c_size out * mu <= length y)%nat ->
      exists y', add_hmatrix_matrix_product_row_major K t alpha A x beta y mu = Some y' /\
        forall c, (c < mu)%nat ->
        vnorm md (c_size out) (fun i => csub K (get y' (i * mu + c)) (cadd K (cmul K beta (get y (i * mu + c)))
          (cmul K alpha (sum (c_size inn) (fun j => cmul K (op_fun t gen (c_off out + i) (c_off inn + j)) (get x (j * mu + c)))))))
        <= md alpha * (eps * fnorm md (c_size (h_t (rt_val A))) (c_size (h_s (rt_val A))) (block_at gen (h_t (rt_val A)) (h_s (rt_val A)))
             + tol * sqrt (INR (c_size (h_t (rt_val A)) * c_size (h_s (rt_val A))))) * vnorm md (c_size inn) (fun j => get x (j * mu + c)).
  Proof.
    intros sy B gen compress T S fuel A eps tol He Ht HI Hco Hac HB t mu alpha beta x y Hmu Hc Hb out inn Hx Hy.
    destruct (built_accurate sy B gen compress T S fuel A eps tol He Ht HI Hco Hac HB) as (L & Y & H1 & H2 & H3 & _ & H4).
    assert (Hx' : (c_size (if is_N t then h_s (rt_val A) else h_t (rt_val A)) * mu <= length x)%nat) by exact Hx.
    destruct (C21_columnwise K A L Y sy H1 H2 H3 t mu alpha beta x y Hmu Hc Hb Hx' Hy) as (y' & E & P & _). exists y'. split; [exact E|].
    intros c Hcm. exact (from_product (rt_val A) _ gen t mu alpha beta x y y' _ Hmu H4 P c Hcm).
  Qed.
  Theorem C67_vector_product : forall sy B gen compress T S fuel A eps tol, 0 <= eps -> 0 <= tol -> build_inputs sy B gen T S -> compress_ok K compress ->
    accurate md eps tol gen compress -> hbuild K sy B gen compress fuel T S = Some A ->
    forall t alpha beta x y, compat K t sy -> not_rank_0 beta A ->
      let out := if is_N t then h_t (rt_val A) else h_s (rt_val A) in
      let inn := if is_N t then h_s (rt_val A) else h_t (rt_val A) in
      (c_size inn <= length x)%nat -> (c_size out <= length y)%nat ->
      exists y', add_hmatrix_vector_product K t alpha A x beta y = Some y' /\
        vnorm md (c_size out) (fun i => csub K (get y' i) (cadd K (cmul K beta (get y i))
          (cmul K alpha (sum (c_size inn) (fun j => cmul K (op_fun t gen (c_off out + i) (c_off inn + j)) (get x j))))))
        <= md alpha * (eps * fnorm md (c_size (h_t (rt_val A))) (c_size (h_s (rt_val A))) (block_at gen (h_t (rt_val A)) (h_s (rt_val A)))
             + tol * sqrt (INR (c_size (h_t (rt_val A)) * c_size (h_s (rt_val A))))) * vnorm md (c_size inn) (fun j => get x j).
  Proof.
    intros sy B gen compress T S fuel A eps tol He Ht HI Hco Hac HB t alpha beta x y Hc Hb out inn Hx Hy.
    destruct (built_accurate sy B gen compress T S fuel A eps tol He Ht HI Hco Hac HB) as (L & Y & H1 & H2 & H3 & _ & H4).
    destruct (C19_symmetric_product K A L Y sy H1 H2 H3 t alpha beta x y Hc Hb Hx Hy) as (y' & E & P). exists y'. split; [exact E|].
    pose proof (from_product (rt_val A) _ gen t 1 alpha beta x y y' _ (le_n 1) H4 P 0%nat (le_n 1)) as Q. cbv zeta in Q. fold out inn in Q.
    assert (N1 : forall i, (i * 1 + 0)%nat = i) by (intros; lia).
    assert (V1 : forall n (f g : nat -> C), (forall i, f i = g i) -> vnorm md n f = vnorm md n g) by (intros n f g H; unfold vnorm; f_equal; apply rsum_ext; intros; rewrite H; reflexivity).
    rewrite (V1 (c_size inn) (fun j => get x (j * 1 + 0)) (fun j => get x j)) in Q by (intros; rewrite N1; reflexivity).
    eapply Rle_trans; [|exact Q]. right. apply V1. intros i. rewrite N1. do 3 f_equal. apply sum_ext. intros j Hj. rewrite N1. reflexivity.
  Qed.
End Main.
Print Assumptions C67_matrix.
Print Assumptions C67_product.
Print Assumptions C67_vector_product.

(** ** The generators *)
Section Generators.
  (** The block compressed by a truncated SVD, [d]: what LAPACK returns for each block; a block that is given up has no factors. *)
  Definition svd_compress (X : Num) (small : car (fk (nfd X)) -> car (fk (nfd X)) -> bool) (d : ctree -> ctree -> svd3 X) (t s : ctree) : lrm (fk (nfd X)) :=
    match svd_generator X small (c_size t) (c_size s) (d t s) (-1) with Some L => L | None => empty_lrm X end.
  Definition full_compress (X : Num) (over : car (fk (nfd X)) -> car (fk (nfd X)) -> bool) (tol : car (fk (nfd X))) (gen : nat -> nat -> car (fk (nfd X))) (t s : ctree) : lrm (fk (nfd X)) :=
    match full_aca X over tol (c_size t) (c_size s) (block_at gen t s) (-1) with Some (_, L) => L | None => empty_lrm X end.

  Lemma svd_auto : forall (X : Num) small d M N A, (1 <= M)%nat -> (1 <= N)%nat -> is_svd (X := X) (sv_u X d) (sv_s X d) (sv_vt X d) M N A ->
    exists L, svd_generator X small M N d (-1) = Some L /\
      (L = empty_lrm X \/ exists r, factors L M N r /\ lrank L = r /\ (r <= length (sv_s X d))%nat /\
         frob2 _ M N (error_of L A) = sum (Nat.min M N - r) (fun k => cmul _ (get (sv_s X d) (r + k)) (get (sv_s X d) (r + k))) /\
         small (tail2 X (sv_s X d) r) (frob2 _ M N A) = true).
  Proof.
    intros X small d M N A HM HN D. pose proof (sd_len _ _ _ _ _ _ _ D) as Ls. unfold svd_generator.
    destruct (truncation_ok X small (sv_s X d)) as (tr & E & T1 & T2 & _); [lia|]. rewrite E. change (-1 =? -1)%Z with true. cbv iota. eexists. split; [reflexivity|]. cbv zeta.
    destruct (Nat.ltb_spec (M * N) (tr * (M + N))) as [H|H]; [left; reflexivity|]. right.
    destruct (Z.ltb_spec 0 (Z.of_nat tr)) as [H0|H0]; [|lia]. rewrite Nat2Z.id. exists tr.
    destruct (svd_factors X d M N A tr D ltac:(lia)) as (F1 & F2 & F3 & F4). split; [exact F1|]. split; [exact F2|]. split; [lia|]. split; [exact F3|].
    destruct T2 as [T2|T2]; [exfalso; rewrite T2, Ls in H; nia|]. rewrite F4, <- Ls. exact T2.
  Qed.
  Lemma svd_compress_ok : forall (X : Num) small d, compress_ok (fk (nfd X)) (svd_compress X small d).
  Proof.
    intros X small d t s. unfold svd_compress, svd_generator.
    assert (EW : wf_mat (lU (empty_lrm X)) (mr (lU (empty_lrm X))) (lrank (empty_lrm X)) /\ wf_mat (lV (empty_lrm X)) (lrank (empty_lrm X)) (mc (lV (empty_lrm X)))) by (repeat split).
    destruct (svd_truncation X small (sv_s X (d t s))) as [tr|]; [|exact EW]. destruct (0 <? _)%Z; [|exact EW].
    split; apply of_fun_wf.
  Qed.
  Lemma full_compress_ok : forall (X : Num) over tol gen, compress_ok (fk (nfd X)) (full_compress X over tol gen).
  Proof.
    intros X over tol gen t s. unfold full_compress.
    assert (EW : wf_mat (lU (empty_lrm X)) (mr (lU (empty_lrm X))) (lrank (empty_lrm X)) /\ wf_mat (lV (empty_lrm X)) (lrank (empty_lrm X)) (mc (lV (empty_lrm X)))) by (repeat split).
    destruct (Nat.eq_dec (c_size t + c_size s) 0) as [Z|Z].
    - assert (c_size t = 0%nat) by lia. assert (c_size s = 0%nat) by lia. rewrite H, H0. destruct (full_aca X over tol 0 0 (block_at gen t s) (-1)) as [[r L]|] eqn:E; [|exact EW].
      exfalso. unfold full_aca in E. cbn in E. rewrite Bool.orb_true_r in E. discriminate.
    - destruct (full_aca_ok X over tol (block_at gen t s) (c_size t) (c_size s) (-1)) as (r & L & -> & H); [lia|].
      destruct H as [[_ ->]|(q & m & _ & _ & [F1 F2] & F3 & _)]; [exact EW|]. rewrite F3. destruct F1 as (a1 & a2 & a3). destruct F2 as (b1 & b2 & b3).
      repeat split; congruence.
  Qed.

  Lemma full_compress_eq : forall (X : Num) over tol gen t s r L, full_aca X over tol (c_size t) (c_size s) (block_at gen t s) (-1) = Some (r, L) -> full_compress X over tol gen t s = L.
  Proof. intros X over tol gen t s r L E. unfold full_compress. rewrite E. reflexivity. Qed.

  Lemma sq_abs : forall x, Rabs x * Rabs x = x * x.
  Proof. intros x. rewrite <- Rabs_mult. apply Rabs_right. nra. Qed.
  Lemma fnorm_R : forall M N f, fnorm (K := Rc) Rabs M N f = normR M N f.
  Proof. intros M N f. unfold fnorm, normR. f_equal. apply rsum_ext. intros i _. apply rsum_ext. intros j _. apply sq_abs. Qed.
  Lemma fnorm_C : forall M N f, fnorm (K := Cc) Cmod M N f = normC M N f.
  Proof. reflexivity. Qed.

  (** The contract holds for the truncated SVD, without absolute tolerance. *)
  Theorem C67_svd_real : forall eps (gen : nat -> nat -> R) d, 0 <= eps ->
    (forall t s, (1 <= c_size t)%nat -> (1 <= c_size s)%nat -> is_svd (X := Rn) (sv_u Rn (d t s)) (sv_s Rn (d t s)) (sv_vt Rn (d t s)) (c_size t) (c_size s) (block_at (K := Rc) gen t s)) ->
    compress_ok Rc (svd_compress Rn (smallR eps) d) /\ accurate (K := Rc) Rabs eps 0 gen (svd_compress Rn (smallR eps) d).
  Proof.
    intros eps gen d He HD. split; [apply (svd_compress_ok Rn)|]. intros t s Ht Hs E1 E2. left. rewrite !fnorm_R.
    destruct (svd_auto Rn (smallR eps) (d t s) (c_size t) (c_size s) _ Ht Hs (HD t s Ht Hs)) as (L & E & O).
    unfold svd_compress in *. rewrite E in *. destruct O as [->|(r & _ & _ & Hr & F & S)]; [cbn in E1; lia|].
    assert (T : tail2 Rn (sv_s Rn (d t s)) r = frob2 Rc (c_size t) (c_size s) (error_of (K := Rc) L (block_at (K := Rc) gen t s))).
    { etransitivity; [|symmetry; exact F]. unfold tail2. rewrite (sd_len _ _ _ _ _ _ _ (HD t s Ht Hs)). apply (sum_ext Rc). intros k Hk. apply sq_abs. }
    rewrite T in S. rewrite !frob2_R in S. apply smallR_true in S; [exact S|apply frobR_nonneg].
  Qed.
  Theorem C67_svd_complex : forall eps (gen : nat -> nat -> R * R) d, 0 <= eps ->
    (forall t s, (1 <= c_size t)%nat -> (1 <= c_size s)%nat -> is_svd (X := Cn) (sv_u Cn (d t s)) (sv_s Cn (d t s)) (sv_vt Cn (d t s)) (c_size t) (c_size s) (block_at (K := Cc) gen t s)) ->
    compress_ok Cc (svd_compress Cn (smallC eps) d) /\ accurate (K := Cc) Cmod eps 0 gen (svd_compress Cn (smallC eps) d).
  Proof.
    intros eps gen d He HD. split; [apply (svd_compress_ok Cn)|]. intros t s Ht Hs E1 E2. left. rewrite !fnorm_C.
    destruct (svd_auto Cn (smallC eps) (d t s) (c_size t) (c_size s) _ Ht Hs (HD t s Ht Hs)) as (L & E & O).
    unfold svd_compress in *. rewrite E in *. destruct O as [->|(r & _ & _ & Hr & F & S)]; [cbn in E1; lia|].
    assert (T : tail2 Cn (sv_s Cn (d t s)) r = frob2 Cc (c_size t) (c_size s) (error_of (K := Cc) L (block_at (K := Cc) gen t s))).
    { etransitivity; [|symmetry; exact F]. unfold tail2. rewrite (sd_len _ _ _ _ _ _ _ (HD t s Ht Hs)). apply (sum_ext Cc). intros k Hk.
      pose proof (sd_real _ _ _ _ _ _ _ (HD t s Ht Hs) (r + k)%nat) as Q. destruct (get (K := fk (nfd Cn)) (sv_s Cn (d t s)) (r + k)) as [a b].
      cbn in Q. unfold Cconj in Q. cbn in Q. injection Q as Q. assert (b = 0) by lra. subst b.
      cbn [cmul fk nfd Cn Cf Cc nabs]. unfold Cabs, Cmul. cbn [fst snd]. rewrite Cmod_sq. cbn [fst snd]. apply f_equal2; ring. }
    rewrite T in S. rewrite !frob2_C in S. unfold smallC in S. cbn [fst] in S. apply smallR_true in S; [exact S|].
    apply rsum_nonneg. intros. apply rsum_nonneg. intros. pose proof (sqrt_pos (fst (block_at (K := Cc) gen t s i i0) * fst (block_at (K := Cc) gen t s i i0) + snd (block_at (K := Cc) gen t s i i0) * snd (block_at (K := Cc) gen t s i i0))). fold (Cmod (block_at (K := Cc) gen t s i i0)) in *. nra.
  Qed.
  (** ... and for ACA with full pivoting, with its absolute tolerance on the pivots (1e-15). *)
  Theorem C67_full_aca_real : forall eps tol (gen : nat -> nat -> R), 0 < tol ->
    compress_ok Rc (full_compress Rn (overR eps) tol gen) /\ accurate (K := Rc) Rabs eps tol gen (full_compress Rn (overR eps) tol gen).
  Proof.
    intros eps tol gen Ht. split; [apply (full_compress_ok Rn)|]. intros t s S1 S2 E1 E2. rewrite !fnorm_R.
    destruct (C31_full_aca_real eps tol (block_at (K := Rc) gen t s) (c_size t) (c_size s) (-1)) as (r & L & E & O); [lia|exact Ht|].
    pose proof (full_compress_eq Rn (overR eps) tol gen t s r L E) as EC. change (fk (nfd Rn)) with Rc in EC. rewrite EC in *. destruct O as [[_ [G _]]|(_ & _ & O)]; [exfalso; pose proof (eq_trans (eq_sym G) E1); lia|]. destruct O as [[O _]|[[_ O]|O]]; [lia|left; exact O|right].
    intros i j Hi Hj. left. apply O; assumption.
  Qed.
  Theorem C67_full_aca_complex : forall eps tol (gen : nat -> nat -> R * R), 0 < tol ->
    compress_ok Cc (full_compress Cn (overC eps) (tol, 0) gen) /\ accurate (K := Cc) Cmod eps tol gen (full_compress Cn (overC eps) (tol, 0) gen).
  Proof.
    intros eps tol gen Ht. split; [apply (full_compress_ok Cn)|]. intros t s S1 S2 E1 E2. rewrite !fnorm_C.
    destruct (C31_full_aca_complex eps tol (block_at (K := Cc) gen t s) (c_size t) (c_size s) (-1)) as (r & L & E & O); [lia|exact Ht|].
    pose proof (full_compress_eq Cn (overC eps) (tol, 0) gen t s r L E) as EC. change (fk (nfd Cn)) with Cc in EC. rewrite EC in *. destruct O as [[_ [G _]]|(_ & _ & O)]; [exfalso; pose proof (eq_trans (eq_sym G) E1); lia|]. destruct O as [[O _]|[[_ O]|O]]; [lia|left; exact O|right].
    intros i j Hi Hj. left. apply O; assumption.
  Qed.
End Generators.
Print Assumptions C67_svd_real.
Print Assumptions C67_svd_complex.
Print Assumptions C67_full_aca_real.
Print Assumptions C67_full_aca_complex.

(** End to end: the matrix built with the truncated SVD has a relative error epsilon. *)
Theorem C67_svd_matrix : forall eps gen d sy B T S fuel A, 0 <= eps ->
  (forall t s, (1 <= c_size t)%nat -> (1 <= c_size s)%nat -> is_svd (X := Rn) (sv_u Rn (d t s)) (sv_s Rn (d t s)) (sv_vt Rn (d t s)) (c_size t) (c_size s) (block_at (K := Rc) gen t s)) ->
  build_inputs (K := Rc) sy B gen T S -> hbuild Rc sy B gen (svd_compress Rn (smallR eps) d) fuel T S = Some A ->
  exists L Y, hleaves Rc A = Some (L, Y) /\
    let R := h_t (rt_val A) in let Q := h_s (rt_val A) in
    normR (c_size R) (c_size Q) (fun i j => value L Y sy (c_off R + i)%nat (c_off Q + j)%nat - gen (c_off R + i)%nat (c_off Q + j)%nat) <=
      eps * normR (c_size R) (c_size Q) (fun i j => gen (c_off R + i)%nat (c_off Q + j)%nat).
Proof.
  intros eps gen d sy B T S fuel A He HD HI HB. destruct (C67_svd_real eps gen d He HD) as [H1 H2].
  destruct (C67_matrix Rc Rabs C67_modulus_real sy B gen _ T S fuel A eps 0 He (Rle_refl 0) HI H1 H2 HB) as (L & Y & E & _ & F). exists L, Y. split; [exact E|].
  cbv zeta in F. rewrite !fnorm_R, Rmult_0_l, Rplus_0_r in F. exact F.
Qed.
Print Assumptions C67_svd_matrix.

(** ** Example: the hypotheses hold for a matrix of order 23 on five parts, ACA with full pivoting. *)
Definition acc_gen (i j : nat) : R := / (1 + INR (i + j)).
Example ex_accuracy :
  build_inputs (K := Rc) SyN (P_Block.exB None None UpN true) acc_gen exT exT /\
  (exists A, hbuild Rc SyN (P_Block.exB None None UpN true) acc_gen (full_compress Rn (overR (1 / 1000)) (1 / 10 ^ 15) acc_gen) 200 exT exT = Some A) /\
  existsb (fun b => match b_task b with Some TLowRank => true | _ => false end) (match run_ex (P_Block.exB None None UpN true) with Some (L, _) => L | None => [] end) = true.
Proof.
  destruct ex_hyps as (H1 & H2 & H3). split; [|split].
  - apply in_unsymmetric; try reflexivity; try assumption.
  - unfold hbuild.
    assert (G : forall (o : option (rtree binfo)) (f : rtree binfo -> hmat Rc), match o with Some _ => true | None => false end = true -> exists A, option_map f o = Some A).
    { intros [b|] f E; [exists (f b); reflexivity|discriminate]. }
    apply G. vm_compute. reflexivity.
  - vm_compute. reflexivity.
Qed.
