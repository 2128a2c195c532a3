(** * C80: the error of a product of built matrices, with respect to the generators.

    Vocabulary: OperandSpec.v ([whole_build], [positive_ranks]: what the builder is called with), AccSpec.v ([accurate md eps tol gen compress]: each
    compressed block has relative error eps in the Frobenius norm, or entries within tol; [fnorm], [modulus], [block_at]), TruncSpec.v ([truncates],
    [svd_truncates]: contracts of the recompression and the truncated SVD), AccumSpec.v ([truncations]: the number of truncations made by a product).
    Exact arithmetic except for compressions and truncations. *)

From Coq Require Import List Arith ZArith Bool Lia Ring Reals Lra.
From Verif Require Import ClusterModel ClusterSpec IOModel IOSpec BlockModel BlockSpec BlockSym Algebra BlasModel HMatModel HMatSpec HMatBuild P_HMat
  ArithModel ArithSpec ArithTree ArithHier ArithProd ArithDest P_Arith RealNum CompModel CompReal CompSpec RecompModel RecompSpec P_Recomp AccSpec AccProofs P_Acc TruncSpec TruncProofs P_Trunc
  AccumSpec AccumProofs AccumReal P_Accum ArithDense OperandSpec OperandProofs P_Operand.
Import ListNotations.
Local Open Scope R_scope.

Section Main.
  Variable K : Coef.
  Variable md : car K -> R.
  Hypothesis MD : modulus K md.
  Notation C := (car K).
  Add Ring KrTot : (c_ring K).
  Variables (rc : lrm K -> lrm K) (sv : mat K -> lrm K).
  Variable parts : ctree -> list ctree.
  Notation norm := (fun T S (M : nat -> nat -> C) => fnorm md (c_size T) (c_size S) (block_at M T S)).
  Notation prod := (exact_product K).

  Lemma md_prod : forall ta tb alpha X Y m a b, md (prod ta tb alpha X Y m a b) <= abs_product md ta tb alpha X Y m a b.
  Proof.
    intros. unfold exact_product, abs_product. rewrite (md_mul _ _ MD). apply Rmult_le_compat_l; [apply (md_pos _ _ MD)|]. unfold csum.
    eapply Rle_trans; [apply (md_sum K md MD)|]. right. apply (sum_ext Rc). intros k _. apply (md_mul _ _ MD).
  Qed.
  Lemma prod_norm : forall ta tb alpha X Y o m i, norm o i (prod ta tb alpha X Y m) <= md alpha * (norm o m (op_fun ta X) * norm m i (op_fun tb Y)).
  Proof.
    intros. eapply Rle_trans; [|exact (abs_product_norm K md MD ta tb alpha X Y o m i)].
    apply (rnorm_le o i (fun x y => md (prod ta tb alpha X Y m x y))). intros x y _ _. split; [apply (md_pos _ _ MD)|apply md_prod].
  Qed.
  Lemma op_norm : forall t X T S, norm (if is_N t then T else S) (if is_N t then S else T) (op_fun t X) = norm T S X.
  Proof.
    intros t X T S. destruct t; cbn [is_N]; [reflexivity| |].
    - rewrite (fnorm_swap K md). reflexivity.
    - rewrite (fnorm_swap K md). apply (fnorm_ext K md). intros i j _ _. unfold block_at, op_fun. apply (md_conj _ _ MD).
  Qed.
  Definition diff (X Y : nat -> nat -> C) (i j : nat) : C := csub K (X i j) (Y i j).
  Lemma op_diff : forall t X Y i j, op_fun t X i j = cadd K (op_fun t Y i j) (op_fun t (diff X Y) i j).
  Proof. intros t X Y i j. unfold op_fun, diff. destruct t; [ring|ring|]. rewrite <- (cconj_add K). f_equal. ring. Qed.
  Lemma prod_diff : forall ta tb alpha X X' Y Y' m i j,
    csub K (prod ta tb alpha X Y m i j) (prod ta tb alpha X' Y' m i j) =
    cadd K (cadd K (prod ta tb alpha (diff X X') Y' m i j) (prod ta tb alpha X' (diff Y Y') m i j)) (prod ta tb alpha (diff X X') (diff Y Y') m i j).
  Proof.
    intros. unfold exact_product, csum.
    rewrite (sum_ext K (c_size m) (fun k => cmul K (op_fun ta X i (c_off m + k)%nat) (op_fun tb Y (c_off m + k)%nat j))
      (fun k => cadd K (cadd K (cadd K (cmul K (op_fun ta X' i (c_off m + k)%nat) (op_fun tb Y' (c_off m + k)%nat j)) (cmul K (op_fun ta (diff X X') i (c_off m + k)%nat) (op_fun tb Y' (c_off m + k)%nat j)))
        (cmul K (op_fun ta X' i (c_off m + k)%nat) (op_fun tb (diff Y Y') (c_off m + k)%nat j))) (cmul K (op_fun ta (diff X X') i (c_off m + k)%nat) (op_fun tb (diff Y Y') (c_off m + k)%nat j)))).
    - rewrite !(sum_add K). ring.
    - intros k _. rewrite (op_diff ta X X'), (op_diff tb Y Y'). ring.
  Qed.

  (** The error allowed for a built matrix (C67). *)
  Definition built_error (eps tol : R) (g : nat -> nat -> C) (T S : ctree) : R := eps * norm T S g + tol * sqrt (INR (c_size T * c_size S)).

  Lemma built_operand : forall B gen compress T S fuel A eps tol, 0 <= eps -> 0 <= tol ->
    whole_build parts B T S -> bb_uplo B = UpN -> compress_ok K compress -> positive_ranks compress -> accurate md eps tol gen compress ->
    hbuild K SyN B gen compress fuel T S = Some A ->
    block_of A = (T, S) /\ exists M, hrep parts M A /\ norm T S (diff M gen) <= built_error eps tol gen T S.
  Proof.
    intros B gen compress T S fuel A eps tol He Ht W HN Hco Hpos Hac HB.
    destruct (built_value K parts B gen compress T S fuel A W HN Hco Hpos HB) as (BO & L & HL & HR & _).
    assert (BI : build_inputs SyN B gen T S).
    { apply in_unsymmetric; try apply W; try assumption; try reflexivity. unfold part_valid. rewrite (wb_whole _ _ _ _ W). exact I. }
    destruct (built_accurate K md MD SyN B gen compress T S fuel A eps tol He Ht BI Hco Hac HB) as (L' & Y' & E1 & _ & _ & _ & E2).
    rewrite HL in E1. injection E1 as <- <-. split; [exact BO|]. exists (value L [] SyN). split; [exact HR|].
    unfold block_of in BO. injection BO as Bt Bs. rewrite Bt, Bs in E2. exact E2.
  Qed.

  (** ** The total error *)
  (** C' <- C + alpha op(A) op(B) (add_hmatrix_hmatrix_product of three built matrices, beta = 1), whose error is measured against the generators. *)
  Definition total_bound (eps : R) : Prop :=
    forall BA BB BC gA gB gC cA cB cC TA SA TB SB TC SC fA fB fC A B Cm eA tA eB tB eC tC,
    0 <= eA -> 0 <= tA -> whole_build parts BA TA SA -> bb_uplo BA = UpN -> compress_ok K cA -> positive_ranks cA -> accurate md eA tA gA cA -> hbuild K SyN BA gA cA fA TA SA = Some A ->
    0 <= eB -> 0 <= tB -> whole_build parts BB TB SB -> bb_uplo BB = UpN -> compress_ok K cB -> positive_ranks cB -> accurate md eB tB gB cB -> hbuild K SyN BB gB cB fB TB SB = Some B ->
    0 <= eC -> 0 <= tC -> whole_build parts BC TC SC -> bb_uplo BC = UpN -> compress_ok K cC -> positive_ranks cC -> accurate md eC tC gC cC -> hbuild K SyN BC gC cC fC TC SC = Some Cm ->
    forall ta tb alpha fuel, (height K A < fuel)%nat ->
    (if is_N ta then SA else TA) = (if is_N tb then TB else SB) -> TC = (if is_N ta then TA else SA) -> SC = (if is_N tb then SB else TB) ->
    let EA := built_error eA tA gA TA SA in let EB := built_error eB tB gB TB SB in let EC := built_error eC tC gC TC SC in
    let NA := norm TA SA gA in let NB := norm TB SB gB in let NC := norm TC SC gC in
    exists C' M', hh_h K rc sv parts fuel ta tb alpha A B (c1 K) Cm = Some C' /\ hrep parts M' C' /\ block_of C' = (TC, SC) /\
      norm TC SC (fun i j => csub K (M' i j) (cadd K (gC i j) (cmul K alpha (csum (if is_N ta then SA else TA) (fun x => cmul K (op_fun ta gA i x) (op_fun tb gB x j)))))) <=
      EC + md alpha * (EA * NB + NA * EB + EA * EB) +
      ((1 + eps) ^ truncations (low_leaves Cm) fuel ta tb A B - 1) * (NC + EC + md alpha * ((NA + EA) * (NB + EB))).
  Theorem C80_total_error : forall eps, 0 <= eps -> truncates md eps rc -> svd_truncates md eps sv -> total_bound eps.
  Proof.
    intros eps He HT HSV. cbv delta [total_bound] beta. intros BA BB BC gA gB gC cA cB cC TA SA TB SB TC SC fA fB fC A B Cm eA tA eB tB eC tC
      eA0 tA0 WA NA' OA PA AA HA eB0 tB0 WB NB' OB PB AB HB eC0 tC0 WC NC' OC PC AC HC ta tb alpha fuel Hf HM Ho Hi EA EB EC NA NB NC.
    destruct (built_operand BA gA cA TA SA fA A eA tA eA0 tA0 WA NA' OA PA AA HA) as (KA & MA & RA & DA).
    destruct (built_operand BB gB cB TB SB fB B eB tB eB0 tB0 WB NB' OB PB AB HB) as (KB & MB & RB & DB).
    destruct (built_operand BC gC cC TC SC fC Cm eC tC eC0 tC0 WC NC' OC PC AC HC) as (KC & MC & RC & DC).
    fold EA in DA. fold EB in DB. fold EC in DC.
    unfold block_of in KA, KB. injection KA as KA1 KA2. injection KB as KB1 KB2.
    assert (MidA : mid_of K ta A = if is_N ta then SA else TA) by (unfold mid_of; destruct (is_N ta); assumption).
    assert (OutA : out_of K ta A = TC) by (rewrite Ho; unfold out_of; destruct (is_N ta); assumption).
    assert (MidB : mid_of K tb B = SC) by (rewrite Hi; unfold mid_of; destruct (is_N tb); assumption).
    assert (OutB : out_of K tb B = if is_N tb then TB else SB) by (unfold out_of; destruct (is_N tb); assumption).
    pose proof (wb_level _ _ _ _ WA) as LA. pose proof (wb_level _ _ _ _ WB) as LB.
    set (m := if is_N ta then SA else TA) in *.
    assert (Ao : above TC = above m) by (rewrite Ho; unfold m; destruct (is_N ta); congruence).
    assert (Ai : above SC = above m) by (rewrite Hi, HM; destruct (is_N tb); congruence).
    assert (HMid : mid_of K ta A = out_of K tb B) by congruence.
    assert (Ao' : above (out_of K ta A) = above (mid_of K ta A)) by congruence.
    assert (Ai' : above (mid_of K tb B) = above (mid_of K ta A)) by congruence.
    assert (KC' : block_of Cm = (out_of K ta A, mid_of K tb B)) by congruence.
    destruct (C78_hierarchical_bound K md MD rc sv parts fuel ta tb alpha MA MB A B Hf RA RB HMid Ao' Ai' eps He HT HSV MC Cm RC KC') as (C' & M' & E & HR & Q).
    exists C', M'. split; [exact E|]. split; [exact HR|].
    destruct (C78_hierarchical_errors K md MD rc sv parts fuel ta tb alpha MA MB A B Hf RA RB HMid Ao' Ai' (keeps_rc K md eps rc HT) (keeps_sv K md eps sv HSV) MC Cm RC KC') as (C2 & es & E2 & _ & _ & _).
    split.
    { destruct (hh_h_ev K md MD rc sv (keeps_rc K md eps rc HT) (keeps_sv K md eps sv HSV) parts (low_leaves Cm) fuel ta tb alpha MA MB A B Cm (fun x y => md (MC x y)) Hf RA RB HMid Ao' Ai'
        (hrep_hdest K parts MC Cm RC) KC' (Nat.le_refl _) (fun x y => md_pos _ _ MD _)) as (C3 & es3 & E3 & _ & _ & _ & U).
      - clear - RC MD. induction RC as [h H1 H2 H3 H4 H5 H6|h cs H1 H2 H3 H4 H5 H6 H7 H8 IH].
        + apply bounded_leaf. intros a b Ha Hb. rewrite H6 by assumption. apply Rle_refl.
        + apply bounded_node; assumption.
      - rewrite E in E3. injection E3 as <-. rewrite (hupd_block K _ _ _ U). exact KC. }
    rewrite OutA, MidB, MidA in Q. cbn beta in Q.
    set (n := truncations (low_leaves Cm) fuel ta tb A B) in *.
    (* norms of the represented matrices *)
    assert (NMC : norm TC SC MC <= NC + EC).
    { eapply Rle_trans; [apply (fnorm_triangle K md MD _ _ (block_at gC TC SC) (block_at (diff MC gC) TC SC))|].
      - intros a b _ _. unfold block_at, diff. ring.
      - apply Rplus_le_compat; [apply Rle_refl|exact DC]. }
    assert (OA1 : forall X, norm TC m (op_fun ta X) = norm TA SA X) by (intros X; rewrite Ho; unfold m; apply op_norm).
    assert (OB1 : forall X, norm m SC (op_fun tb X) = norm TB SB X) by (intros X; rewrite Hi, HM; apply op_norm).
    assert (NMA : norm TA SA MA <= NA + EA).
    { eapply Rle_trans; [apply (fnorm_triangle K md MD _ _ (block_at gA TA SA) (block_at (diff MA gA) TA SA))|].
      - intros a b _ _. unfold block_at, diff. ring.
      - apply Rplus_le_compat; [apply Rle_refl|exact DA]. }
    assert (NMB : norm TB SB MB <= NB + EB).
    { eapply Rle_trans; [apply (fnorm_triangle K md MD _ _ (block_at gB TB SB) (block_at (diff MB gB) TB SB))|].
      - intros a b _ _. unfold block_at, diff. ring.
      - apply Rplus_le_compat; [apply Rle_refl|exact DB]. }
    pose proof (md_pos _ _ MD alpha) as Pa.
    assert (PN : forall T S M, 0 <= norm T S M) by (intros; apply (fnorm_pos K md)).
    cbn beta in OA1, OB1, PN. rewrite OA1, OB1 in Q.
    assert (Pw : 0 <= (1 + eps) ^ n - 1). { pose proof (pow_R1_Rle (1 + eps) n ltac:(lra)). lra. }
    (* the difference of the exact products *)
    assert (PD : norm TC SC (fun i j => csub K (prod ta tb alpha MA MB m i j) (prod ta tb alpha gA gB m i j)) <= md alpha * (EA * NB + NA * EB + EA * EB)).
    { assert (P3 : forall X Y x y, norm TA SA X <= x -> norm TB SB Y <= y -> norm TC SC (prod ta tb alpha X Y m) <= md alpha * (x * y)).
      { intros X Y x y HX HY. eapply Rle_trans; [apply prod_norm|]. cbn beta. rewrite OA1, OB1. apply Rmult_le_compat_l; [exact Pa|]. apply Rmult_le_compat; try apply PN; assumption. }
      eapply Rle_trans; [apply (fnorm_triangle K md MD _ _ (block_at (fun i j => cadd K (prod ta tb alpha (diff MA gA) gB m i j) (prod ta tb alpha gA (diff MB gB) m i j)) TC SC) (block_at (prod ta tb alpha (diff MA gA) (diff MB gB) m) TC SC))|].
      - intros a b _ _. unfold block_at. apply prod_diff.
      - replace (md alpha * (EA * NB + NA * EB + EA * EB)) with (md alpha * (EA * NB) + md alpha * (NA * EB) + md alpha * (EA * EB)) by ring.
        apply Rplus_le_compat; [|apply P3; assumption].
        eapply Rle_trans; [apply (fnorm_triangle K md MD _ _ (block_at (prod ta tb alpha (diff MA gA) gB m) TC SC) (block_at (prod ta tb alpha gA (diff MB gB) m) TC SC)); intros a b _ _; reflexivity|].
        apply Rplus_le_compat; apply P3; try assumption; apply Rle_refl. }
    (* all together *)
    eapply Rle_trans; [apply (fnorm_triangle K md MD _ _ (block_at (fun i j => cadd K (diff MC gC i j) (csub K (prod ta tb alpha MA MB m i j) (prod ta tb alpha gA gB m i j))) TC SC)
      (block_at (fun x y => csub K (M' x y) (cadd K (MC x y) (prod ta tb alpha MA MB m x y))) TC SC))|].
    { intros a b _ _. unfold block_at, diff. change (cmul K alpha (csum m (fun x => cmul K (op_fun ta gA (c_off TC + a) x) (op_fun tb gB x (c_off SC + b))))) with (prod ta tb alpha gA gB m (c_off TC + a) (c_off SC + b))%nat. ring. }
    apply Rplus_le_compat.
    - eapply Rle_trans; [apply (fnorm_triangle K md MD _ _ (block_at (diff MC gC) TC SC) (block_at (fun i j => csub K (prod ta tb alpha MA MB m i j) (prod ta tb alpha gA gB m i j)) TC SC)); intros a b _ _; reflexivity|].
      apply Rplus_le_compat; [exact DC|exact PD].
    - eapply Rle_trans; [exact Q|]. apply Rmult_le_compat_l; [exact Pw|]. apply Rplus_le_compat; [exact NMC|]. apply Rmult_le_compat_l; [exact Pa|]. apply Rmult_le_compat; try apply PN; assumption.
  Qed.
  (** Nothing compressed in a lossy way and nothing truncated: the error is 0. *)
  Corollary C80_exact_build : forall eps tol g T S, eps = 0 -> tol = 0 -> built_error eps tol g T S = 0.
  Proof. intros eps tol g T S -> ->. unfold built_error. ring. Qed.
End Main.
Print Assumptions C80_total_error.

(** ** With the library's recompression and truncated SVD *)
Theorem C80_real : forall geqrf gelqf gesvd eps parts, 0 <= eps ->
  (forall L M N, (1 <= M)%nat -> (1 <= N)%nat -> wf_lrm L M N -> (1 <= lrank L)%nat -> lapack_documented (X := Rn) geqrf gelqf gesvd sqrt L M N) ->
  (forall X M N, (1 <= M)%nat -> (1 <= N)%nat -> wf_mat X M N -> svd_documented (X := Rn) gesvd sqrt M N (me X)) ->
  total_bound Rc Rabs (recompressed Rn geqrf gelqf gesvd sqrt (smallR eps)) (svd_truncated Rn gesvd sqrt (smallR eps)) parts eps.
Proof.
  intros geqrf gelqf gesvd eps parts He D1 D2.
  exact (C80_total_error Rc Rabs absR_modulus _ _ parts eps He (C70_recompression_real geqrf gelqf gesvd eps He D1) (C70_svd_real gesvd eps He D2)).
Qed.
Theorem C80_complex : forall geqrf gelqf gesvd eps parts, 0 <= eps ->
  (forall L M N, (1 <= M)%nat -> (1 <= N)%nat -> wf_lrm L M N -> (1 <= lrank L)%nat -> lapack_documented (X := Cn) geqrf gelqf gesvd sqrtC L M N) ->
  (forall X M N, (1 <= M)%nat -> (1 <= N)%nat -> wf_mat X M N -> svd_documented (X := Cn) gesvd sqrtC M N (me X)) ->
  total_bound Cc Cmod (recompressed Cn geqrf gelqf gesvd sqrtC (smallC eps)) (svd_truncated Cn gesvd sqrtC (smallC eps)) parts eps.
Proof.
  intros geqrf gelqf gesvd eps parts He D1 D2.
  exact (C80_total_error Cc Cmod C67_modulus_complex _ _ parts eps He (C70_recompression_complex geqrf gelqf gesvd eps He D1) (C70_svd_complex gesvd eps He D2)).
Qed.
Print Assumptions C80_real.
Print Assumptions C80_complex.

(** ** A concrete case: compressions and truncations that lose everything (eps = 1) *)
Definition zcomp (t s : ctree) : lrm Zc := mkLrm (zeros Zc (c_size t) 1) (zeros Zc 1 (c_size s)).
Lemma zcomp_ok : compress_ok Zc zcomp. Proof. intros t s. split; apply zeros_wf. Qed.
Lemma zcomp_pos : positive_ranks zcomp. Proof. intros t s _ _. cbn. lia. Qed.
Lemma zcomp_accurate : forall g, accurate (K := Zc) absZ 1 0 g zcomp.
Proof.
  intros g t s _ _ _ _. left. rewrite Rmult_1_l. right. apply (fnorm_ext Zc absZ). intros i j _ _. unfold error_of, zcomp. rewrite zero_entry. cbn. rewrite Z.sub_0_r. reflexivity.
Qed.
Lemma z_total : forall parts B T fuel A, whole_build parts B T T -> bb_uplo B = UpN -> hbuild Zc SyN B ex_gen' zcomp fuel T T = Some A ->
  exists C' M', hh_h Zc nothing nothing' parts (S (height Zc A)) TrN TrT 2%Z A A 1%Z A = Some C' /\ hrep (K := Zc) parts M' C'.
Proof.
  intros parts B T fuel A W U E.
  destruct (C80_total_error Zc absZ absZ_modulus nothing nothing' parts 1 ltac:(lra) nothing_ok nothing_ok' B B B ex_gen' ex_gen' ex_gen' zcomp zcomp zcomp T T T T T T fuel fuel fuel A A A 1 0 1 0 1 0
    ltac:(lra) ltac:(lra) W U zcomp_ok zcomp_pos (zcomp_accurate _) E ltac:(lra) ltac:(lra) W U zcomp_ok zcomp_pos (zcomp_accurate _) E ltac:(lra) ltac:(lra) W U zcomp_ok zcomp_pos (zcomp_accurate _) E
    TrN TrT 2%Z (S (height Zc A)) (Nat.lt_succ_diag_r _) eq_refl eq_refl eq_refl) as (C' & M' & H1 & H2 & _).
  exists C', M'. split; assumption.
Qed.
Lemma z_built : match hbuild Zc SyN (oB UpN) ex_gen' zcomp 200 oT oT with Some _ => true | None => false end = true. Proof. vm_compute. reflexivity. Qed.
Example C80_hyps : exists A C' M', hbuild Zc SyN (oB UpN) ex_gen' zcomp 200 oT oT = Some A /\
  hh_h Zc nothing nothing' oparts (S (height Zc A)) TrN TrT 2%Z A A 1%Z A = Some C' /\ hrep (K := Zc) oparts M' C'.
Proof.
  pose proof z_built as OB. destruct (hbuild Zc SyN (oB UpN) ex_gen' zcomp 200 oT oT) as [A|] eqn:E; [|discriminate OB]. clear OB. exists A.
  destruct (z_total oparts (oB UpN) oT 200 A (o_whole UpN) eq_refl E) as (C' & M' & Q1 & Q2). exists C', M'. split; [reflexivity|]. split; assumption.
Qed.
(** Without the terms of the compressions the bound would be wrong: with truncations that lose nothing, a coefficient of the first dense block of the result is not that
    of the product of the generators. *)
Definition first_dense (A : rtree (hinfo Zc)) : option (nat * nat * Z) :=
  match find (fun u => match h_data (rt_val u) with DDense _ => true | _ => false end) (preorder A) with
  | Some u => match h_data (rt_val u) with DDense D => Some (c_off (h_t (rt_val u)), c_off (h_s (rt_val u)), me D 0 0) | _ => None end
  | None => None
  end.
Theorem C80_exact_refuted :
  match hbuild Zc SyN (oB UpN) ex_gen' zcomp 200 oT oT with
  | Some A => match hh_h Zc (fun L => L) (svd_id Zc) oparts (S (height Zc A)) TrN TrT 2%Z A A 1%Z A with
              | Some C' => first_dense C'
              | None => None end
  | None => None end = Some (0%nat, 0%nat, 730%Z) /\
  (ex_gen' 0 0 + 2 * csum (K := Zc) oT (fun x => ex_gen' 0 x * ex_gen' 0 x))%Z = 5202%Z.
Proof. split; vm_compute; reflexivity. Qed.
Print Assumptions C80_exact_refuted.
