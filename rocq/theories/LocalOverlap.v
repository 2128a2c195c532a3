(** * The local solver with overlap: proofs. *)

From Coq Require Import List Arith ZArith Bool Lia Permutation Ring.
From Verif Require Import ClusterModel ClusterSpec ClusterMore IOModel IOSpec BlockModel BlockSpec Algebra BlasModel BlasProofs HMatModel HMatSpec
  Field DenseModel DenseSpec DenseProofs DenseLU DistModel DistMat ArithModel ArithSpec ArithDense ArithTree ArithDest
  HFactModel HFactSpec HFactSubst HFactSolve HFactHH HFactTri HFactLU HFactRenum LocalModel LocalSpec LocalProofs.
Import ListNotations.

Section Overlap.
  Variable F : Fld.
  Notation K := (fk F).
  Notation C := (car K).
  Add Ring LOr : (c_ring K).
  Notation "a + b" := (cadd K a b).
  Notation "a - b" := (csub K a b).
  Notation "a * b" := (cmul K a b).
  Notation "0" := (c0 K).
  Notation "1" := (c1 K).
  Notation mat := (mat K).
  Notation hmat := (rtree (hinfo K)).
  Notation hv := rt_val.

  Lemma block_eq : forall n p (L U A B Cm D B' C' D' : nat -> nat -> C) (b1 b2 x1 x2 x3 z1 z3 : nat -> C),
    (forall i j, (i < n)%nat -> (j < n)%nat -> A i j = sum n (fun k => L i k * U k j)) ->
    (forall i j, (i < n)%nat -> (j < p)%nat -> B i j = sum n (fun k => L i k * B' k j)) ->
    (forall i j, (i < p)%nat -> (j < n)%nat -> Cm i j = sum n (fun k => C' i k * U k j)) ->
    (forall i j, (i < p)%nat -> (j < p)%nat -> D' i j = D i j - sum n (fun k => C' i k * B' k j)) ->
    (forall i, (i < n)%nat -> sum n (fun k => L i k * x1 k) = b1 i) ->
    (forall i, (i < p)%nat -> z1 i = b2 i - sum n (fun k => C' i k * x1 k)) ->
    (forall i, (i < p)%nat -> sum p (fun k => D' i k * z3 k) = z1 i) ->
    (forall i, (i < n)%nat -> x2 i = x1 i - sum p (fun k => B' i k * z3 k)) ->
    (forall i, (i < n)%nat -> sum n (fun k => U i k * x3 k) = x2 i) ->
    (forall i, (i < n)%nat -> sum n (fun k => A i k * x3 k) + sum p (fun k => B i k * z3 k) = b1 i) /\
    (forall i, (i < p)%nat -> sum n (fun k => Cm i k * x3 k) + sum p (fun k => D i k * z3 k) = b2 i).
  Proof.
    intros n p L U A B Cm D B' C' D' b1 b2 x1 x2 x3 z1 z3 HA HB HC HD H1 H2 H3 H4 H5.
    assert (E : forall f, sum n (fun q => f q * sum n (fun k => U q k * x3 k)) + sum n (fun q => f q * sum p (fun k => B' q k * z3 k)) = sum n (fun q => f q * x1 q)).
    { intros f. rewrite <- sum_add. apply sum_ext. intros q Hq. rewrite H5, H4 by exact Hq. ring. }
    split; intros i Hi.
    - rewrite <- (H1 i Hi), <- E. f_equal; rewrite sum_assoc; apply sum_ext; intros k Hk; f_equal; auto.
    - pose proof (H2 i Hi) as Q. rewrite <- (H3 i Hi) in Q. rewrite <- (E (fun k => C' i k)) in Q. rewrite !sum_assoc in Q.
      rewrite (sum_ext K p (fun k => D' i k * z3 k) (fun k => D i k * z3 k - sum n (fun q => C' i q * B' q k) * z3 k)) in Q by (intros k Hk; rewrite HD by assumption; ring).
      rewrite sum_sub in Q. rewrite (sum_ext K n (fun k => Cm i k * x3 k) (fun l => sum n (fun q => C' i q * U q l) * x3 l)) by (intros k Hk; rewrite HC by assumption; reflexivity).
      set (a := sum n (fun l => sum n (fun q => C' i q * U q l) * x3 l)) in *. set (b := sum p (fun l => sum n (fun q => C' i q * B' q l) * z3 l)) in *. set (d := sum p (fun k => D i k * z3 k)) in *.
      transitivity (a + b + (d - b)); [ring|]. rewrite Q. ring.
  Qed.

  Variable recompress : lrm K -> lrm K.
  Variable svd_factors : mat -> lrm K.
  Hypothesis HRec : exact_recompression recompress.
  Hypothesis HSvd : exact_svd svd_factors.
  Variable parts : ctree -> list ctree.
  Variable piv : (nat -> C) -> nat -> nat -> nat.
  Hypothesis HPiv : pivot_rule piv.
  Variable ppos : C -> bool.
  Variable psqrt : C -> C.
  Variable star : trans.
  Variable fuel : nat.
  Notation numfact := (o_numfact F recompress svd_factors parts piv ppos psqrt star fuel).
  Notation bsolve := (o_blocks_solve F parts star fuel).

  (** A matrix product as an operation on entries. *)
  Lemma minus_product : forall (A B X : mat) r k c, (1 <= r)%nat -> (1 <= k)%nat -> (1 <= c)%nat -> wf_mat A r k -> wf_mat B k c -> wf_mat X r c ->
    exists Y, add_matrix_matrix_product K TrN TrN (copp K 1) A B 1 X = Some Y /\ wf_mat Y r c /\
      forall i j, (i < r)%nat -> (j < c)%nat -> me Y i j = me X i j - sum k (fun l => me A i l * me B l j).
  Proof.
    intros A B X r k c Hr Hk Hc HA HB HX. destruct (gemm_mat_ok K TrN TrN (copp K 1) A B 1 X r k c (me A) (me B)) as (Y & E & W & V); try assumption.
    - split; [exact HA|reflexivity].
    - split; [exact HB|reflexivity].
    - exists Y. split; [exact E|]. split; [exact W|]. intros i j Hi Hj. rewrite V by assumption. ring.
  Qed.

  Theorem overlap_solver_ok : forall M (A : hmat) (B Cm D : mat) p,
    let c := h_t (hv A) in let n := c_size c in
    let W := two_by_two n (at_block F c c M) (me B) (me Cm) (me D) in
    h_sym (hv A) = SyN -> hrep parts M A -> h_s (hv A) = c -> factorable M (c_off c) A -> (3 * cheight c <= fuel)%nat ->
    (1 <= p)%nat -> wf_mat B n p -> wf_mat Cm p n -> wf_mat D p p -> injective (F := F) (n + p) W ->
    exists o, numfact (mkOverlap A B Cm D) = Some (o, true) /\ h_t (hv (o_A o)) = c /\ mr (o_D o) = p /\
      forall (b1 b2 : mat) mu, (1 <= mu)%nat -> wf_mat b1 n mu -> wf_mat b2 p mu ->
      exists x1 x2, bsolve o b1 b2 = Some (x1, x2) /\ wf_mat x1 n mu /\ wf_mat x2 p mu /\
        forall i j, (i < n + p)%nat -> (j < mu)%nat ->
          sum (n + p) (fun k => W i k * (if (k <? n)%nat then me x1 k j else me x2 (k - n)%nat j)) = if (i <? n)%nat then me b1 i j else me b2 (i - n)%nat j.
  Proof.
    intros M A B Cm D p c n W Hs HM HS HF Hf Hp WB WC WD HI.
    destruct (lu_factorization_ok F parts recompress svd_factors HRec HSvd piv HPiv fuel M A HM HS HF Hf) as (A' & FL & FU & E1 & (E2 & E2s & E2u) & E3 & E4 & E5).
    assert (Ec : h_t (hv A') = c) by (unfold block_of in E2; injection E2 as Z1 Z2; exact Z1).
    destruct (htri_block F parts _ _ _ _ E3) as [_ Hct]. rewrite Ec in Hct. pose proof (ct_size parts _ Hct) as Hn. fold n in Hn.
    assert (Hf' : (cheight (h_t (hv A')) <= fuel)%nat) by (rewrite Ec; fold c in Hf; lia).
    pose proof (matrix_solve_ok F parts fuel SdL UpL TrN DgU FL A' 1 B p E3 Hf' Hp) as QB. rewrite Ec in QB. destruct (QB WB) as (B' & EB & WB' & SB). clear QB.
    pose proof (matrix_solve_ok F parts fuel SdR UpU TrN DgN FU A' 1 Cm p E4 Hf' Hp) as QC. rewrite Ec in QC. destruct (QC WC) as (C' & EC & WC' & SC). clear QC.
    destruct (minus_product C' B' D p n p Hp Hn Hp WC' WB' WD) as (D' & ED & WD' & VD).
    cbn beta iota in SB, SC. cbn [op_fun] in SB, SC. fold n in SB, SC.
    assert (VA : forall i j, (i < n)%nat -> (j < n)%nat -> at_block F c c M i j = sum n (fun k => at_block F c c FL i k * at_block F c c FU k j)).
    { intros i j Hi Hj. unfold at_block. rewrite E5 by (unfold inc; fold c; lia). apply csum_local. }
    assert (VB : forall i j, (i < n)%nat -> (j < p)%nat -> me B i j = sum n (fun k => at_block F c c FL i k * me B' k j)).
    { intros i j Hi Hj. specialize (SB i j Hi Hj). cbn beta iota in SB. cbn [op_fun] in SB. rewrite SB. ring. }
    assert (VC : forall i j, (i < p)%nat -> (j < n)%nat -> me Cm i j = sum n (fun k => me C' i k * at_block F c c FU k j)).
    { intros i j Hi Hj. specialize (SC i j Hi Hj). cbn beta iota in SC. cbn [op_fun] in SC. rewrite SC. ring. }
    assert (HID : injective (F := F) p (me D')).
    { pose proof (schur_injective F n p W (fun i j => me D' (i - n)%nat (j - n)%nat) (fun i s => if (i <? n)%nat then at_block F c c FL i s else me C' (i - n)%nat s)
        (fun s j => if (j <? n)%nat then at_block F c c FU s j else me B' s (j - n)%nat)) as Q.
      intros x Hx. apply Q; [| |exact HI|].
      - intros i j Hi Hj. unfold W, two_by_two. destruct (Nat.leb_spec n i) as [Li|Li], (Nat.leb_spec n j) as [Lj|Lj]; cbn [andb];
          destruct (Nat.ltb_spec i n) as [Ki|Ki], (Nat.ltb_spec j n) as [Kj|Kj]; try lia.
        + rewrite VD by lia. ring.
        + rewrite VC by lia. ring.
        + rewrite VB by lia. ring.
        + rewrite VA by lia. ring.
      - intros r. destruct (htri_surj F parts UpU DgN FU A' E4 (fun a => r (a - c_off c)%nat)) as [y Hy]. rewrite Ec in Hy. exists (fun k => y (c_off c + k)%nat). intros i Hi.
        specialize (Hy (c_off c + i)%nat ltac:(unfold inc; fold n; lia)). replace (c_off c + i - c_off c)%nat with i in Hy by lia. rewrite <- Hy, csum_local. apply sum_ext. intros k Hk. fold n in Hk.
        destruct (Nat.ltb_spec k n); [reflexivity|lia].
      - intros i Hi. rewrite <- (Hx i Hi). apply sum_ext. intros k Hk. replace (n + i - n)%nat with i by lia. replace (n + k - n)%nat with k by lia. reflexivity. }
    destruct (lu_ok F piv HPiv p D' Hp WD') as (D2 & G1 & G2 & G3 & G4). pose proof (lu_diag F p (me D') _ D2 HID G4) as DG.
    exists (mkOverlap A' B' C' D2). split; [|split; [exact Ec|split; [apply G2|]]].
    { unfold o_numfact. cbn [o_A o_B o_C o_D]. rewrite Hs, E1. assert (Em : mr Cm = p) by apply WC. rewrite Em. destruct (Nat.ltb_spec 0%nat p) as [_|Q]; [|lia]. rewrite EB, EC, ED, G1. reflexivity. }
    intros b1 b2 mu Hmu Wb1 Wb2. unfold o_blocks_solve. cbn [o_A o_B o_C o_D]. rewrite E2s, Hs.
    assert (Em : mr C' = p) by apply WC'. rewrite Em. destruct (Nat.ltb_spec 0%nat p) as [_|Q]; [|lia].
    pose proof (matrix_solve_ok F parts fuel SdL UpL TrN DgU FL A' 1 b1 mu E3 Hf' Hmu) as Q1. rewrite Ec in Q1. destruct (Q1 Wb1) as (x1 & -> & Wx1 & Sx1). clear Q1.
    destruct (minus_product C' x1 b2 p n mu Hp Hn Hmu WC' Wx1 Wb2) as (z1 & -> & Wz1 & Vz1).
    destruct (tri_solve_ok F SdL UpL TrN DgU 1 D2 z1 p mu Hp Hmu G2 Wz1) as (z2 & -> & Wz2 & _ & Sz2); [intros Z; discriminate Z|right; exact G3|].
    destruct (tri_solve_ok F SdL UpU TrN DgN 1 D2 z2 p mu Hp Hmu G2 Wz2) as (z3 & -> & Wz3 & _ & Sz3); [intros _; exact DG|right; exact G3|].
    assert (Sz : is_solution SdL TrN (me D') 1 p mu (me z1) (me z3)).
    { apply (solution_compose F SdL TrN (me D') (factor UpL DgU D2) (factor UpU DgN D2) 1 p mu (me z1) (me z2) (me z3)); [exact G4|]. split; assumption. }
    destruct (minus_product B' z3 x1 n p mu Hn Hp Hmu WB' Wz3 Wx1) as (x2 & -> & Wx2 & Vx2). cbn [fst snd].
    pose proof (matrix_solve_ok F parts fuel SdL UpU TrN DgN FU A' 1 x2 mu E4 Hf' Hmu) as Q1. rewrite Ec in Q1. destruct (Q1 Wx2) as (x3 & -> & Wx3 & Sx3). clear Q1.
    exists x3, z3. split; [reflexivity|]. split; [exact Wx3|]. split; [exact Wz3|]. intros i j Hi Hj.
    destruct (block_eq n p (at_block F c c FL) (at_block F c c FU) (at_block F c c M) (me B) (me Cm) (me D) (me B') (me C') (me D')
      (fun i => me b1 i j) (fun i => me b2 i j) (fun i => me x1 i j) (fun i => me x2 i j) (fun i => me x3 i j) (fun i => me z1 i j) (fun i => me z3 i j)) as [R1 R2]; try assumption.
    { intros k Hk. pose proof (Sx1 k j Hk Hj) as Q. cbn beta iota in Q. cbn [op_fun] in Q. etransitivity; [exact Q|ring]. }
    { intros k Hk. apply Vz1; assumption. }
    { intros k Hk. pose proof (Sz k j Hk Hj) as Q. cbn beta iota in Q. cbn [op_fun] in Q. etransitivity; [exact Q|ring]. }
    { intros k Hk. apply Vx2; assumption. }
    { intros k Hk. pose proof (Sx3 k j Hk Hj) as Q. cbn beta iota in Q. cbn [op_fun] in Q. etransitivity; [exact Q|ring]. }
    rewrite sum_split. unfold W, two_by_two.
    destruct (Nat.ltb_spec i n) as [Li|Li].
    - rewrite <- (R1 i Li). f_equal; apply sum_ext; intros k Hk.
      + destruct (Nat.ltb_spec k n); [reflexivity|lia].
      + destruct (Nat.ltb_spec (n + k) n); [lia|]. replace (n + k - n)%nat with k by lia. reflexivity.
    - rewrite <- (R2 (i - n)%nat ltac:(lia)). f_equal; apply sum_ext; intros k Hk.
      + destruct (Nat.ltb_spec k n); [reflexivity|lia].
      + destruct (Nat.ltb_spec (n + k) n); [lia|]. replace (n + k - n)%nat with k by lia. reflexivity.
  Qed.

  (** The copies of the columns. *)
  Lemma o_solve_into_ok : forall (o : overlap F) n p mu W b x0, h_t (hv (o_A o)) = n -> mr (o_D o) = p ->
    (forall (b1 b2 : mat), wf_mat b1 (c_size n) mu -> wf_mat b2 p mu ->
      exists x1 x2, bsolve o b1 b2 = Some (x1, x2) /\ wf_mat x1 (c_size n) mu /\ wf_mat x2 p mu /\
        forall i j, (i < c_size n + p)%nat -> (j < mu)%nat ->
          sum (c_size n + p) (fun k => W i k * (if (k <? c_size n)%nat then me x1 k j else me x2 (k - c_size n)%nat j)) = if (i <? c_size n)%nat then me b1 i j else me b2 (i - c_size n)%nat j) ->
    ((c_size n + p) * mu <= length b)%nat -> ((c_size n + p) * mu <= length x0)%nat ->
    exists x, o_solve_into F parts star fuel o b x0 mu = Some x /\ solved (c_size n + p) mu W b x0 x.
  Proof.
    intros o c p mu W b x0 Hc Hp HB Lb Lx. unfold o_solve_into. rewrite Hc, Hp. set (n := c_size c) in *.
    destruct (copy_columns_ok F mu n b 0 (n + p) (repeat 0 (n * mu)) 0 n) as (d1 & -> & L1 & V1 & _); [lia|intros j Hj; nia|intros j Hj; rewrite repeat_length; nia|]. rewrite repeat_length in L1.
    destruct (copy_columns_ok F mu p b n (n + p) (repeat 0 (p * mu)) 0 p) as (d2 & -> & L2 & V2 & _); [lia|intros j Hj; nia|intros j Hj; rewrite repeat_length; nia|]. rewrite repeat_length in L2.
    destruct (HB (mkMat n mu d1) (mkMat p mu d2)) as (x1 & x2 & -> & (X1 & X2 & X3) & (Y1 & Y2 & Y3) & SX).
    { split; [reflexivity|]. split; [reflexivity|]. exact L1. } { split; [reflexivity|]. split; [reflexivity|]. exact L2. }
    cbn [fst snd].
    destruct (copy_columns_ok F mu n (md x1) 0 n x0 0 (n + p)) as (x' & -> & L3 & V3 & O3); [lia|intros j Hj; nia|intros j Hj; nia|].
    destruct (copy_columns_ok F mu p (md x2) 0 p x' n (n + p)) as (x & -> & L4 & V4 & O4); [lia|intros j Hj; nia|intros j Hj; nia|].
    exists x. split; [reflexivity|]. split; [congruence|]. split.
    - intros i j Hi Hj. pose proof (SX i j Hi Hj) as Q.
      assert (Eb : (if (i <? n)%nat then me (mkMat (K := K) n mu d1) i j else me (mkMat (K := K) p mu d2) (i - n) j) = entry (n + p) b i j).
      { unfold entry, me. cbn [md mr mkMat]. change (nth (i + j * (n + p)) b 0) with (get b (i + j * (n + p))). destruct (Nat.ltb_spec i n) as [Li|Li].
        - replace (i + j * n)%nat with (0 + j * n + i)%nat by lia. rewrite V1 by assumption. f_equal. lia.
        - replace (i - n + j * p)%nat with (0 + j * p + (i - n))%nat by lia. rewrite V2 by lia. f_equal. lia. }
      rewrite Eb in Q. rewrite <- Q. apply sum_ext. intros k Hk. f_equal. unfold entry, me. change (nth (k + j * (n + p)) x 0) with (get x (k + j * (n + p))). rewrite X1, Y1.
      destruct (Nat.ltb_spec k n) as [Lk|Lk].
      + rewrite O4. 2:{ intros i' j' Hi' Hj' E. assert (j = j') by nia. subst j'. lia. }
        replace (k + j * (n + p))%nat with (0 + j * (n + p) + k)%nat by lia. rewrite V3 by assumption. f_equal. lia.
      + replace (k + j * (n + p))%nat with (n + j * (n + p) + (k - n))%nat by lia. rewrite V4 by lia. f_equal. lia.
    - intros k Hk. change (get x k = get x0 k). rewrite O4, O3; [reflexivity| |]; intros i j Hi Hj; nia.
  Qed.
End Overlap.
