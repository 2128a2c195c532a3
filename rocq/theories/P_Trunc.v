(** * Property C70: the accuracy of truncated sums and products.

    Vocabulary: TruncSpec.v ([truncates], [svd_truncates]: the contracts of the recompression and of the truncated SVD with tolerance eps;
    [close e r c f L]: L is an r x c low-rank matrix at a Frobenius distance at most e of the matrix f; [updated alpha beta k f g L]: the matrix
    beta L + alpha f g), AccSpec.v ([fnorm], [modulus], [block_at]), ArithSpec.v ([mat_op], [lr_op]: a dense, low-rank matrix such that op of it is the given matrix;
    [hrep parts M A]: the hierarchical matrix A represents M), HMatSpec.v ([op_fun]).  Exact arithmetic except for the truncations. *)

From Coq Require Import List Arith ZArith Bool Lia Ring Reals Lra.
From Verif Require Import ClusterModel ClusterSpec IOModel BlockModel BlockSpec BlockSym Algebra Field BlasModel HMatModel HMatSpec HMatBuild
  ArithModel ArithSpec ArithDense ArithLr ArithTree ArithHier ArithDest P_Arith RealNum CompModel CompReal CompSpec RecompModel RecompSpec P_Recomp AccSpec AccProofs P_Acc TruncSpec TruncProofs.
Import ListNotations.
Local Open Scope R_scope.

(** ** The contracts hold *)
Theorem C70_recompression_real : forall geqrf gelqf gesvd eps, 0 <= eps ->
  (forall L M N, (1 <= M)%nat -> (1 <= N)%nat -> wf_lrm L M N -> (1 <= lrank L)%nat -> lapack_documented (X := Rn) geqrf gelqf gesvd sqrt L M N) ->
  truncates (K := Rc) Rabs eps (recompressed Rn geqrf gelqf gesvd sqrt (smallR eps)).
Proof.
  intros geqrf gelqf gesvd eps He D L r c Hr Hc W RL. destruct (C63_recompression_real geqrf gelqf gesvd eps L r c He Hr Hc W RL (D L r c Hr Hc W RL)) as (L' & E & W' & RK & B & _).
  unfold recompressed. rewrite E. split; [|change (fk (nfd Rn)) with Rc in *; lia]. split; [exact W'|]. split; [apply RK|]. rewrite !fnorm_R. exact B.
Qed.
Theorem C70_recompression_complex : forall geqrf gelqf gesvd eps, 0 <= eps ->
  (forall L M N, (1 <= M)%nat -> (1 <= N)%nat -> wf_lrm L M N -> (1 <= lrank L)%nat -> lapack_documented (X := Cn) geqrf gelqf gesvd sqrtC L M N) ->
  truncates (K := Cc) Cmod eps (recompressed Cn geqrf gelqf gesvd sqrtC (smallC eps)).
Proof.
  intros geqrf gelqf gesvd eps He D L r c Hr Hc W RL. destruct (C63_recompression_complex geqrf gelqf gesvd eps L r c He Hr Hc W RL (D L r c Hr Hc W RL)) as (L' & E & W' & RK & B & _).
  unfold recompressed. rewrite E. split; [|change (fk (nfd Cn)) with Cc in *; lia]. split; [exact W'|]. split; [apply RK|]. rewrite !fnorm_C. exact B.
Qed.
Theorem C70_svd_real : forall gesvd eps, 0 <= eps ->
  (forall A M N, (1 <= M)%nat -> (1 <= N)%nat -> wf_mat A M N -> svd_documented (X := Rn) gesvd sqrt M N (me A)) ->
  svd_truncates (K := Rc) Rabs eps (svd_truncated Rn gesvd sqrt (smallR eps)).
Proof.
  intros gesvd eps He D A r c Hr Hc W. destruct (C63_truncated_svd_real gesvd eps A r c He Hr Hc W (D A r c Hr Hc W)) as (L' & E & W' & RK & B & _).
  unfold svd_truncated. rewrite E. split; [exact W'|]. split; [apply RK|]. rewrite !fnorm_R. exact B.
Qed.
Theorem C70_svd_complex : forall gesvd eps, 0 <= eps ->
  (forall A M N, (1 <= M)%nat -> (1 <= N)%nat -> wf_mat A M N -> svd_documented (X := Cn) gesvd sqrtC M N (me A)) ->
  svd_truncates (K := Cc) Cmod eps (svd_truncated Cn gesvd sqrtC (smallC eps)).
Proof.
  intros gesvd eps He D A r c Hr Hc W. destruct (C63_truncated_svd_complex gesvd eps A r c He Hr Hc W (D A r c Hr Hc W)) as (L' & E & W' & RK & B & _).
  unfold svd_truncated. rewrite E. split; [exact W'|]. split; [apply RK|]. rewrite !fnorm_C. exact B.
Qed.
Print Assumptions C70_svd_complex.

Section Main.
  Variable K : Coef.
  Variable md : car K -> R.
  Hypothesis MD : modulus K md.
  Notation C := (car K).
  Add Ring KrTP : (c_ring K).
  Variable eps : R.
  Hypothesis He : 0 <= eps.
  Variables (recompress : lrm K -> lrm K) (svd_factors : mat K -> lrm K).
  Hypothesis HT : truncates md eps recompress.
  Hypothesis HSV : svd_truncates md eps svd_factors.
  Variable parts : ctree -> list ctree.

  (** ** Sum of two low-rank matrices on nested blocks *)
  Theorem C70_low_rank_sum : forall (X Y : lrm K) (Xt Xs Yt Ys : ctree), (1 <= c_size Yt)%nat -> (1 <= c_size Ys)%nat ->
    wf_lrm X (c_size Xt) (c_size Xs) -> wf_lrm Y (c_size Yt) (c_size Ys) -> (1 <= lrank X + lrank Y)%nat ->
    (contains Yt Xt = true /\ contains Ys Xs = true) \/ (contains Xt Yt = true /\ contains Xs Ys = true) ->
    exists L, add_lrmat_lrmat K recompress X Xt Xs Y Yt Ys = Some L /\ (lrank L <= lrank X + lrank Y)%nat /\
      close md (eps * fnorm md (c_size Yt) (c_size Ys) (exact_sum X Xt Xs Y Yt Ys)) (c_size Yt) (c_size Ys) (exact_sum X Xt Xs Y Yt Ys) L.
  Proof.
    intros X Y Xt Xs Yt Ys H1 H2 HX HY HR Hc. destruct (sum_facts K X Y Xt Xs Yt Ys H1 H2 HX HY Hc) as (L0 & E & W & _ & R2 & V).
    assert (R1 : (1 <= lrank L0)%nat) by lia.
    exists (if negb (lrank Y =? 0)%nat then recompress L0 else L0). split; [rewrite E; destruct (lrank Y =? 0)%nat; reflexivity|]. split.
    - destruct (HT L0 _ _ H1 H2 W R1) as [_ Q]. destruct (negb _); lia.
    - apply (truncated_or_not K md MD eps He recompress HT); [exact H1|exact H2|]. split; [exact W|]. split; [exact R1|]. exact V.
  Qed.

  (** ** Products into a low-rank matrix; L is empty, or has the right size *)
  Section Products.
    Variables (ta tb : trans) (alpha beta : C) (r k c : nat) (f g : nat -> nat -> C).
    Hypothesis Hr : (1 <= r)%nat.
    Hypothesis Hk : (1 <= k)%nat.
    Hypothesis Hc : (1 <= c)%nat.
    Variable L : lrm K.
    Hypothesis HL : lrank L = 0%nat \/ wf_lrm L r c.
    Notation result := (updated alpha beta k f g L).
    Definition one_truncation (out : option (lrm K)) : Prop := exists L', out = Some L' /\ close md (eps * fnorm md r c result) r c result L'.
    Definition two_truncations (out : option (lrm K)) : Prop := exists L', out = Some L' /\
      close md (eps * fnorm md r c result + eps * (1 + eps) * fnorm md r c (product_of alpha k f g)) r c result L'.

    Theorem C70_matrix_low_rank : forall A B, mat_op ta A r k f -> lr_op tb B k c g ->
      one_truncation (add_matrix_lrmat_product_lr K recompress ta tb alpha A B beta L).
    Proof.
      intros A B HA HB. apply (from_exact K md MD eps He recompress HT (add_matrix_lrmat_product_lr K (fun L => L) ta tb alpha A B beta L)); [exact Hr|exact Hc|apply shape_times|].
      apply dl_lr; try assumption. apply recompress_id.
    Qed.
    Theorem C70_low_rank_matrix : forall A B, lr_op ta A r k f -> mat_op tb B k c g ->
      one_truncation (add_lrmat_matrix_product_lr K recompress ta tb alpha A B beta L).
    Proof.
      intros A B HA HB. apply (from_exact K md MD eps He recompress HT (add_lrmat_matrix_product_lr K (fun L => L) ta tb alpha A B beta L)); [exact Hr|exact Hc|apply shape_ltimes|].
      apply ld_lr; try assumption. apply recompress_id.
    Qed.
    Theorem C70_low_rank_low_rank : forall A B, lr_op ta A r k f -> lr_op tb B k c g ->
      one_truncation (add_lrmat_lrmat_product_lr K recompress ta tb alpha A B beta L).
    Proof.
      intros A B HA HB. apply (from_exact K md MD eps He recompress HT (add_lrmat_lrmat_product_lr K (fun L => L) ta tb alpha A B beta L)); [exact Hr|exact Hc|apply shape_ll|].
      apply ll_lr; try assumption. apply recompress_id.
    Qed.

    Lemma two_from : forall AB, wf_mat AB r c -> (forall i j, (i < r)%nat -> (j < c)%nat -> me AB i j = product_of alpha k f g i j) ->
      two_truncations (add_svd K recompress svd_factors AB beta L).
    Proof.
      intros AB W V. destruct (add_svd_close K md MD eps He recompress HT svd_factors HSV AB L beta r c Hr Hc W HL) as (L' & E & Q). exists L'. split; [exact E|].
      rewrite <- (fnorm_eq K md r c (me AB) _ V).
      rewrite <- (fnorm_eq K md r c (fun i j => cadd K (cmul K beta (lr_entry L i j)) (me AB i j)) result); [|intros; unfold updated; rewrite V by assumption; reflexivity].
      eapply close_ext; [|exact Q]. intros i j Hi Hj. cbv beta. rewrite V by assumption. reflexivity.
    Qed.
    Theorem C70_matrix_matrix : forall A B, mat_op ta A r k f -> mat_op tb B k c g ->
      two_truncations (add_matrix_matrix_product_lr K recompress svd_factors ta tb alpha A B beta L).
    Proof.
      intros A B HA HB. unfold add_matrix_matrix_product_lr. destruct (mat_op_dims K _ _ _ _ _ HA) as [-> _]. destruct (mat_op_dims K _ _ _ _ _ HB) as [_ ->].
      destruct (gemm_mat_ok K ta tb alpha A B beta (zeros K r c) r k c f g) as (AB & E1 & E2 & E3); try assumption; [apply zeros_wf|].
      rewrite E1. apply two_from; [exact E2|]. intros i j Hi Hj. rewrite E3 by assumption. rewrite zeros_me. unfold product_of. ring.
    Qed.
  End Products.

  (** ** Products of a hierarchical matrix and a dense or low-rank matrix, into a low-rank matrix *)
  Section HProducts.
    Variables (ta tb : trans) (alpha beta : C) (M : nat -> nat -> C) (H : rtree (hinfo K)).
    Hypothesis HH : hrep parts M H.
    Variable L : lrm K.
    (** op(H), as a matrix numbered from 0. *)
    Definition opened (t : trans) : nat -> nat -> C := fun i j => op_fun t M (c_off (out_of K t H) + i)%nat (c_off (mid_of K t H) + j)%nat.

    Theorem C70_hmatrix_low_rank : forall B c g, (1 <= c)%nat -> lr_op tb B (c_size (mid_of K ta H)) c g -> lrank L = 0%nat \/ wf_lrm L (c_size (out_of K ta H)) c ->
      one_truncation alpha beta (c_size (out_of K ta H)) (c_size (mid_of K ta H)) c (opened ta) g L (add_hmatrix_lrmat_product_lr K recompress ta tb alpha H B beta L).
    Proof.
      intros B c g Hc HB HL. destruct (out_size K parts ta M H HH) as [H1 H2].
      apply (from_exact K md MD eps He recompress HT (add_hmatrix_lrmat_product_lr K (fun L => L) ta tb alpha H B beta L)); [exact H1|exact Hc|apply shape_times|].
      unfold add_hmatrix_lrmat_product_lr. rewrite (rows_A K ta H). apply times_lr_lr_ok; try assumption; [exact (hm_R K parts ta M H HH)|apply recompress_id].
    Qed.
    Theorem C70_hmatrix_matrix : forall B c g, (1 <= c)%nat -> mat_op tb B (c_size (mid_of K ta H)) c g -> lrank L = 0%nat \/ wf_lrm L (c_size (out_of K ta H)) c ->
      two_truncations alpha beta (c_size (out_of K ta H)) (c_size (mid_of K ta H)) c (opened ta) g L (add_hmatrix_matrix_product_lr K recompress svd_factors ta tb alpha H B beta L).
    Proof.
      intros B c g Hc HB HL. destruct (out_size K parts ta M H HH) as [H1 H2]. unfold add_hmatrix_matrix_product_lr. rewrite (rows_A K ta H).
      destruct (mat_op_dims K _ _ _ _ _ HB) as [_ ->]. destruct (hm_R K parts ta M H HH tb alpha B (c0 K) (zeros K (c_size (out_of K ta H)) c) c g Hc HB (zeros_wf K _ c)) as (AB & E1 & E2 & E3).
      rewrite E1. apply two_from; try assumption. intros i j Hi Hj. rewrite E3 by assumption. rewrite zeros_me. unfold product_of, opened, loc. ring.
    Qed.
    Theorem C70_low_rank_hmatrix : forall A r f, (1 <= r)%nat -> lr_op ta A r (c_size (out_of K tb H)) f -> lrank L = 0%nat \/ wf_lrm L r (c_size (mid_of K tb H)) ->
      one_truncation alpha beta r (c_size (out_of K tb H)) (c_size (mid_of K tb H)) f (opened tb) L (add_lrmat_hmatrix_product_lr K recompress ta tb alpha A H beta L).
    Proof.
      intros A r f Hr HA HL. destruct (out_size K parts tb M H HH) as [H1 H2].
      apply (from_exact K md MD eps He recompress HT (add_lrmat_hmatrix_product_lr K (fun L => L) ta tb alpha A H beta L)); [exact Hr|exact H2|apply shape_ltimes|].
      unfold add_lrmat_hmatrix_product_lr. rewrite (cols_B K tb H). apply lr_times_lr_ok; try assumption; [exact (hm_L K parts tb M H HH)|apply recompress_id].
    Qed.
    Theorem C70_matrix_hmatrix : forall A r f, (1 <= r)%nat -> mat_op ta A r (c_size (out_of K tb H)) f -> lrank L = 0%nat \/ wf_lrm L r (c_size (mid_of K tb H)) ->
      two_truncations alpha beta r (c_size (out_of K tb H)) (c_size (mid_of K tb H)) f (opened tb) L (add_matrix_hmatrix_product_lr K recompress svd_factors ta tb alpha A H beta L).
    Proof.
      intros A r f Hr HA HL. destruct (out_size K parts tb M H HH) as [H1 H2]. unfold add_matrix_hmatrix_product_lr. rewrite (cols_B K tb H).
      destruct (mat_op_dims K _ _ _ _ _ HA) as [-> _]. destruct (hm_L K parts tb M H HH ta alpha A (c0 K) (zeros K r (c_size (mid_of K tb H))) r f Hr HA (zeros_wf K r _)) as (AB & E1 & E2 & E3).
      rewrite E1. apply two_from; try assumption. intros i j Hi Hj. rewrite E3 by assumption. rewrite zeros_me. unfold product_of, opened, loc. ring.
    Qed.
  End HProducts.

  (** ** A low-rank matrix added to a hierarchical matrix: the result is a hierarchical matrix of the same kind, within eps of the sum *)
  Theorem C70_add_low_rank : forall (L : lrm K) M (A : rtree (hinfo K)), hrep parts M A ->
    wf_lrm L (c_size (h_t (rt_val A))) (c_size (h_s (rt_val A))) -> (1 <= lrank L)%nat ->
    let P := h_t (rt_val A) in let Q := h_s (rt_val A) in
    let S := fun i j => cadd K (M i j) (lr_entry L (i - c_off P) (j - c_off Q)) in
    exists B M', add_lrmat_hmatrix K recompress L A = Some B /\ hrep parts M' B /\
      fnorm md (c_size P) (c_size Q) (block_at (fun i j => csub K (M' i j) (S i j)) P Q) <= eps * fnorm md (c_size P) (c_size Q) (block_at S P Q).
  Proof.
    intros L M A HA WL RL P Q S. unfold add_lrmat_hmatrix. apply (rounded_leaves K md MD eps He parts _ M S A HA).
    intros h Hh. destruct (hrep_hl K parts M A HA h Hh) as (C1 & C2 & Esy & Lk & T1 & T2 & EV).
    fold P Q in C1, C2. unfold leaf_ok in Lk. destruct (h_data h) as [|D|Y] eqn:Ed; [contradiction| |].
    - destruct (dense_leaf_sum K parts L P Q h D T1 T2 C1 C2 WL RL Lk) as (D' & E1 & E2 & E3 & E4). exists (DDense D'). split; [exact E1|]. split; [exact E2|]. split; [exact E3|].
      rewrite (fnorm_zero K md MD); [apply Rmult_le_pos; [exact He|apply sqrt_pos]|].
      intros a b Ha Hb. unfold stored, S. cbn [set_data h_data]. rewrite E4 by assumption. specialize (EV a b Ha Hb). unfold stored in EV. rewrite Ed in EV. rewrite EV. ring.
    - destruct Lk as [WY RY]. destruct (sum_facts K L Y P Q (h_t h) (h_s h) (ct_size parts _ T1) (ct_size parts _ T2) WL WY) as (L0 & E & W & R1 & _ & V); [right; split; assumption|].
      rewrite E. destruct (Nat.eqb_spec (lrank Y) 0) as [Z|Z]; [lia|]. exists (DLow (recompress L0)). split; [reflexivity|]. split; [exact I|].
      destruct (HT L0 _ _ (ct_size parts _ T1) (ct_size parts _ T2) W (R1 RY)) as [(Q1 & Q2 & Q3) _].
      split; [unfold leaf_ok; cbn [set_data h_data h_t h_s]; split; assumption|].
      assert (VS : forall a b, (a < c_size (h_t h))%nat -> (b < c_size (h_s h))%nat -> lr_entry L0 a b = S (c_off (h_t h) + a)%nat (c_off (h_s h) + b)%nat).
      { intros a b Ha Hb. rewrite V by assumption. unfold exact_sum, S. specialize (EV a b Ha Hb). unfold stored in EV. rewrite Ed in EV. rewrite <- EV.
        pose proof (proj1 (contains_iff P (h_t h)) C1) as B1. pose proof (proj1 (contains_iff Q (h_s h)) C2) as B2.
        assert (in_iv (c_off (h_t h) + a) (interval P) = true) as -> by (apply in_ivb; lia).
        assert (in_iv (c_off (h_s h) + b) (interval Q) = true) as -> by (apply in_ivb; lia). reflexivity. }
      cbn [set_data h_t h_s]. unfold block_at. rewrite <- (fnorm_eq K md _ _ (lr_entry L0) _ VS). eapply Rle_trans; [|exact Q3]. right. apply (fnorm_eq K md).
      intros a b Ha Hb. unfold error_of, stored. cbn [set_data h_data]. rewrite <- VS by assumption. reflexivity.
  Qed.
End Main.
Print Assumptions C70_add_low_rank.
Print Assumptions C70_matrix_hmatrix.
Print Assumptions C70_low_rank_low_rank.

(** ** The hypotheses hold: a truncation that loses everything has the relative error 1 *)
Section Example.
  Definition absZ (z : Z) : R := Rabs (IZR z).
  Lemma absZ_modulus : modulus Zc absZ.
  Proof.
    constructor; unfold absZ; cbn.
    - apply Rabs_R0.
    - intros. apply Rabs_pos.
    - intros. rewrite mult_IZR. apply Rabs_mult.
    - intros. rewrite plus_IZR. apply Rabs_triang.
    - reflexivity.
  Qed.
  Definition nothing (L : lrm Zc) : lrm Zc := mkLrm (zeros Zc (mr (lU L)) 1) (zeros Zc 1 (mc (lV L))).
  Definition nothing' (A : mat Zc) : lrm Zc := mkLrm (zeros Zc (mr A) 1) (zeros Zc 1 (mc A)).
  Lemma zero_entry : forall (r c i j : nat), lr_entry (K := Zc) (mkLrm (zeros Zc r 1) (zeros Zc 1 c)) i j = 0%Z.
  Proof. intros. unfold lr_entry. cbn [lU lV lrank zeros of_fun mkMat mc]. cbn [sum]. rewrite !zeros_me. reflexivity. Qed.
  Lemma nothing_ok : truncates (K := Zc) absZ 1 nothing.
  Proof.
    intros L r c Hr Hc [[U1 _] [_ [V2 _]]] RL. unfold nothing. rewrite U1, V2. split; [|exact RL]. split; [split; apply zeros_wf|]. split; [cbn; lia|].
    rewrite Rmult_1_l. right. apply (fnorm_ext Zc absZ). intros i j _ _. unfold error_of. rewrite zero_entry. cbn. rewrite Z.sub_0_r. reflexivity.
  Qed.
  Lemma nothing_ok' : svd_truncates (K := Zc) absZ 1 nothing'.
  Proof.
    intros A r c Hr Hc [A1 [A2 _]]. unfold nothing'. rewrite A1, A2. split; [split; apply zeros_wf|]. split; [cbn; lia|].
    rewrite Rmult_1_l. right. apply (fnorm_ext Zc absZ). intros i j _ _. unfold error_of. rewrite zero_entry. cbn. rewrite Z.sub_0_r. reflexivity.
  Qed.
  Definition exL : lrm Zc := mkLrm (mkMat (K := Zc) 3 1 [1; 1; 1]%Z) (mkMat (K := Zc) 1 3 [1; 2; 3]%Z).
  Example C70_hyps : exists B M', add_lrmat_hmatrix Zc nothing exL xA = Some B /\ hrep (K := Zc) xparts M' B.
  Proof.
    destruct (C70_add_low_rank Zc absZ absZ_modulus 1 ltac:(lra) nothing nothing_ok xparts exL xM xA x_rep) as (B & M' & E & H & _).
    - split; repeat split.
    - cbn. lia.
    - exists B, M'. auto.
  Qed.
  Example C70_product_hyps : exists L, add_lrmat_lrmat_product_lr Zc nothing TrN TrN 2%Z exL exL 3%Z exL = Some L /\ wf_lrm L 3 3.
  Proof.
    assert (O : lr_op (K := Zc) TrN exL 3 3 (lr_entry exL)) by (split; [split; repeat split|split; [cbn; lia|reflexivity]]).
    assert (W : wf_lrm exL 3 3) by (split; repeat split).
    destruct (C70_low_rank_low_rank Zc absZ absZ_modulus 1 ltac:(lra) nothing nothing_ok TrN TrN 2%Z 3%Z 3 3 3 (lr_entry exL) (lr_entry exL) ltac:(lia) ltac:(lia) ltac:(lia) exL (or_intror W) exL exL O O)
      as (L & E & Q & _). exists L. auto.
  Qed.
  Example C70_dense_hyps : exists L, add_matrix_matrix_product_lr Zc nothing nothing' TrN TrT 2%Z (lU exL) (lU exL) 3%Z exL = Some L /\ wf_lrm L 3 3.
  Proof.
    assert (O : mat_op (K := Zc) TrN (lU exL) 3 1 (me (lU exL))) by (split; [repeat split|reflexivity]).
    assert (O' : mat_op (K := Zc) TrT (lU exL) 1 3 (fun i j => me (lU exL) j i)) by (split; [repeat split|reflexivity]).
    assert (W : wf_lrm exL 3 3) by (split; repeat split).
    destruct (C70_matrix_matrix Zc absZ absZ_modulus 1 ltac:(lra) nothing nothing' nothing_ok nothing_ok' TrN TrT 2%Z 3%Z 3 1 3 _ _ ltac:(lia) ltac:(lia) ltac:(lia) exL (or_intror W) (lU exL) (lU exL) O O')
      as (L & E & Q & _). exists L. auto.
  Qed.
  (** ... and the error is there: with a truncation, C54_add_low_rank does not hold.  The low-rank block of the result is 0, that of the sum is (8, 13). *)
  Theorem C70_exact_refuted : option_map (fun B => match rt_children B with [_; _; b; _] =>
      match h_data (rt_val b) with DLow L => [lr_entry L 0 0; lr_entry L 1 0] | _ => [] end | _ => [] end)
    (add_lrmat_hmatrix Zc nothing exL xA) = Some [0; 0]%Z /\
    [xM 0 2 + lr_entry exL 0 2; xM 1 2 + lr_entry exL 1 2]%Z = [8; 13]%Z.
  Proof. split; vm_compute; reflexivity. Qed.
End Example.
