(** * C81: a built hierarchical matrix never stores more coefficients than the dense matrix.

    Vocabulary: P_Info.v ([stored h]: the coefficients stored for a block, rank times (rows + columns), rows times columns, or half of it with the diagonal for a block with a
    symmetry; [dense_leaves], [low_leaves]; [qtotal]: sum), InfoModel.v ([hmatrix_information]: what the library reports), BlockSpec.v ([partitioned], [nonempty]: proved for the trees
    of ClusterTreeBuilder in C14), BlockSym.v ([disj]: no common index), OperandSpec.v ([positive_ranks]).  Exact arithmetic (the library computes these numbers in double). *)

From Coq Require Import List Arith ZArith QArith Bool Lia Permutation.
From Verif Require Import ClusterModel ClusterSpec IOModel IOSpec IOProofs BlockModel BlockSpec BlockProofs BlockFinal BlockSym P_Block Algebra BlasModel HMatModel HMatSpec HMatBuild P_HMat Field CompModel P_Comp DistModel InfoModel P_Info DiagProofs
  OperandSpec P_Operand StoreProofs.
Import ListNotations.
Local Open Scope nat_scope.

(** The factors are not larger than the block. *)
Definition worthwhile {K : Coef} (compress : ctree -> ctree -> lrm K) : Prop := forall t s,
  mr (lU (compress t s)) = c_size t -> mc (lV (compress t s)) = c_size s -> lrank (compress t s) * (c_size t + c_size s) <= c_size t * c_size s.
(** Number of coefficients stored. *)
Definition coefficients {K : Coef} (A : rtree (hinfo K)) : Q := (qtotal stored (dense_leaves A) + qtotal stored (low_leaves A))%Q.
(** Blocks that contain a diagonal index are not compressed. *)
Definition off_diagonal (B : bbuild) (T : ctree) : Prop := forall t s, In t (ct_nodes T) -> In s (ct_nodes T) -> bb_adm B t s = true -> disj t s.

(** What the compressors of the library return, with the automatic rank, is worthwhile (C33). *)
Theorem C81_compressors : forall (X : Num) (gen : nat -> nat -> car (fk (nfd X))) compress, (forall t s, automatic X gen t s (compress t s)) -> worthwhile compress.
Proof. intros X gen compress H t s _ _. apply (automatic_cost X gen). apply H. Qed.
Print Assumptions C81_compressors.

Section Main.
  Variable K : Coef.
  Notation C := (car K).

  Lemma in_Q : forall A (L : list (hinfo K)) n, (zlsum (dense_leaves A) (stored2 K) + zlsum (low_leaves A) (stored2 K) <= zlsum L (stored2 K))%Z -> (zlsum L (stored2 K) <= n)%Z ->
    (coefficients A <= inject_Z n / 2)%Q.
  Proof.
    intros A L n H1 H2. unfold coefficients. rewrite !(qtotal_stored K).
    apply Qle_trans with (inject_Z (zlsum (dense_leaves A) (stored2 K) + zlsum (low_leaves A) (stored2 K)) / 2)%Q.
    - rewrite inject_Z_plus. apply Qle_lteq. right. field.
    - unfold Qdiv. apply Qmult_le_compat_r; [|discriminate]. rewrite <- Zle_Qle. lia.
  Qed.
  Lemma leaf_small : forall sy B gen compress x, worthwhile compress -> 1 <= c_size (b_s x) -> (b_task x <> None) ->
    (stored2 K (hleaf K sy B gen compress x) <= 2 * (Z.of_nat (c_size (b_t x)) * Z.of_nat (c_size (b_s x))))%Z.
  Proof.
    intros sy B gen compress x W H1 Ht. unfold stored2. cbn [hleaf h_data h_sym h_t h_s]. unfold block_data. destruct (b_task x) as [[|]|] eqn:Et; [| |congruence].
    - destruct (_ && _) eqn:E.
      + apply andb_true_iff in E. destruct E as [E1 E2]. apply Nat.eqb_eq in E1, E2. specialize (W _ _ E1 E2). nia.
      + destruct (if b_sym x then sy else SyN); nia.
    - destruct (if b_sym x then sy else SyN); nia.
  Qed.

  Lemma nosym_leaves : forall B gen compress T S fuel A, bb_uplo B = UpN -> partitioned T (bb_tparts B) -> partitioned S (bb_sparts B) -> nonempty T -> nonempty S -> part_valid B T ->
    compress_ok K compress -> worthwhile compress -> hbuild K SyN B gen compress fuel T S = Some A ->
    let r := rt_val A in (coefficients A <= inject_Z (2 * (Z.of_nat (c_size (h_t r)) * Z.of_nat (c_size (h_s r)))) / 2)%Q.
  Proof.
    intros B gen compress T S fuel A HN HT HS NT NS HV Hco W HB r. unfold hbuild in HB. destruct (build_root B fuel T S) as [root|] eqn:E; [|discriminate]. injection HB as <-.
    destruct (nosym_built K SyN B gen compress Hco (fun q => ltac:(congruence)) T S fuel root eq_refl HN HT HS NT NS HV E) as (L & H1 & H2 & _ & _ & H5 & _).
    apply (in_Q _ L).
    - apply (reported_leaves K SyN B gen compress root L []); [|exact H1]. intros u Hu Hs.
      rewrite (final_sym B T S HT HS root (build_root_shape B T S HT HS HV fuel root E) HV (removed_N B HN T S) u Hu) in Hs. unfold has_sym in Hs. rewrite HN in Hs. discriminate.
    - apply Z.le_trans with (zlsum L (fun h => zbsum (h_t h) (h_s h) (fun _ _ => 2%Z))).
      + apply zlsum_le. intros h Hh. rewrite zbsum_const. destruct (H5 h Hh) as (x & -> & _ & Q & _). destruct (wf_leaves _ _ _ _ _ H2 _ Hh) as [(S1 & S2 & _) _]. cbn [hleaf h_t h_s] in *.
        pose proof (leaf_small SyN B gen compress x W S2 Q). lia.
      + pose proof (ztiling K _ L [] SyN (fun _ _ => 2%Z) H2) as Z. rewrite zbsum_const in Z. cbn [lsum] in Z. change (c0 Zc) with 0%Z in Z. unfold r. lia.
  Qed.

  (** ** Without symmetry: at most rows times columns *)
  Theorem C81_storage : forall B gen compress T S fuel A, bb_uplo B = UpN -> partitioned T (bb_tparts B) -> partitioned S (bb_sparts B) -> nonempty T -> nonempty S -> part_valid B T ->
    compress_ok K compress -> worthwhile compress -> hbuild K SyN B gen compress fuel T S = Some A ->
    (coefficients A <= qn (c_size (h_t (rt_val A))) * qn (c_size (h_s (rt_val A))))%Q.
  Proof.
    intros B gen compress T S fuel A HN HT HS NT NS HV Hco W HB. eapply Qle_trans; [exact (nosym_leaves B gen compress T S fuel A HN HT HS NT NS HV Hco W HB)|].
    unfold qn. rewrite !inject_Z_mult. change (inject_Z 2) with 2%Q. apply Qle_lteq. right. field.
  Qed.

  (** ** With symmetry: at most n (n + 1) / 2 *)
  Theorem C81_symmetric_storage : forall sy B gen compress T fuel A, sy = SyS \/ sy = SyH -> (forall i j, gen j i = flip sy (gen i j)) -> bb_uplo B <> UpN ->
    partitioned T (bb_tparts B) -> bb_sparts B = bb_tparts B -> nonempty T -> bb_cons B = true -> bb_tpart B = None -> bb_qpart B = None -> off_diagonal B T ->
    compress_ok K compress -> worthwhile compress -> hbuild K sy B gen compress fuel T T = Some A ->
    (coefficients A <= qn (c_size T) * (qn (c_size T) + 1) / 2)%Q.
  Proof.
    intros sy B gen compress T fuel A Hsy Hg HU HT HP NT HC Htp Hqp Hoff Hco W HB. unfold hbuild in HB. destruct (build_root B fuel T T) as [root|] eqn:E; [|discriminate]. injection HB as <-.
    assert (HR : bb_tpart B = None /\ bb_qpart B = None /\ T = T \/ (exists q, bb_tpart B = Some q /\ bb_qpart B = Some q /\ nth_error (bb_tparts B) q = Some T /\ (T = T \/ (c_rank T < 0)%Z /\ contains T T = true))) by auto.
    assert (Hgo : HMatBuild.gen_ok K sy gen). { intros Eh i. rewrite (Hg i i) at 2. rewrite Eh. reflexivity. }
    destruct (sym_built K sy B gen compress Hco Hgo T T fuel root Hsy HU HT HP NT HC HR E) as (L & Y & H1 & H2 & H3 & H4 & H5 & _).
    assert (HV : part_valid B T) by (unfold part_valid; rewrite Htp; exact I).
    assert (HS : partitioned T (bb_sparts B)) by (rewrite HP; exact HT).
    pose proof (build_root_shape B T T HT HS HV fuel root E) as HSh.
    destruct (final_leaves B T T HT HS HV (rT_wide B T HT HP NT HC T HR HU) (fun p u Ep => ltac:(congruence)) (witnessed_S B T HT HP NT HC T HR HU) root HSh) as [_ HF].
    set (f := fun i j : nat => if match bb_uplo B with UpL => j <=? i | _ => i <=? j end then 2%Z else 0%Z).
    assert (F0 : forall i j, (0 <= f i j)%Z) by (intros i j; unfold f; destruct (match bb_uplo B with UpL => j <=? i | _ => i <=? j end); lia).
    assert (FS : forall u, zbsum u u f = (Z.of_nat (c_size u) * (Z.of_nat (c_size u) + 1))%Z).
    { intros u. rewrite <- zsum_lower. unfold f. destruct (bb_uplo B).
      - congruence.
      - unfold zbsum. apply (sum_ext Zc). intros i _. apply (sum_ext Zc). intros j _. destruct (Nat.leb_spec (c_off u + j) (c_off u + i)); destruct (Nat.leb_spec j i); try reflexivity; lia.
      - rewrite zbsum_swap. unfold zbsum. apply (sum_ext Zc). intros i _. apply (sum_ext Zc). intros j _. destruct (Nat.leb_spec (c_off u + j) (c_off u + i)); destruct (Nat.leb_spec j i); try reflexivity; lia. }
    assert (LF : forall h, In h L -> (stored2 K h <= zbsum (h_t h) (h_s h) f)%Z).
    { intros h Hh. destruct (H5 h Hh) as (x & -> & Hx & Q1 & Q2 & _). destruct (wf_leaves _ _ _ _ _ H2 _ Hh) as [(S1 & S2 & _) _].
      destruct (HF x Hx) as (k & Ek & N1 & N2 & Br & _ & _ & Rm). cbn [hleaf h_t h_s] in *.
      assert (D : (disj (b_t x) (b_s x)) \/ (b_t x = b_s x /\ k = TDense)).
      { unfold branch in Br. destruct (low_rank_task B (b_t x) (b_s x)) eqn:El.
        - left. unfold low_rank_task in El. repeat (apply andb_true_iff in El; destruct El as [El ?]). apply Hoff; assumption.
        - assert (ClusterModel.is_leaf (b_s x) = true /\ ClusterModel.is_leaf (b_t x) = true /\ k = TDense) as (L1 & L2 & L3).
          { destruct (ClusterModel.is_leaf (b_s x)), (ClusterModel.is_leaf (b_t x)); cbn [andb] in Br; try discriminate; [injection Br as <-; auto|]. rewrite HC in Br.
            destruct ((c_rank (b_t x) <? 0)%Z && (0 <=? c_rank (b_s x))%Z); [discriminate|].
            destruct ((c_rank (b_s x) <? 0)%Z && (0 <=? c_rank (b_t x))%Z); discriminate. }
          apply is_leaf_children in L1, L2. destruct (le_lt_dec (c_off (b_t x) + c_size (b_t x)) (c_off (b_s x))) as [G1|G1]; [left; left; exact G1|].
          destruct (le_lt_dec (c_off (b_s x) + c_size (b_s x)) (c_off (b_t x))) as [G2|G2]; [left; right; exact G2|]. right. split; [|exact L3].
          apply (leaves_equal T (pt_node _ _ HT) (b_t x) (b_s x) (Nat.max (c_off (b_t x)) (c_off (b_s x)))); try assumption; lia. }
      destruct D as [D|[D1 D2]].
      - eapply Z.le_trans; [apply leaf_small; assumption|]. replace (2 * (Z.of_nat (c_size (b_t x)) * Z.of_nat (c_size (b_s x))))%Z with (zbsum (b_t x) (b_s x) (fun _ _ => 2%Z)) by (rewrite zbsum_const; lia).
        apply Z.eq_le_incl. apply zbsum_ext. intros i j Hi Hj. apply in_ivb in Hi, Hj. unfold f. unfold removed in Rm. rewrite Hqp in Rm. destruct (bb_uplo B); [congruence| |]; rewrite andb_true_r in Rm; apply Nat.leb_gt in Rm;
          unfold disj in D; [destruct (Nat.leb_spec j i)|destruct (Nat.leb_spec i j)]; try reflexivity; lia.
      - rewrite <- D1, FS. unfold stored2. cbn [hleaf h_data h_sym h_t h_s]. unfold block_data. rewrite Ek, D2, Q2, D1. unfold has_sym. rewrite !Nat.eqb_refl.
        destruct (bb_uplo B); [congruence| |]; cbn [andb]; destruct Hsy as [-> | ->]; lia. }
    eapply Qle_trans; [apply (in_Q _ L (Z.of_nat (c_size T) * (Z.of_nat (c_size T) + 1)))|].
    - apply (reported_leaves K sy B gen compress root L Y); [|exact H1]. intros u _ _. destruct Hsy; congruence.
    - rewrite <- FS. pose proof (ztiling K _ L Y sy f H2) as Z. rewrite H3, H4 in Z. rewrite Z.
      assert (0 <= zlsum Y (fun h => zbsum (h_t h) (h_s h) (fun i j => f j i)))%Z.
      { replace 0%Z with (zlsum Y (fun _ => 0%Z)) by (clear; induction Y as [|y Y IH]; [reflexivity|cbn [lsum]; rewrite IH; reflexivity]). apply zlsum_le. intros h _. apply zbsum_nonneg. intros i j. apply F0. }
      pose proof (zlsum_le _ L _ _ LF). lia.
    - unfold qn. rewrite inject_Z_mult, inject_Z_plus. apply Qle_lteq. right. reflexivity.
  Qed.

  (** ** What the library reports *)
  Lemma ratio_saving : forall A : rtree (hinfo K), (Z.of_nat (c_size (h_t (rt_val A))) * Z.of_nat (c_size (h_s (rt_val A))) < 4294967296)%Z ->
    1 <= c_size (h_t (rt_val A)) -> 1 <= c_size (h_s (rt_val A)) -> (0 < coefficients A)%Q ->
    exists I, hmatrix_information K A = Some I /\ (in_saving I < 1)%Q /\
      forall f, (0 < f)%Q -> (coefficients A <= f * (qn (c_size (h_t (rt_val A))) * qn (c_size (h_s (rt_val A)))))%Q -> (1 / f <= in_ratio I)%Q /\ (1 - f <= in_saving I)%Q.
  Proof.
    intros A Hs S1 S2 Hp. destruct (C43_statistics_are_true K A) as (I & E & _ & _ & _ & _ & _ & _ & _ & _ & _ & _ & _ & _ & _ & H). destruct (H Hs) as [R1 R2]. exists I. split; [exact E|].
    fold (coefficients A) in R1, R2. set (g := coefficients A) in *. set (F := (qn (c_size (h_t (rt_val A))) * qn (c_size (h_s (rt_val A))))%Q) in *.
    assert (F0 : (0 < F)%Q). { unfold F, qn. rewrite <- inject_Z_mult. change 0%Q with (inject_Z 0). rewrite <- Zlt_Qlt. nia. }
    split.
    - rewrite R2. apply Qplus_lt_r with (g / F)%Q. setoid_replace (g / F + (1 - g / F))%Q with 1%Q by ring. setoid_replace (g / F + 1)%Q with (1 + g / F)%Q by ring.
      rewrite <- (Qplus_0_r 1) at 1. apply Qplus_lt_r. apply Qlt_shift_div_l; [exact F0|]. rewrite Qmult_0_l. exact Hp.
    - intros f Hf Hb. split.
      + rewrite R1. apply Qle_shift_div_l; [exact Hp|]. setoid_replace (1 / f * g)%Q with (g / f)%Q by (field; intros Q; rewrite Q in Hf; discriminate Hf).
        apply Qle_shift_div_r; [exact Hf|]. rewrite Qmult_comm. exact Hb.
      + rewrite R2. apply Qplus_le_r with (g / F - 1 + f)%Q. setoid_replace (g / F - 1 + f + (1 - f))%Q with (g / F)%Q by ring. setoid_replace (g / F - 1 + f + (1 - g / F))%Q with f by ring.
        apply Qle_shift_div_r; [exact F0|]. exact Hb.
  Qed.
  Lemma stored_positive : forall sy B gen compress x, positive_ranks compress -> 1 <= c_size (b_t x) -> 1 <= c_size (b_s x) -> (0 < stored2 K (hleaf K sy B gen compress x))%Z.
  Proof.
    intros sy B gen compress x W H1 H2. unfold stored2. cbn [hleaf h_data h_sym h_t h_s]. unfold block_data. destruct (b_task x) as [[|]|] eqn:Et.
    - destruct (_ && _) eqn:E.
      + apply andb_true_iff in E. destruct E as [E1 E2]. apply Nat.eqb_eq in E1, E2. specialize (W _ _ E1 E2). nia.
      + destruct (if b_sym x then sy else SyN); nia.
    - destruct (if b_sym x then sy else SyN); nia.
    - destruct (if b_sym x then sy else SyN); nia.
  Qed.
  Lemma total_positive : forall sy B gen compress root L Y, positive_ranks compress -> (forall u, In u (preorder root) -> b_sym (rt_val u) = true -> sy <> SyN) ->
    (forall x, In x (rleaves root) -> b_task x <> None) -> hleaves K (hfill K sy B gen compress root) = Some (L, Y) ->
    (forall h, In h L -> exists x, h = hleaf K sy B gen compress x /\ 1 <= c_size (b_t x) /\ 1 <= c_size (b_s x)) -> (0 < coefficients (hfill K sy B gen compress root))%Q.
  Proof.
    intros sy B gen compress root L Y Hpos Hs Ht HL Hx. destruct (reported_exactly K sy B gen compress root L Y Hs Ht HL) as [E N].
    unfold coefficients. rewrite !(qtotal_stored K).
    setoid_replace (inject_Z (zlsum (dense_leaves (hfill K sy B gen compress root)) (stored2 K)) / 2 + inject_Z (zlsum (low_leaves (hfill K sy B gen compress root)) (stored2 K)) / 2)%Q
      with (inject_Z (zlsum L (stored2 K)) / 2)%Q by (rewrite <- E, inject_Z_plus; field).
    apply Qlt_shift_div_l; [reflexivity|]. change (0 * 2)%Q with (inject_Z 0). rewrite <- Zlt_Qlt. destruct L as [|h L]; [congruence|]. cbn [lsum]. change (cadd Zc) with Z.add.
    destruct (Hx h (or_introl eq_refl)) as (x & -> & S1 & S2). pose proof (stored_positive sy B gen compress x Hpos S1 S2).
    assert (0 <= zlsum L (stored2 K))%Z.
    { replace 0%Z with (zlsum L (fun _ => 0%Z)) by (clear; induction L as [|y L IH]; [reflexivity|cbn [lsum]; rewrite IH; reflexivity]). apply zlsum_le. intros a _. apply stored2_nonneg. }
    lia.
  Qed.
  Theorem C81_reported : forall B gen compress T S fuel A, bb_uplo B = UpN -> partitioned T (bb_tparts B) -> partitioned S (bb_sparts B) -> nonempty T -> nonempty S -> part_valid B T ->
    compress_ok K compress -> worthwhile compress -> positive_ranks compress -> hbuild K SyN B gen compress fuel T S = Some A ->
    (Z.of_nat (c_size (h_t (rt_val A))) * Z.of_nat (c_size (h_s (rt_val A))) < 4294967296)%Z ->
    exists I, hmatrix_information K A = Some I /\ (1 <= in_ratio I)%Q /\ (0 <= in_saving I)%Q /\ (in_saving I < 1)%Q.
  Proof.
    intros B gen compress T S fuel A HN HT HS NT NS HV Hco W Hpos HB Hs. pose proof (C81_storage B gen compress T S fuel A HN HT HS NT NS HV Hco W HB) as Hc.
    unfold hbuild in HB. destruct (build_root B fuel T S) as [root|] eqn:E; [|discriminate]. injection HB as <-.
    destruct (nosym_built K SyN B gen compress Hco (fun q => ltac:(congruence)) T S fuel root eq_refl HN HT HS NT NS HV E) as (L & H1 & H2 & H3 & H4 & H5 & _).
    pose proof (build_root_shape B T S HT HS HV fuel root E) as HSh.
    destruct (final_leaves B T S HT HS HV (removed_N B HN T S) (fun _ _ _ _ => removed_N B HN _ _) (witnessed_N B T S NT NS HN) root HSh) as [_ HF].
    assert (P : (0 < coefficients (hfill K SyN B gen compress root))%Q).
    { apply (total_positive SyN B gen compress root L [] Hpos).
      - intros u Hu Q. rewrite (final_sym B T S HT HS root HSh HV (removed_N B HN T S) u Hu) in Q. unfold has_sym in Q. rewrite HN in Q. discriminate.
      - intros x Hx. destruct (HF x Hx) as (k & -> & _). discriminate.
      - exact H1.
      - intros h Hh. destruct (H5 h Hh) as (x & -> & _). exists x. split; [reflexivity|]. destruct (wf_leaves _ _ _ _ _ H2 _ Hh) as [(S1 & S2 & _) _]. split; assumption. }
    assert (NZ : 1 <= c_size (h_t (rt_val (hfill K SyN B gen compress root))) /\ 1 <= c_size (h_s (rt_val (hfill K SyN B gen compress root)))).
    { unfold Qlt in P. split.
      - destruct (c_size (h_t (rt_val (hfill K SyN B gen compress root)))) eqn:Z0; [|lia]. exfalso. apply (Qlt_not_le _ _ P). eapply Qle_trans; [exact Hc|]. apply Qle_lteq. right. unfold qn. change (inject_Z (Z.of_nat 0)) with 0%Q. ring.
      - destruct (c_size (h_s (rt_val (hfill K SyN B gen compress root)))) eqn:Z0; [|lia]. exfalso. apply (Qlt_not_le _ _ P). eapply Qle_trans; [exact Hc|]. apply Qle_lteq. right. unfold qn. change (inject_Z (Z.of_nat 0)) with 0%Q. ring. }
    destruct (ratio_saving _ Hs (proj1 NZ) (proj2 NZ) P) as (I & EI & Q1 & Q2). destruct (Q2 1%Q ltac:(reflexivity)) as [Q3 Q4].
    { rewrite Qmult_1_l. exact Hc. }
    exists I. split; [exact EI|]. split; [exact Q3|]. split; [exact Q4|exact Q1].
  Qed.
  (** Half of the matrix: the ratio is at least 2 n / (n + 1). *)
  Theorem C81_symmetric_reported : forall sy B gen compress T fuel A, sy = SyS \/ sy = SyH -> (forall i j, gen j i = flip sy (gen i j)) -> bb_uplo B <> UpN ->
    partitioned T (bb_tparts B) -> bb_sparts B = bb_tparts B -> nonempty T -> bb_cons B = true -> bb_tpart B = None -> bb_qpart B = None -> off_diagonal B T ->
    compress_ok K compress -> worthwhile compress -> positive_ranks compress -> hbuild K sy B gen compress fuel T T = Some A ->
    (Z.of_nat (c_size T) * Z.of_nat (c_size T) < 4294967296)%Z ->
    exists I, hmatrix_information K A = Some I /\ (2 * qn (c_size T) / (qn (c_size T) + 1) <= in_ratio I)%Q /\ ((1 - 1 / qn (c_size T)) / 2 <= in_saving I)%Q /\ (in_saving I < 1)%Q.
  Proof.
    intros sy B gen compress T fuel A Hsy Hg HU HT HP NT HC Htp Hqp Hoff Hco W Hpos HB Hs.
    pose proof (C81_symmetric_storage sy B gen compress T fuel A Hsy Hg HU HT HP NT HC Htp Hqp Hoff Hco W HB) as Hc.
    unfold hbuild in HB. destruct (build_root B fuel T T) as [root|] eqn:E; [|discriminate]. injection HB as <-.
    assert (HR : bb_tpart B = None /\ bb_qpart B = None /\ T = T \/ (exists q, bb_tpart B = Some q /\ bb_qpart B = Some q /\ nth_error (bb_tparts B) q = Some T /\ (T = T \/ (c_rank T < 0)%Z /\ contains T T = true))) by auto.
    assert (Hgo : HMatBuild.gen_ok K sy gen). { intros Eh i. rewrite (Hg i i) at 2. rewrite Eh. reflexivity. }
    destruct (sym_built K sy B gen compress Hco Hgo T T fuel root Hsy HU HT HP NT HC HR E) as (L & Y & H1 & H2 & H3 & H4 & H5 & _).
    assert (HV : part_valid B T) by (unfold part_valid; rewrite Htp; exact I).
    assert (HS : partitioned T (bb_sparts B)) by (rewrite HP; exact HT).
    pose proof (build_root_shape B T T HT HS HV fuel root E) as HSh.
    destruct (final_leaves B T T HT HS HV (rT_wide B T HT HP NT HC T HR HU) (fun p u Ep => ltac:(congruence)) (witnessed_S B T HT HP NT HC T HR HU) root HSh) as [_ HF].
    assert (P : (0 < coefficients (hfill K sy B gen compress root))%Q).
    { apply (total_positive sy B gen compress root L Y Hpos).
      - intros u _ _. destruct Hsy; congruence.
      - intros x Hx. destruct (HF x Hx) as (k & -> & _). discriminate.
      - exact H1.
      - intros h Hh. destruct (H5 h Hh) as (x & -> & _). exists x. split; [reflexivity|]. destruct (wf_leaves _ _ _ _ _ H2 _ Hh) as [(S1 & S2 & _) _]. split; assumption. }
    assert (NZ : 1 <= c_size T). { apply (NT T). apply tN_root. }
    destruct (ratio_saving (hfill K sy B gen compress root)) as (I & EI & Q1 & Q2); try rewrite H3; try rewrite H4; try assumption.
    set (n := qn (c_size T)) in *. assert (n0 : (0 < n)%Q). { unfold n, qn. change 0%Q with (inject_Z 0). rewrite <- Zlt_Qlt. lia. }
    assert (n1 : (0 < n + 1)%Q). { eapply Qlt_trans; [exact n0|]. rewrite <- (Qplus_0_r n) at 1. apply Qplus_lt_r. reflexivity. }
    assert (nz : ~ (n == 0)%Q) by (intros Q; rewrite Q in n0; discriminate). assert (nz1 : ~ (n + 1 == 0)%Q) by (intros Q; rewrite Q in n1; discriminate).
    destruct (Q2 ((n + 1) / (2 * n))%Q) as [Q3 Q4].
    { apply Qlt_shift_div_l; [|rewrite Qmult_0_l; exact n1]. setoid_replace 0%Q with (2 * 0)%Q by reflexivity. apply Qmult_lt_l; [reflexivity|exact n0]. }
    { rewrite H3, H4. fold n. eapply Qle_trans; [exact Hc|]. apply Qle_lteq. right. field. exact nz. }
    exists I. split; [exact EI|]. split; [|split; [|exact Q1]].
    - eapply Qle_trans; [|exact Q3]. apply Qle_lteq. right. field. split; assumption.
    - eapply Qle_trans; [|exact Q4]. apply Qle_lteq. right. field. exact nz.
  Qed.
End Main.
Print Assumptions C81_reported.
Print Assumptions C81_symmetric_reported.
Print Assumptions C81_storage.
Print Assumptions C81_symmetric_storage.

Section Examples.
  (** Rank 1 when it pays, else no compression (the sizes are then wrong and the block is assembled densely). *)
  Definition scomp (t s : ctree) : lrm Zc :=
    if c_size t + c_size s <=? c_size t * c_size s then mkLrm (ones Zc (c_size t) 1) (ones Zc 1 (c_size s)) else mkLrm (ones Zc (S (c_size t)) 1) (ones Zc 1 (c_size s)).
  Lemma scomp_ok : compress_ok Zc scomp. Proof. intros t s. unfold scomp. destruct (_ <=? _); split; apply of_fun_wf. Qed.
  Lemma scomp_pos : positive_ranks scomp. Proof. intros t s _ _. unfold scomp. destruct (_ <=? _); unfold lrank; cbn; lia. Qed.
  Lemma scomp_worth : worthwhile scomp.
  Proof. intros t s H _. revert H. unfold scomp. destruct (_ <=? _) eqn:E; intros H; [apply Nat.leb_le in E|exfalso; cbn in H; lia]. unfold lrank. cbn. lia. Qed.
  Definition sgen (i j : nat) : Z := 1%Z.
  Definition shb (u : uplo) := hbuild Zc (match u with UpN => SyN | _ => SyS end) (oB u) sgen scomp 200 oT oT.
  Lemma s_built : forall u, match shb u with Some _ => true | None => false end = true. Proof. intros [| |]; vm_compute; reflexivity. Qed.
  (** 12 x 12, leaves of three points: 126 coefficients instead of 144, 69 instead of 78. *)
  Definition scoef (u : uplo) : Q := match shb u with Some A => Qred (coefficients A) | None => 0%Q end.
  Example s_coefficients : (scoef UpN, scoef UpL, scoef UpU) = (126 # 1, 69 # 1, 69 # 1)%Q. Proof. vm_compute. reflexivity. Qed.
  Lemma s_off : forall u T, off_diagonal (oB u) T.
  Proof. intros u T t s _ _ H. cbn in H. unfold ex_adm in H. apply orb_true_iff in H. rewrite !Nat.leb_le in H. unfold disj. lia. Qed.
  Lemma s_size : (c_size oT =? 12) = true. Proof. vm_compute. reflexivity. Qed.

  Lemma s_hyps_gen : forall parts B T fuel A, whole_build parts B T T -> bb_uplo B = UpN -> hbuild Zc SyN B sgen scomp fuel T T = Some A ->
    (coefficients A <= qn (c_size (h_t (rt_val A))) * qn (c_size (h_s (rt_val A))))%Q.
  Proof.
    intros parts B T fuel A W U E. assert (V : part_valid B T) by (unfold part_valid; rewrite (wb_whole _ _ _ _ W); exact I).
    exact (C81_storage Zc B sgen scomp T T fuel A U (wb_t _ _ _ _ W) (wb_s _ _ _ _ W) (wb_tsize _ _ _ _ W) (wb_ssize _ _ _ _ W) V scomp_ok scomp_worth E).
  Qed.
  Example C81_hyps : exists A, shb UpN = Some A /\ (coefficients A <= qn (c_size (h_t (rt_val A))) * qn (c_size (h_s (rt_val A))))%Q.
  Proof.
    pose proof (s_built UpN) as SB. unfold shb in *. destruct (hbuild _ _ _ _ _ _ _ _) as [A|] eqn:E; [|discriminate SB]. clear SB. exists A. split; [reflexivity|].
    exact (s_hyps_gen oparts (oB UpN) oT 200 A (o_whole UpN) eq_refl E).
  Qed.
  Lemma s_sym_gen : forall parts B T fuel A, whole_build parts B T T -> bb_uplo B <> UpN -> bb_sparts B = bb_tparts B -> bb_qpart B = None -> off_diagonal B T -> c_size T = 12 ->
    hbuild Zc SyS B sgen scomp fuel T T = Some A ->
    exists I, hmatrix_information Zc A = Some I /\ (2 * qn (c_size T) / (qn (c_size T) + 1) <= in_ratio I)%Q /\ ((1 - 1 / qn (c_size T)) / 2 <= in_saving I)%Q /\ (in_saving I < 1)%Q.
  Proof.
    intros parts B T fuel A W U P Hq O H12 E.
    apply (C81_symmetric_reported Zc SyS B sgen scomp T fuel A (or_introl eq_refl) (fun _ _ => eq_refl) U (wb_t _ _ _ _ W) P (wb_tsize _ _ _ _ W) (wb_consistent _ _ _ _ W) (wb_whole _ _ _ _ W) Hq O scomp_ok scomp_worth scomp_pos E).
    rewrite H12. reflexivity.
  Qed.
  Example C81_symmetric_hyps : forall u, u <> UpN -> exists A I, shb u = Some A /\ hmatrix_information Zc A = Some I /\
    (2 * qn (c_size oT) / (qn (c_size oT) + 1) <= in_ratio I)%Q /\ ((1 - 1 / qn (c_size oT)) / 2 <= in_saving I)%Q /\ (in_saving I < 1)%Q.
  Proof.
    intros u Hu. pose proof (s_built u) as SB. assert (Es : shb u = hbuild Zc SyS (oB u) sgen scomp 200 oT oT) by (destruct u; [congruence|reflexivity|reflexivity]).
    rewrite Es in *. clear Es. destruct (hbuild _ _ _ _ _ _ _ _) as [A|] eqn:E; [|discriminate SB]. clear SB. exists A.
    assert (U : bb_uplo (oB u) <> UpN) by exact Hu. assert (P : bb_sparts (oB u) = bb_tparts (oB u)) by reflexivity. assert (Q : bb_qpart (oB u) = None) by reflexivity.
    destruct (s_sym_gen oparts (oB u) oT 200 A (o_whole u) U P Q (s_off u oT) (proj1 (Nat.eqb_eq _ _) s_size) E) as (I & H). exists I. split; [reflexivity|exact H].
  Qed.

  (** ** Outside the guards *)
  (** Factors that do not pay (a user-supplied generator may return any rank): 234 coefficients for 144 entries. *)
  Definition fat (r : nat) (t s : ctree) : lrm Zc := mkLrm (ones Zc (c_size t) r) (ones Zc r (c_size s)).
  Theorem C81_worthwhile_refuted : match hbuild Zc SyN (oB UpN) sgen (fat 4) 200 oT oT with Some A => negb (Qle_bool (coefficients A) (144 # 1)) | None => false end = true.
  Proof. vm_compute. reflexivity. Qed.
  (** An admissibility condition that accepts diagonal blocks: rank 6 pays for 12 x 12, but 144 coefficients are stored for a symmetric matrix described by 78. *)
  Theorem C81_off_diagonal_refuted : match hbuild Zc SyS (mkBbuild None UpL None 0 0 true (fun _ _ => true) (ct_children oT) (ct_children oT)) sgen (fat 6) 200 oT oT with
    | Some A => Qle_bool (144 # 1) (coefficients A) | None => false end = true.
  Proof. vm_compute. reflexivity. Qed.
End Examples.
Print Assumptions C81_hyps.
Print Assumptions C81_symmetric_hyps.
