(** * Updates of a hierarchical matrix in place. *)

From Coq Require Import List Arith ZArith Bool Lia Ring Permutation.
From Verif Require Import ClusterModel ClusterSpec ClusterProofs IOModel IOSpec IOProofs BlockModel BlockSpec BlockProofs BlockSym Algebra BlasModel BlasProofs
  HMatModel HMatSpec HMatProofs HMatProducts HMatBuild HMatTop DistModel DistVec ArithModel ArithSpec ArithDense ArithLr ArithTree ArithHier ArithProd.
Import ListNotations.

Section P.
  Variable K : Coef.
  Notation C := (car K).
  Notation "0" := (c0 K).
  Notation "1" := (c1 K).
  Notation "x + y" := (cadd K x y).
  Notation "x * y" := (cmul K x y).
  Add Ring KringF : (c_ring K).
  Notation hmat := (rtree (hinfo K)).
  Notation hv := rt_val.
  Variable parts : ctree -> list ctree.
  Notation ct := (cluster_tree parts).
  Notation hrep := (hrep parts).

  Lemma leaf_ok_data : forall i : hinfo K, leaf_ok i -> h_data i <> DNone.
  Proof. intros i H E. unfold leaf_ok in H. rewrite E in H. exact H. Qed.
  Lemma set_data_same : forall (i : hinfo K), set_data K i (h_data i) = i.
  Proof. intros []. reflexivity. Qed.

  (** ** Properties of the relation between a matrix and its update *)
  Lemma hupd_block : forall g (A B : hmat), hupd g A B -> block_of B = block_of A.
  Proof. intros g A B H. destruct H as [i i' (E1 & E2 & _) _ _|i cs cs' _ _]; [unfold block_of; cbn [rt_val]; congruence|reflexivity]. Qed.
  Lemma hupd_blocks : forall g (cs cs' : list hmat), Forall2 (hupd g) cs cs' -> map block_of cs' = map block_of cs.
  Proof. intros g cs cs' H. induction H as [|c c' cs cs' H1 H2 IH]; [reflexivity|]. cbn [map]. rewrite IH, (hupd_block _ _ _ H1). reflexivity. Qed.
  Lemma hupd_hdest : forall A : hmat, hdest A -> forall g B, hupd g A B -> hdest B.
  Proof.
    intros A H. induction H as [i L|i cs D L N I H IH]; intros g B U; inversion U as [x x' S1 S2 S3|x xs xs' S1 S2]; subst.
    - apply hdest_leaf, S2.
    - destruct (leaf_ok_data i L S1).
    - destruct S1 as (_ & _ & _ & _ & _ & _ & S1). rewrite D in S1. apply leaf_ok_data in S2. destruct (h_data x'); try contradiction; congruence.
    - apply hdest_node; try assumption; rewrite ?(hupd_blocks _ _ _ S2); try assumption.
      intros c Hc. clear - IH S2 Hc. induction S2 as [|a b l l' U S2 IHs]; [contradiction|]. destruct Hc as [<-|Hc]; [apply (IH a (or_introl eq_refl) g b U)|].
      apply IHs; [intros c' Hc'; apply IH; right; exact Hc'|exact Hc].
  Qed.
  Lemma hupd_refl : forall A : hmat, hdest A -> hupd (fun _ _ v => v) A A.
  Proof.
    intros A H. induction H as [i L|i cs D L N I H IH].
    - apply hupd_leaf; [|exact L|reflexivity]. do 6 (split; [reflexivity|]). destruct (h_data i); try exact I; reflexivity.
    - apply hupd_node; [exact D|]. clear - IH. induction cs as [|c cs IHc]; constructor; [apply IH; left; reflexivity|]. apply IHc. intros x Hx. apply IH. right. exact Hx.
  Qed.
  Lemma hupd_ext : forall (g h : nat -> nat -> C -> C) A B, (forall i j v, g i j v = h i j v) -> hupd g A B -> hupd h A B.
  Proof.
    intros g h A B E. revert B. induction A as [i cs IH] using rtree_ind'. intros B U. inversion U as [x x' S1 S2 S3|x xs xs' S1 S2]; subst.
    - apply hupd_leaf; [exact S1|exact S2|]. intros a b Ha Hb. rewrite S3 by assumption. apply E.
    - apply hupd_node; [exact S1|]. clear - IH S2. induction S2 as [|a b l l' U S2 IHs]; constructor; [apply IH; [left; reflexivity|exact U]|].
      apply IHs. intros c Hc. apply IH. right. exact Hc.
  Qed.
  Lemma hupd_ext_in : forall (g h : nat -> nat -> C -> C) A, hdest A -> ct (h_t (hv A)) -> ct (h_s (hv A)) -> forall B,
    (forall i j v, in_iv i (interval (h_t (hv A))) = true -> in_iv j (interval (h_s (hv A))) = true -> g i j v = h i j v) -> hupd g A B -> hupd h A B.
  Proof.
    intros g h A H. induction H as [i L|i cs D L N I H IH]; intros Ht Hs B E U; cbn [rt_val] in *; inversion U as [x x' S1 S2 S3|x xs xs' S1 S2]; subst.
    - apply hupd_leaf; [exact S1|exact S2|]. intros a b Ha Hb. rewrite S3 by assumption. apply E; apply in_ivb; lia.
    - destruct (leaf_ok_data i L S1).
    - exfalso. destruct S1 as (_ & _ & _ & _ & _ & _ & S1). rewrite D in S1. apply leaf_ok_data in S2. destruct (h_data x'); try contradiction; congruence.
    - apply hupd_node; [exact S1|].
      assert (Q : forall c, In c cs -> forall B, hupd g c B -> hupd h c B).
      { intros c Hc B' U'. assert (P : In (block_of c) (list_prod (ckids (h_t i)) (ckids (h_s i)))) by (apply I, in_map, Hc).
        apply in_prod_iff in P. destruct P as [P1 P2]. pose proof (ckids_in parts _ _ Ht P1). pose proof (ckids_in parts _ _ Hs P2).
        apply (IH c Hc); try assumption.
        - exact (ckids_ct parts _ _ Ht P1).
        - exact (ckids_ct parts _ _ Hs P2).
        - intros a b v Ha Hb. apply in_ivb in Ha, Hb. apply E; apply in_ivb; lia. }
      clear - Q S2. induction S2 as [|a b l l' U S2 IHs]; constructor; [apply Q; [left; reflexivity|exact U]|].
      apply IHs. intros c Hc. apply Q. right. exact Hc.
  Qed.
  Lemma hupd_trans : forall (g h : nat -> nat -> C -> C) A B D, hupd g A B -> hupd h B D -> hupd (fun i j v => h i j (g i j v)) A D.
  Proof.
    intros g h A. induction A as [i cs IH] using rtree_ind'. intros B D U V. inversion U as [x x' S1 S2 S3|x xs xs' S1 S2]; subst.
    - inversion V as [y y' T1 T2 T3|y ys ys' T1 T2]; subst; [|destruct (leaf_ok_data _ S2 T1)].
      destruct S1 as (A1 & A2 & A3 & A4 & A5 & A6 & A7). destruct T1 as (B1 & B2 & B3 & B4 & B5 & B6 & B7). apply hupd_leaf.
      + unfold same_node. do 6 (split; [congruence|]). destruct (h_data i), (h_data x'), (h_data y'); try tauto; congruence.
      + exact T2.
      + intros a b Ha Hb. rewrite A1, A2 in *. rewrite T3 by assumption. rewrite S3 by assumption. reflexivity.
    - inversion V as [y y' T1 T2 T3|y ys ys' T1 T2]; subst.
      + exfalso. destruct T1 as (_ & _ & _ & _ & _ & _ & T1). rewrite S1 in T1. apply leaf_ok_data in T2. destruct (h_data y'); try contradiction; congruence.
      + apply hupd_node; [exact S1|]. clear - IH S2 T2. revert ys' T2. induction S2 as [|a b l l' U S2 IHs]; intros ys' T2; inversion T2 as [|? c ? ys'' V T2']; subst; constructor.
        * eapply IH; [left; reflexivity|exact U|exact V].
        * apply IHs; [|exact T2']. intros d Hd. apply IH. right. exact Hd.
  Qed.
  Lemma hrep_hdest : forall (M : nat -> nat -> C) A, hrep M A -> hdest A.
  Proof.
    intros M A H. induction H as [i H1 H2 H3 H4 H5 H6|i cs H1 H2 H3 H4 H5 H6 H7 H8 IH].
    - apply hdest_leaf, H5.
    - apply hdest_node; try assumption.
      + eapply Permutation_NoDup; [apply Permutation_sym, H7|apply prod_nodup with parts; assumption].
      + intros p Hp. eapply Permutation_in; eassumption.
  Qed.
  Lemma hrep_upd : forall (M : nat -> nat -> C) A, hrep M A -> forall g B, hupd g A B -> hrep (fun i j => g i j (M i j)) B.
  Proof.
    intros M A H. induction H as [i H1 H2 H3 H4 H5 H6|i cs H1 H2 H3 H4 H5 H6 H7 H8 IH]; intros g B U; inversion U as [x x' S1 S2 S3|x xs xs' S1 S2]; subst.
    - destruct S1 as (E1 & E2 & E3 & E4 & E5 & E6 & E7). apply hrep_leaf; try congruence.
      rewrite <- E1, <- E2. intros a b Ha Hb. rewrite S3 by assumption. rewrite H6 by assumption. reflexivity.
    - destruct (leaf_ok_data i H5 S1).
    - exfalso. destruct S1 as (_ & _ & _ & _ & _ & _ & S1). rewrite H5 in S1. apply leaf_ok_data in S2. destruct (h_data x'); try contradiction; congruence.
    - apply hrep_node; try assumption; rewrite ?(hupd_blocks _ _ _ S2); try assumption.
      intros c Hc. clear - IH S2 Hc. induction S2 as [|a b l l' U S2 IHs]; [contradiction|]. destruct Hc as [<-|Hc]; [apply (IH a (or_introl eq_refl) g b U)|].
      apply IHs; [intros c' Hc'; apply IH; right; exact Hc'|exact Hc].
  Qed.

  (** ** The pivots of a dense destination are kept *)
  Lemma add_mm_mp : forall ta tb alpha (A B : mat K) beta D D', add_matrix_matrix_product K ta tb alpha A B beta D = Some D' -> mp D' = mp D.
  Proof. intros ta tb alpha A B beta D D'. unfold add_matrix_matrix_product. destruct (gemm _ _ _ _ _ _ _ _ _ _ _ _ _ _); cbn [option_map]; intros H; inversion H; reflexivity. Qed.
  Lemma mat_scale_mp : forall da (D D' : mat K), mat_scale K da D = Some D' -> mp D' = mp D.
  Proof. intros da D D'. unfold mat_scale. destruct (scal _ _ _ _); cbn [option_map]; intros H; inversion H; reflexivity. Qed.
  Lemma conj_if_mp : forall b (D D' : mat K), conj_if K b D = Some D' -> mp D' = mp D.
  Proof. intros [|] D D'; cbn [conj_if]; [|intros H; inversion H; reflexivity]. unfold mat_conj. destruct (conj_buf _ _ _); cbn [option_map]; intros H; inversion H; reflexivity. Qed.
  Lemma times_lr_mp : forall prod rows tb alpha B beta D D', times_lr_dense K prod rows tb alpha B beta D = Some D' -> mp D' = mp D.
  Proof.
    intros prod rows tb alpha B beta D D'. unfold times_lr_dense. destruct (lrank B =? 0); [intros H; inversion H; reflexivity|].
    destruct (is_N tb); (destruct (prod _ _ _ _ _); [apply add_mm_mp|discriminate]).
  Qed.
  Lemma lr_times_mp : forall prod cols ta alpha A beta D D', lr_times_dense K prod cols ta alpha A beta D = Some D' -> mp D' = mp D.
  Proof.
    intros prod cols ta alpha A beta D D'. unfold lr_times_dense. destruct (lrank A =? 0); [intros H; inversion H; reflexivity|].
    destruct (is_N ta); (destruct (prod _ _ _ _ _); [apply add_mm_mp|discriminate]).
  Qed.
  Lemma hm_mp : forall ta tb alpha (A : hmat) (B : mat K) beta D D', add_hmatrix_matrix_product_dense K ta tb alpha A B beta D = Some D' -> mp D' = mp D.
  Proof.
    intros ta tb alpha A B beta D D'. unfold add_hmatrix_matrix_product_dense. destruct (if is_N tb then _ else _); [|discriminate]. destruct (seq_mat _ _ _ _ _ _ _ _); [|discriminate].
    intros H; inversion H; reflexivity.
  Qed.
  Lemma mh_mp : forall ta tb alpha (A : mat K) (B : hmat) beta D D', add_matrix_hmatrix_product_dense K ta tb alpha A B beta D = Some D' -> mp D' = mp D.
  Proof.
    intros ta tb alpha A B beta D D'. unfold add_matrix_hmatrix_product_dense. destruct (is_N ta).
    - destruct (if is_C tb || _ then _ else _); [|discriminate]. destruct (conj_if _ _ D); [|discriminate]. destruct (seq_mat _ _ _ _ _ _ _ _); [|discriminate].
      intros H. apply conj_if_mp in H. exact H.
    - destruct (conj_if _ (is_C tb) D); [|discriminate]. destruct (conj_if _ _ (transpose K A)); [|discriminate]. destruct (seq_mat _ _ _ _ _ _ _ _); [|discriminate].
      intros H. apply conj_if_mp in H. exact H.
  Qed.
  Lemma hh_dense_mp : forall ta tb alpha (A B : hmat) beta D D', hh_dense K ta tb alpha A B beta D = Some D' -> mp D' = mp D.
  Proof.
    intros ta tb alpha A B beta D D'. unfold hh_dense.
    assert (Q : forall D1, (if ceqb K beta (c1 K) then Some D else mat_scale K beta D) = Some D1 -> mp D1 = mp D).
    { intros D1. destruct (ceqb K beta (c1 K)); [intros H; inversion H; reflexivity|apply mat_scale_mp]. }
    destruct (if ceqb K beta (c1 K) then Some D else mat_scale K beta D) as [D1|]; [|discriminate]. specialize (Q D1 eq_refl). rewrite <- Q.
    assert (P : (do d <- copy_to_dense K B (repeat (c0 K) (h_rows K B * h_cols K B)); add_hmatrix_matrix_product_dense K ta tb alpha A (mkMat (h_rows K B) (h_cols K B) d) (c1 K) D1) = Some D' -> mp D' = mp D1).
    { destruct (copy_to_dense _ _ _); [apply hm_mp|discriminate]. }
    destruct (not_consistent K A B); [exact P|].
    destruct (h_data (hv A)), (h_data (hv B)); first [exact P|apply add_mm_mp|apply times_lr_mp|apply lr_times_mp|apply hm_mp|apply mh_mp|idtac].
    unfold add_lrmat_lrmat_product_dense. destruct ((_ =? _) || _); [intros H; inversion H; reflexivity|].
    destruct (is_N tb); (destruct (add_lrmat_matrix_product_dense _ _ _ _ _ _ _ _); [apply add_mm_mp|discriminate]).
  Qed.

  (** ** A loop on the leaves *)
  Definition same_kind (a b : hdata K) : Prop := match a, b with DNone, DNone => True | DDense D, DDense D' => mp D' = mp D | DLow _, DLow _ => True | _, _ => False end.
  Lemma on_leaves_ok : forall (f : hinfo K -> option (hdata K)) (g : nat -> nat -> C -> C) A, hdest A ->
    ct (h_t (hv A)) -> ct (h_s (hv A)) ->
    (forall i, leaf_ok i -> ct (h_t i) -> ct (h_s i) -> contains (h_t (hv A)) (h_t i) = true -> contains (h_s (hv A)) (h_s i) = true ->
       exists d, f i = Some d /\ same_kind (h_data i) d /\ leaf_ok (set_data K i d) /\
         forall a b, (a < c_size (h_t i))%nat -> (b < c_size (h_s i))%nat ->
           stored (set_data K i d) a b = g (c_off (h_t i) + a)%nat (c_off (h_s i) + b)%nat (stored i a b)) ->
    exists B, on_leaves K f A = Some B /\ hupd g A B.
  Proof.
    intros f g A H. induction H as [i L|i cs D L N I H IH]; intros Ht Hs Hf; cbn [rt_val] in *.
    - destruct (Hf i L Ht Hs) as (d & E1 & E2 & E3 & E4); try (apply contains_iff; lia). cbn [on_leaves map_o].
      assert (E : match h_data i with DNone => Some DNone | _ => f i end = Some d).
      { pose proof (leaf_ok_data i L). destruct (h_data i); [congruence|exact E1|exact E1]. }
      rewrite E. eexists. split; [reflexivity|]. apply hupd_leaf; [|exact E3|exact E4].
      do 6 (split; [reflexivity|]). cbn [h_data]. exact E2.
    - cbn [on_leaves]. rewrite D.
      assert (Q : exists cs', map_o (on_leaves K f) cs = Some cs' /\ Forall2 (hupd g) cs cs').
      { apply map_o_ok. intros c Hc. assert (P : In (block_of c) (list_prod (ckids (h_t i)) (ckids (h_s i)))) by (apply I, in_map, Hc).
        apply in_prod_iff in P. destruct P as [P1 P2].
        pose proof (ckids_in parts _ _ Ht P1). pose proof (ckids_in parts _ _ Hs P2).
        apply (IH c Hc).
        + exact (ckids_ct parts _ _ Ht P1).
        + exact (ckids_ct parts _ _ Hs P2).
        + intros j J1 J2 J3 J4 J5. apply contains_iff in J4, J5. apply Hf; try assumption; apply contains_iff; lia. }
      destruct Q as (cs' & E1 & E2). change (map_o (on_leaves K f) cs = Some cs') in E1. rewrite E1. eexists. split; [reflexivity|].
      assert (Q : mkHinfo K (h_t i) (h_s i) (h_sym i) (h_uplo i) DNone (h_lsym i) (h_luplo i) = i) by (destruct i; cbn in *; congruence). rewrite Q.
      apply hupd_node; assumption.
  Qed.

  (** scale *)
  Lemma h_scale_ok : forall da A, hdest A -> ct (h_t (hv A)) -> ct (h_s (hv A)) -> exists B, h_scale K da A = Some B /\ hupd (fun _ _ v => da * v) A B.
  Proof.
    intros da A H Ht Hs. apply on_leaves_ok; try assumption. intros i L _ _ _ _. unfold leaf_ok in L. destruct (h_data i) as [|D|X] eqn:E; [contradiction| |].
    - destruct (mat_scale_ok K da D _ _ L) as (D' & E1 & E2 & E3). rewrite E1. eexists. split; [reflexivity|]. split; [exact (mat_scale_mp da D D' E1)|]. split; [exact E2|].
      intros a b Ha Hb. unfold stored. cbn [set_data h_data]. rewrite E. apply E3; assumption.
    - destruct L as [L R]. destruct (lr_scale_ok K da X _ _ L) as (X' & E1 & E2 & E3 & E4). rewrite E1. eexists. split; [reflexivity|]. split; [exact I|].
      split; [split; [exact E2|cbn [set_data h_data]; lia]|].
      intros a b Ha Hb. unfold stored. cbn [set_data h_data]. rewrite E. apply E4; assumption.
  Qed.

  Variable recompress : lrm K -> lrm K.
  Hypothesis HR : exact_recompression recompress.
  Variable svd_factors : mat K -> lrm K.
  Hypothesis HS : exact_svd svd_factors.

  (** ** Adding a low-rank matrix *)
  Lemma add_lrmat_hmatrix_ok : forall L A, hdest A -> ct (h_t (hv A)) -> ct (h_s (hv A)) ->
    wf_lrm L (c_size (h_t (hv A))) (c_size (h_s (hv A))) -> (1 <= lrank L)%nat ->
    exists B, add_lrmat_hmatrix K recompress L A = Some B /\ hupd (fun i j v => v + lr_at K L (h_t (hv A)) (h_s (hv A)) i j) A B.
  Proof.
    intros L A H Ht Hs WL RL. unfold add_lrmat_hmatrix. apply on_leaves_ok; try assumption. intros i Li Ci Cj C1 C2.
    unfold leaf_ok in Li. destruct (h_data i) as [|D|Y] eqn:E; [contradiction| |].
    - set (Rt := h_t (hv A)) in *. set (Rs := h_s (hv A)) in *. apply contains_iff in C1, C2. pose proof (ct_size parts _ Ci) as S1. pose proof (ct_size parts _ Cj) as S2.
      destruct WL as (WU & WV). destruct WU as (U1 & U2 & U3). destruct WV as (V1 & V2 & V3).
      set (M := c_size (h_t i)) in *. set (N := c_size (h_s i)) in *. set (ro := (c_off (h_t i) - c_off Rt)%nat). set (co := (c_off (h_s i) - c_off Rs)%nat).
      set (rk := lrank L) in *.
      destruct (copy_block_ok K (lU L) ro 0 M rk (zeros K M rk) 0 0) as (rU & E1 & E2 & E3); try (cbn [zeros of_fun mkMat mr mc]; unfold ro; lia).
      rewrite E1. destruct E2 as (R1 & R2 & R3). cbn [zeros of_fun mkMat mr mc] in R1, R2, R3, E3.
      unfold ptr. rewrite V1. destruct (Nat.leb_spec (co * rk) (length (md (lV L)))) as [Q|Q]; [|exfalso; rewrite V3 in Q; unfold co in Q; nia].
      destruct Li as (D1 & D2 & D3).
      destruct (gemm_ok K TrN TrN M N rk 1 (md rU) (skipn (co * rk) (md (lV L))) M rk 1 (md D) M) as (d & G1 & G2 & G3); unfold rows_of; cbn [is_N]; try lia.
      + apply holds_full. lia.
      + apply holds_true. left. rewrite skipn_length, V3. unfold co. nia.
      + apply holds_full. exact D3.
      + rewrite G1. eexists. split; [reflexivity|]. split; [reflexivity|]. split; [unfold leaf_ok; cbn [set_data h_data h_t h_s]; split; [exact D1|split; [exact D2|exact (eq_trans G2 D3)]]|].
        intros a b Ha Hb. unfold stored. cbn [set_data h_data]. rewrite E. unfold me at 1. cbn [with_data mr md]. rewrite D1.
        rewrite G3 by assumption. destruct (Nat.ltb_spec a M); [|lia]. destruct (Nat.ltb_spec b N); [|lia]. cbn [andb].
        assert (EM : get (md D) (a + b * M) = me D a b) by (unfold me; rewrite D1; reflexivity). rewrite EM.
        assert (ES : sum rk (fun k => op_entry K TrN (md rU) M a k * op_entry K TrN (skipn (co * rk) (md (lV L))) rk k b) = lr_at K L Rt Rs (c_off (h_t i) + a) (c_off (h_s i) + b)).
        { unfold lr_at, lr_entry. fold rk. apply sum_ext. intros k Hk. cbn [op_entry]. rewrite get_skipn. f_equal.
          - assert (ER : get (md rU) (a + k * M) = me rU a k) by (unfold me; rewrite R1; reflexivity). rewrite ER. rewrite E3 by assumption.
            destruct (Nat.ltb_spec a (0 + M)); [|lia]. destruct (Nat.ltb_spec k (0 + rk)); [|lia]. cbn [Nat.leb andb]. f_equal; unfold ro; lia.
          - unfold me. rewrite V1. f_equal. unfold co. replace (c_off (h_s i) + b - c_off Rs)%nat with (c_off (h_s i) - c_off Rs + b)%nat by lia. lia. }
        rewrite ES. ring.
    - destruct Li as [Li Ri]. destruct (add_lrmat_lrmat_ok K recompress HR L (h_t (hv A)) (h_s (hv A)) Y (h_t i) (h_s i)) as (X & E1 & E2 & E3 & E4 & E5); try assumption.
      + eapply ct_size, Ci. + eapply ct_size, Cj.
      + right. split; assumption.
      + rewrite E1. eexists. split; [reflexivity|]. split; [exact I|]. split; [split; [exact E2|cbn [set_data h_data]; auto]|].
        intros a b Ha Hb. unfold stored. cbn [set_data h_data]. rewrite E. specialize (E5 (c_off (h_t i) + a)%nat (c_off (h_s i) + b)%nat).
        assert (I1 : in_iv (c_off (h_t i) + a) (interval (h_t i)) = true) by (apply in_ivb; lia).
        assert (I2 : in_iv (c_off (h_s i) + b) (interval (h_s i)) = true) by (apply in_ivb; lia).
        apply contains_iff in C1, C2.
        assert (I3 : in_iv (c_off (h_t i) + a) (interval (h_t (hv A))) = true) by (apply in_ivb; lia).
        assert (I4 : in_iv (c_off (h_s i) + b) (interval (h_s (hv A))) = true) by (apply in_ivb; lia).
        specialize (E5 I1 I2). unfold lr_in in E5. rewrite I3, I4 in E5. cbn [andb] in E5. unfold lr_at in E5 at 1 2.
        replace (c_off (h_t i) + a - c_off (h_t i))%nat with a in E5 by lia. replace (c_off (h_s i) + b - c_off (h_s i))%nat with b in E5 by lia. exact E5.
  Qed.

  (** ** The product *)
  Lemma replace_blocks : forall (cs : list hmat) k c c', nth_error cs k = Some c -> block_of c' = block_of c -> map block_of (replace_nth k c' cs) = map block_of cs.
  Proof.
    induction cs as [|x cs IH]; intros [|k] c c' H E; cbn [replace_nth map nth_error] in *; try discriminate; [congruence|]. rewrite (IH k c c' H E). reflexivity.
  Qed.

  Theorem hh_h_ok : forall fuel ta tb alpha MA MB A B H, (height K A < fuel)%nat -> hrep MA A -> hrep MB B ->
    mid_of K ta A = out_of K tb B -> above (out_of K ta A) = above (mid_of K ta A) -> above (mid_of K tb B) = above (mid_of K ta A) ->
    hdest H -> block_of H = (out_of K ta A, mid_of K tb B) ->
    exists H', hh_h K recompress svd_factors parts fuel ta tb alpha A B 1 H = Some H' /\
      hupd (fun i j v => v + alpha * csum (mid_of K ta A) (fun x => op_fun ta MA i x * op_fun tb MB x j)) H H'.
  Proof.
    induction fuel as [|fuel IH]; intros ta tb alpha MA MB A B H Hf HA HB HM Ao Ai HD HBl; [lia|].
    pose proof (nc_eq K ta tb A B HM Ao Ai) as NC.
    destruct (out_ct K parts ta MA A HA) as [Co Cm]. destruct (out_ct K parts tb MB B HB) as [_ Ci].
    destruct HD as [h Lh|h cs D Lf ND IN HD].
    - (* leaf *)
      unfold block_of in HBl. cbn [rt_val] in HBl. injection HBl as Bt Bs. pose proof Lh as Lh'. unfold leaf_ok in Lh'. rewrite Bt, Bs in Lh'.
      assert (KEY : forall d, same_kind (h_data h) d -> leaf_ok (set_data K h d) ->
        (forall a b, (a < c_size (out_of K ta A))%nat -> (b < c_size (mid_of K tb B))%nat -> stored (set_data K h d) a b = stored h a b + alpha * csum (mid_of K ta A) (fun x =>
           op_fun ta MA (c_off (out_of K ta A) + a)%nat x * op_fun tb MB x (c_off (mid_of K tb B) + b)%nat)) ->
        hupd (fun i j v => v + alpha * csum (mid_of K ta A) (fun x => op_fun ta MA i x * op_fun tb MB x j)) (RNode h []) (with_hdata K (RNode h []) d)).
      { intros d K1 K2 K3. unfold with_hdata. cbn [rt_val rt_children]. apply hupd_leaf; [do 6 (split; [reflexivity|]); exact K1|exact K2|].
        rewrite Bt, Bs. exact K3. }
      cbn [hh_h rt_val]. destruct (h_data h) as [|Dm|L] eqn:E; [contradiction| |].
      + destruct (hh_dense_ok K parts ta tb alpha 1 MA MB A B HA HB HM Dm eq_refl Lh') as (D' & E1 & E2 & E3). rewrite E1. eexists. split; [reflexivity|].
        apply KEY; [exact (hh_dense_mp ta tb alpha A B 1 Dm D' E1)|unfold leaf_ok; cbn [set_data h_data h_t h_s]; rewrite Bt, Bs; exact E2|]. intros a b Ha Hb. unfold stored. cbn [set_data h_data]. rewrite E.
        rewrite E3 by assumption. unfold csum, loc. ring.
      + destruct Lh' as [WL RL]. destruct (hh_lr_ok K parts recompress HR svd_factors HS (S fuel) ta tb alpha MA MB A B L Hf HA HB HM Ao Ai WL) as (L' & E1 & W & R & V).
        change (hh_lr K recompress svd_factors parts (S fuel) ta tb alpha A B 1 L) with (hh_lr K recompress svd_factors parts (S fuel) ta tb alpha A B 1 L).
        rewrite E1. eexists. split; [reflexivity|].
        apply KEY; [exact I|unfold leaf_ok; cbn [set_data h_data h_t h_s]; rewrite Bt, Bs; split; [exact W|exact R]|]. intros a b Ha Hb. unfold stored. cbn [set_data h_data]. rewrite E.
        exact (V a b Ha Hb).
    - (* node *)
      unfold block_of in HBl. cbn [rt_val] in HBl. injection HBl as Bt Bs.
      cbn [hh_h rt_val]. rewrite D. destruct (ceqb_spec K 1 1) as [_|N]; [|congruence].
      assert (LEAF : (h_data (hv A) <> DNone \/ h_data (hv B) <> DNone) ->
        exists H', (do L <- match h_data (hv A), h_data (hv B) with
        | DNone, DNone => None
        | DDense a, DLow b => add_matrix_lrmat_product_lr K recompress ta tb alpha a b 1 (empty_lrm K)
        | DDense a, DDense b => add_matrix_matrix_product_lr K recompress svd_factors ta tb alpha a b 1 (empty_lrm K)
        | DDense a, DNone => add_matrix_hmatrix_product_lr K recompress svd_factors ta tb alpha a B 1 (empty_lrm K)
        | DLow a, DDense b => add_lrmat_matrix_product_lr K recompress ta tb alpha a b 1 (empty_lrm K)
        | DLow a, DLow b => add_lrmat_lrmat_product_lr K recompress ta tb alpha a b 1 (empty_lrm K)
        | DLow a, DNone => add_lrmat_hmatrix_product_lr K recompress ta tb alpha a B 1 (empty_lrm K)
        | DNone, DLow b => add_hmatrix_lrmat_product_lr K recompress ta tb alpha A b 1 (empty_lrm K)
        | DNone, DDense b => add_hmatrix_matrix_product_lr K recompress svd_factors ta tb alpha A b 1 (empty_lrm K)
        end; add_lrmat_hmatrix K recompress L (RNode h cs)) = Some H' /\
         hupd (fun i j v => v + alpha * csum (mid_of K ta A) (fun x => op_fun ta MA i x * op_fun tb MB x j)) (RNode h cs) H').
      { intros Hd. destruct (leaf_case_lr K parts recompress HR svd_factors HS ta tb alpha 1 MA MB A B HA HB HM (empty_lrm K)) as (L' & E & W & R & V).
        - left. reflexivity.
        - exact Hd.
        - rewrite E. destruct (add_lrmat_hmatrix_ok L' (RNode h cs)) as (H' & E1 & E2); cbn [rt_val]; rewrite ?Bt, ?Bs; try assumption.
          + apply hdest_node; rewrite ?Bt, ?Bs in *; assumption.
          + exists H'. split; [exact E1|]. cbn [rt_val] in E2. revert E2. apply hupd_ext_in; cbn [rt_val]; rewrite ?Bt, ?Bs; try assumption.
            * apply hdest_node; rewrite ?Bt, ?Bs in *; assumption.
            * intros a b v Ha Hb. apply in_ivb in Ha, Hb. f_equal. unfold lr_at. specialize (V (a - c_off (out_of K ta A))%nat (b - c_off (mid_of K tb B))%nat). cbn [op_fun] in V.
              rewrite V by lia. rewrite lr_entry_0 by reflexivity. unfold csum, loc.
              replace (c_off (out_of K ta A) + (a - c_off (out_of K ta A)))%nat with a by lia. replace (c_off (mid_of K tb B) + (b - c_off (mid_of K tb B)))%nat with b by lia. ring. }
      destruct (h_data (hv A)) eqn:EA; destruct (h_data (hv B)) eqn:EB;
        try (destruct LEAF as (L' & E & V); [first [left; discriminate|right; discriminate]|]; exists L'; split; [exact E|exact V]).
      clear LEAF. assert (Lf' : is_leaf (out_of K ta A) && is_leaf (mid_of K tb B) = false) by (rewrite <- Bt, <- Bs; exact Lf).
      set (o := out_of K ta A) in *. set (m := mid_of K ta A) in *. change (in_of K tb B) with (mid_of K tb B). set (i := mid_of K tb B) in *.
      rewrite NC. rewrite !(kids_eq parts) by (try assumption; congruence). rewrite pairs_of_prod.
      set (gpm := gp K ta tb MA MB).
      (* the inner loop *)
      assert (INNER : forall o' i' cs, In o' (ckids o) -> In i' (ckids i) -> (forall c, In c cs -> hdest c) ->
        NoDup (map block_of cs) -> incl (map block_of cs) (list_prod (ckids o) (ckids i)) -> forall ms k c, nth_error cs k = Some c -> block_of c = (o', i') -> incl ms (ckids m) ->
        exists c', fold_o (fun m' H =>
                    match (if is_N ta then child_or_this K A o' m' else child_or_this K A m' o'),
                          (if is_N tb then child_or_this K B m' i' else child_or_this K B i' m'),
                          child_path K H o' i' with
                    | Some Ac, Some Bc, Some p =>
                        do Hc <- node_at p H;
                        do Hc' <- hh_h K recompress svd_factors parts fuel ta tb alpha Ac Bc 1 Hc;
                        replace_at p Hc' H
                    | _, _, _ => Some H
                    end) ms (RNode h cs) = Some (RNode h (replace_nth k c' cs)) /\
          hupd (fun a b v => v + alpha * gpm ms a b) c c').
      { clear cs ND IN HD. intros o' i' cs Ho' Hi' HD ND IN ms. revert cs HD ND IN. induction ms as [|m' ms IHm]; intros cs HD ND IN k c Hk Hb Hms.
        - exists c. split; [cbn [fold_o]; rewrite replace_self by exact Hk; reflexivity|].
          assert (Hc : hdest c) by (apply HD; eapply nth_error_In, Hk).
          eapply hupd_ext; [|apply hupd_refl, Hc]. intros a b v. unfold gpm, gp. cbn [lsum]. ring.
        - assert (Hm' : In m' (ckids m)) by (apply Hms; left; reflexivity).
          assert (Hc : hdest c) by (apply HD; eapply nth_error_In, Hk).
          destruct (op_child K parts ta MA A o' m' HA EA Ho' Hm') as (Ac & _ & E1 & H1 & O1 & M1 & G1).
          destruct (op_child K parts tb MB B m' i' HB EB) as (Bc & _ & E2 & H2 & O2 & M2 & _); [rewrite <- HM; exact Hm'|exact Hi'|].
          destruct (IH ta tb alpha MA MB Ac Bc c) as (c1 & E3 & U1).
          + lia. + exact H1. + exact H2. + congruence.
          + rewrite O1, M1. rewrite (above_kid parts o o'), (above_kid parts m m'); auto.
          + rewrite M1, M2. rewrite (above_kid parts i i'), (above_kid parts m m'); auto.
          + exact Hc.
          + rewrite O1, M2. exact Hb.
          + cbn [fold_o]. rewrite E1, E2.
            rewrite (child_found K parts h cs) with (k := k) (c := c); rewrite ?Bt, ?Bs; try assumption.
            cbn [node_at rt_children]. rewrite Hk, E3. cbn [replace_at rt_children rt_val]. rewrite Hk.
            pose proof (hupd_block _ _ _ U1) as B1. pose proof (replace_blocks cs k c c1 Hk B1) as Bl.
            assert (Lk : (k < length cs)%nat) by (apply nth_error_Some; congruence).
            destruct (IHm (replace_nth k c1 cs)) with (k := k) (c := c1) as (c' & E4 & U2).
            * intros x Hx. apply In_nth_error in Hx. destruct Hx as [q Hq]. rewrite nth_replace in Hq by exact Lk.
              destruct (Nat.eqb_spec q k); [injection Hq as <-; eapply hupd_hdest; eassumption|]. apply HD. eapply nth_error_In, Hq.
            * rewrite Bl. exact ND.
            * rewrite Bl. exact IN.
            * rewrite nth_replace by exact Lk. rewrite Nat.eqb_refl. reflexivity.
            * congruence.
            * intros x Hx. apply Hms. right. exact Hx.
            * exists c'. split; [rewrite E4, replace_twice; reflexivity|].
              eapply hupd_ext; [|eapply hupd_trans; [exact U1|exact U2]]. intros a b v. cbn beta. rewrite M1. unfold gpm, gp. cbn [lsum]. ring. }
      assert (MISS : forall o' i' cs, In o' (ckids o) -> In i' (ckids i) -> incl (map block_of cs) (list_prod (ckids o) (ckids i)) ->
        ~ In (o', i') (map block_of cs) -> forall ms,
        fold_o (fun m' H =>
                    match (if is_N ta then child_or_this K A o' m' else child_or_this K A m' o'),
                          (if is_N tb then child_or_this K B m' i' else child_or_this K B i' m'),
                          child_path K H o' i' with
                    | Some Ac, Some Bc, Some p =>
                        do Hc <- node_at p H;
                        do Hc' <- hh_h K recompress svd_factors parts fuel ta tb alpha Ac Bc 1 Hc;
                        replace_at p Hc' H
                    | _, _, _ => Some H
                    end) ms (RNode h cs) = Some (RNode h cs)).
      { clear cs ND IN HD. intros o' i' cs Ho' Hi' IN Hn. induction ms as [|m' ms IHm]; [reflexivity|]. cbn [fold_o].
        rewrite (child_missing K parts h cs); rewrite ?Bt, ?Bs; try assumption.
        destruct (if is_N ta then _ else _); [|exact IHm]. destruct (if is_N tb then _ else _); exact IHm. }
      assert (OUTER : forall ps cs, NoDup ps -> incl ps (list_prod (ckids o) (ckids i)) -> (forall c, In c cs -> hdest c) ->
        NoDup (map block_of cs) -> incl (map block_of cs) (list_prod (ckids o) (ckids i)) ->
        exists cs', fold_o (fun oi H =>
           fold_o (fun m' H =>
                    match (if is_N ta then child_or_this K A (fst oi) m' else child_or_this K A m' (fst oi)),
                          (if is_N tb then child_or_this K B m' (snd oi) else child_or_this K B (snd oi) m'),
                          child_path K H (fst oi) (snd oi) with
                    | Some Ac, Some Bc, Some p =>
                        do Hc <- node_at p H;
                        do Hc' <- hh_h K recompress svd_factors parts fuel ta tb alpha Ac Bc 1 Hc;
                        replace_at p Hc' H
                    | _, _, _ => Some H
                    end) (ckids m) H) ps (RNode h cs) = Some (RNode h cs') /\ length cs' = length cs /\
         forall k c c', nth_error cs k = Some c -> nth_error cs' k = Some c' ->
           (In (block_of c) ps -> hupd (fun a b v => v + alpha * gpm (ckids m) a b) c c') /\ (~ In (block_of c) ps -> c' = c)).
      { clear cs ND IN HD. induction ps as [|[o' i'] ps IHp]; intros cs NP IP HD ND IN.
        - exists cs. split; [reflexivity|]. split; [reflexivity|]. intros k c c' H1 H2. split; [intros []|intros _; congruence].
        - inversion NP as [|? ? Np NP']; subst.
          assert (Hp : In (o', i') (list_prod (ckids o) (ckids i))) by (apply IP; left; reflexivity). apply in_prod_iff in Hp. destruct Hp as [Ho' Hi'].
          assert (IP' : incl ps (list_prod (ckids o) (ckids i))) by (intros x Hx; apply IP; right; exact Hx).
          cbn [fold_o fst snd].
          assert (DEC : In (o', i') (map block_of cs) \/ ~ In (o', i') (map block_of cs)).
          { clear - IN Ho' Hi' Co Ci. induction cs as [|c cs IHc]; [right; intros []|]. destruct IHc as [Q|Q]; [intros x Hx; apply IN; right; exact Hx|left; right; exact Q|].
            assert (P : In (block_of c) (list_prod (ckids o) (ckids i))) by (apply IN; left; reflexivity).
            destruct (block_of c) as [bt bs] eqn:Eb. pose proof (kid_test parts o i o' i' bt bs Co Ci ltac:(apply in_prod; assumption) P) as T.
            destruct (ceq bt o' && ceq bs i').
            - left. left. rewrite Eb. apply T. reflexivity.
            - right. intros [Q1|Q1]; [rewrite Eb in Q1; apply T in Q1; discriminate|exact (Q Q1)]. }
          destruct DEC as [Q|Q].
          + apply in_map_iff in Q. destruct Q as (c & Hb & Hc). apply In_nth_error in Hc. destruct Hc as [k Hk].
            destruct (INNER o' i' cs Ho' Hi' HD ND IN (ckids m) k c Hk Hb (incl_refl _)) as (c1 & E1 & U1). rewrite E1.
            pose proof (hupd_block _ _ _ U1) as B1. pose proof (replace_blocks cs k c c1 Hk B1) as Bl.
            assert (Lk : (k < length cs)%nat) by (apply nth_error_Some; congruence).
            destruct (IHp (replace_nth k c1 cs) NP' IP') as (cs' & E2 & L2 & V2).
            * intros x Hx. apply In_nth_error in Hx. destruct Hx as [q Hq]. rewrite nth_replace in Hq by exact Lk.
              destruct (Nat.eqb_spec q k); [injection Hq as <-; eapply hupd_hdest; [|exact U1]; apply HD; eapply nth_error_In, Hk|]. apply HD. eapply nth_error_In, Hq.
            * rewrite Bl. exact ND.
            * rewrite Bl. exact IN.
            * exists cs'. split; [exact E2|]. split; [rewrite L2; apply length_replace|].
              intros q x x' Hq Hq'. specialize (V2 q). rewrite nth_replace in V2 by exact Lk. destruct (Nat.eqb_spec q k) as [Eq|Hne].
              -- rewrite Eq in *. destruct (V2 c1 x' eq_refl Hq') as [_ V3]. assert (x = c) by congruence. subst x. rewrite B1, Hb in V3. specialize (V3 Np). subst x'. split; [intros _; exact U1|].
                 intros Hn. exfalso. apply Hn. left. congruence.
              -- destruct (V2 x x' Hq Hq') as [V3 V4]. split.
                 ++ intros [E|E]; [|exact (V3 E)]. exfalso. apply Hne. apply (unique_index K cs q k x c ND Hq Hk). congruence.
                 ++ intros Hn. apply V4. intros Q. apply Hn. right. exact Q.
          + rewrite (MISS o' i' cs Ho' Hi' IN Q). destruct (IHp cs NP' IP' HD ND IN) as (cs' & E2 & L2 & V2).
            exists cs'. split; [exact E2|]. split; [exact L2|]. intros q x x' Hq Hq'. destruct (V2 q x x' Hq Hq') as [V3 V4]. split.
            * intros [E|E]; [|exact (V3 E)]. exfalso. apply Q. rewrite E. apply in_map. eapply nth_error_In, Hq.
            * intros Hn. apply V4. intros R. apply Hn. right. exact R. }
      rewrite Bt, Bs in IN.
      destruct (OUTER (list_prod (ckids o) (ckids i)) cs) as (cs' & E & L & V); try assumption.
      + apply prod_nodup with parts; assumption.
      + apply incl_refl.
      + exists (RNode h cs'). split; [exact E|]. apply hupd_node; [exact D|].
        assert (Q : forall (l l' : list hmat), length l' = length l -> (forall k c c', nth_error l k = Some c -> nth_error l' k = Some c' ->
           hupd (fun a b v => v + alpha * csum m (fun x => op_fun ta MA a x * op_fun tb MB x b)) c c') ->
           Forall2 (hupd (fun a b v => v + alpha * csum m (fun x => op_fun ta MA a x * op_fun tb MB x b))) l l').
        { clear. induction l as [|c l IHl]; intros [|c' l'] HL HQ; cbn [length] in HL; try discriminate; constructor.
          - apply (HQ 0%nat); reflexivity.
          - apply IHl; [lia|]. intros k. apply (HQ (S k)). }
        apply Q; [exact L|]. intros k c c' Hk Hk'. destruct (V k c c' Hk Hk') as [V1 _].
        eapply hupd_ext; [|apply V1; apply IN; apply in_map; eapply nth_error_In, Hk].
        intros a b v. cbn beta. unfold gpm, gp. rewrite (csum_kids K parts m _ Cm). reflexivity.
  Qed.

  (** Any beta, when C is a leaf or A and B are both hierarchical. *)
  Lemma hh_h_beta : forall fuel ta tb alpha beta A B H, beta <> 1 ->
    h_data (hv H) <> DNone \/ (h_data (hv A) = DNone /\ h_data (hv B) = DNone) -> hdest H -> ct (h_t (hv H)) -> ct (h_s (hv H)) ->
    exists H1, h_scale K beta H = Some H1 /\ hdest H1 /\ block_of H1 = block_of H /\ hupd (fun _ _ v => beta * v) H H1 /\
      hh_h K recompress svd_factors parts (S fuel) ta tb alpha A B beta H = hh_h K recompress svd_factors parts (S fuel) ta tb alpha A B 1 H1.
  Proof.
    intros fuel ta tb alpha beta A B H Hb G HD Ht Hs. destruct (h_scale_ok beta H HD Ht Hs) as (H1 & E & U). exists H1. split; [exact E|]. split; [eapply hupd_hdest; eassumption|].
    split; [eapply hupd_block; exact U|]. split; [exact U|].
    inversion U as [x x' S1 S2 S3|x xs xs' S1 S2]; subst; cbn [rt_val] in *.
    - clear G. unfold h_scale in E. cbn [on_leaves map_o] in E. cbn [hh_h rt_val].
      destruct (h_data x) as [|D|L] eqn:Ex.
      + injection E as E. destruct S1 as (_ & _ & _ & _ & _ & _ & S1). destruct (h_data x') eqn:Ex'; try (rewrite Ex in S1; contradiction). unfold leaf_ok in S2. rewrite Ex' in S2. contradiction.
      + destruct (mat_scale K beta D) as [D'|] eqn:Es; [|discriminate]. cbn [option_map] in E. injection E as <-. cbn [h_data]. unfold hh_dense.
        destruct (ceqb_spec K beta 1) as [Q|_]; [congruence|]. destruct (ceqb_spec K 1 1) as [_|Q]; [|congruence]. rewrite Es. unfold with_hdata. cbn [rt_val rt_children].
        destruct (not_consistent K A B); [destruct (do d <- _; _); reflexivity|]. destruct (h_data (hv A)), (h_data (hv B)); match goal with |- match ?x with _ => _ end = _ => destruct x; reflexivity end.
      + destruct (lr_scale K beta L) as [L'|] eqn:Es; [|discriminate]. cbn [option_map] in E. injection E as <-. cbn [h_data]. cbn [hh_lr].
        destruct (ceqb_spec K beta 1) as [Q|_]; [congruence|]. destruct (ceqb_spec K 1 1) as [_|Q]; [|congruence]. rewrite Es. unfold with_hdata. cbn [rt_val rt_children].
        match goal with |- match ?x with _ => _ end = _ => destruct x; reflexivity end.
    - destruct G as [G|[G1 G2]]; [congruence|]. cbn [hh_h rt_val]. rewrite S1, G1, G2.
      destruct (ceqb_spec K beta 1) as [Q|_]; [congruence|]. destruct (ceqb_spec K 1 1) as [_|Q]; [|congruence]. rewrite E. reflexivity.
  Qed.

  (** Truncations that lose nothing. *)
  Lemma recompress_id : exact_recompression (fun L : lrm K => L).
  Proof. intros L r c Hr Hc W R. split; [exact W|]. split; [exact R|]. intros i j _ _. reflexivity. Qed.
  Definition svd_id (A : mat K) : lrm K := mkLrm A (of_fun K (mc A) (mc A) (fun i j => if (i =? j)%nat then 1 else 0)).
  Lemma svd_id_exact : exact_svd svd_id.
  Proof.
    intros A r c Hr Hc (A1 & A2 & A3). unfold svd_id. split; [|split].
    - split; cbn [lU lV lrank is_N]; [unfold lrank; cbn [lU]; rewrite A2; repeat split; assumption|]. unfold lrank. cbn [lU]. rewrite A2. apply of_fun_wf.
    - unfold lrank. cbn [lU]. lia.
    - intros i j Hi Hj. cbn [op_fun]. unfold lr_entry, lrank. cbn [lU lV]. rewrite A2.
      rewrite (sum_single K c j); [|exact Hj|intros k Hk Hn; rewrite of_fun_me by assumption; destruct (Nat.eqb_spec k j); [congruence|ring]].
      rewrite of_fun_me by assumption. rewrite Nat.eqb_refl. ring.
  Qed.
End P.
