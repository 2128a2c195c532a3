(** * Products of a hierarchical matrix with symmetric storage by dense and low-rank matrices. *)

From Coq Require Import List Arith ZArith Bool Lia Ring Permutation.
From Verif Require Import ClusterModel ClusterSpec ClusterProofs IOModel IOSpec IOProofs BlockModel BlockSpec BlockProofs BlockSym Algebra BlasModel BlasProofs
  HMatModel HMatSpec HMatProofs HMatProducts HMatBuild HMatTop DistModel DistVec ArithModel ArithSpec ArithDense ArithLr ArithTree ArithHier BlockFinal.
Import ListNotations.

Section P.
  Variable K : Coef.
  Notation C := (car K).
  Notation "0" := (c0 K).
  Notation "1" := (c1 K).
  Notation "x + y" := (cadd K x y).
  Notation "x * y" := (cmul K x y).
  Add Ring KringSP : (c_ring K).
  Notation hmat := (rtree (hinfo K)).
  Notation hv := rt_val.

  Section One.
    Variables (A : hmat) (L Y : list (hinfo K)) (sy : symc) (M : nat -> nat -> C).
    Hypothesis HL : hleaves K A = Some (L, Y).
    Hypothesis HM : holds_matrix (hv A) L Y sy M.

    Lemma right_ok : forall t, compat K t sy ->
      prodR K (fun tb alpha B beta Cm => add_hmatrix_matrix_product_dense K t tb alpha A B beta Cm)
        (c_size (out_of K t A)) (c_size (mid_of K t A)) (loc K t M (out_of K t A) (mid_of K t A)).
    Proof.
      intros t Hcp tb alpha B beta Cm c g Hc HB WC. unfold add_hmatrix_matrix_product_dense.
      set (r := c_size (out_of K t A)). set (k := c_size (mid_of K t A)).
      assert (WT : wf_mat (transpose K Cm) c r) by (apply transpose_wf; apply WC).
      assert (EB : exists b, (if is_N tb then Some (md (transpose K B)) else if is_C tb then conj_buf K (mc B * mr B) (md B) else Some (md B)) = Some b /\
         length b = (k * c)%nat /\ forall l j, (l < k)%nat -> (j < c)%nat -> get b (l * c + j)%nat = g l j).
      { fold k in HB. destruct HB as [(B1 & B2 & B3) EB]. destruct tb; cbn [is_N is_C] in *.
        - eexists. split; [reflexivity|]. assert (W : wf_mat (transpose K B) c k) by (apply transpose_wf; assumption). split; [destruct W as (_ & _ & ->); lia|].
          intros l j Hl Hj. rewrite <- EB by assumption. cbn [op_fun]. rewrite <- (transpose_me K B j l) by lia. unfold me.
          destruct W as (-> & _). f_equal. lia.
        - eexists. split; [reflexivity|]. split; [lia|]. intros l j Hl Hj. rewrite <- EB by assumption. cbn [op_fun]. unfold me. rewrite B1. f_equal. lia.
        - destruct (conj_buf_ok K (mc B * mr B) (md B)) as (x & X1 & X2 & X3); [rewrite B1, B2; lia|]. exists x. split; [exact X1|]. split; [rewrite X2, B1, B2; reflexivity|].
          intros l j Hl Hj. rewrite X3 by (rewrite B1, B2; nia). rewrite <- EB by assumption. cbn [op_fun]. unfold me. rewrite B1. do 2 f_equal. lia. }
      destruct EB as (b & E1 & E2 & E3). rewrite E1. assert (mr (transpose K Cm) = c) as -> by apply WT.
      destruct (seq_mat_ok K A L Y sy M HL HM t Hcp c alpha beta b (md (transpose K Cm))) as (y & Y1 & Y2 & Y3 & Y4).
      - exact Hc.
      - change (in_cl K t (hv A)) with (mid_of K t A). fold k. lia.
      - change (out_cl K t (hv A)) with (out_of K t A). fold r. destruct WT as (_ & _ & ->). lia.
      - rewrite Y1. eexists. split; [reflexivity|]. change (if is_N t then h_t (hv A) else h_s (hv A)) with (out_of K t A) in *.
        change (if is_N t then h_s (hv A) else h_t (hv A)) with (mid_of K t A) in *. fold r k in Y3.
        assert (WD : wf_mat (with_data K (transpose K Cm) y) c r).
        { destruct WT as (T1 & T2 & T3). repeat split; cbn [with_data mr mc md]; try assumption. congruence. }
        assert (W2 : wf_mat (transpose K (with_data K (transpose K Cm) y)) r c) by (apply transpose_wf; apply WD).
        destruct WC as (C1 & C2 & C3).
        split. { unfold transpose_into. repeat split; cbn [with_data mr mc md]; try assumption. apply W2. }
        intros i j Hi Hj.
        assert (E4 : me (transpose_into K (with_data K (transpose K Cm) y) Cm) i j = me (transpose K (with_data K (transpose K Cm) y)) i j).
        { unfold transpose_into, me. cbn [with_data mr md]. rewrite C1. destruct W2 as (-> & _). reflexivity. }
        rewrite E4.
        rewrite transpose_me by (destruct WD as (D1 & D2 & _); lia). unfold me at 1. destruct WD as (D1 & D2 & D3). rewrite D1. cbn [with_data md].
        replace (j + i * c)%nat with (i * c + j)%nat by lia. rewrite Y3 by assumption. f_equal.
        + f_equal. rewrite <- (transpose_me K Cm j i) by lia. unfold me. destruct WT as (-> & _). f_equal. lia.
        + f_equal. apply sum_ext. intros l Hl. rewrite E3 by assumption. reflexivity.
    Qed.

    (** The block is square and the matrix has the symmetry that the root announces. *)
    Definition announced : Prop :=
      (sy = SyN /\ sym_is_H (h_lsym (hv A)) = false /\ sym_is_S (h_lsym (hv A)) = false) \/
      ((sy = SyS \/ sy = SyH) /\ h_lsym (hv A) = sy /\ h_t (hv A) = h_s (hv A) /\
       forall i j, in_iv i (interval (h_t (hv A))) = true -> in_iv j (interval (h_t (hv A))) = true -> M j i = flip sy (M i j)).

    Lemma left_ok : forall ta t, compat K TrN sy -> announced -> (sy = SyH -> is_N ta = true \/ is_N t = false) ->
      forall alpha B beta Cm r f, (1 <= r)%nat -> mat_op ta B r (c_size (out_of K t A)) f -> wf_mat Cm r (c_size (mid_of K t A)) ->
      exists C', add_matrix_hmatrix_product_dense K ta t alpha B A beta Cm = Some C' /\ wf_mat C' r (c_size (mid_of K t A)) /\
        forall i j, (i < r)%nat -> (j < c_size (mid_of K t A))%nat ->
          me C' i j = beta * me Cm i j + alpha * sum (c_size (out_of K t A)) (fun l => f i l * loc K t M (out_of K t A) (mid_of K t A) l j).
    Proof.
      intros ta t Hcp AN GH alpha B beta Cm r f Hr HB WC. unfold add_matrix_hmatrix_product_dense.
      set (k := c_size (out_of K t A)) in *. set (c := c_size (mid_of K t A)) in *. cbv zeta.
      set (nt := if is_N t then if sym_is_H (h_lsym (hv A)) || sym_is_S (h_lsym (hv A)) then TrN else TrT else TrN).
      set (bn := is_C t || sym_is_H (h_lsym (hv A)) && is_N t).
      assert (MAIN : forall bf a, length a = (k * r)%nat -> (bf = true \/ bf = false) ->
        let cc := fun x : C => if bf then cconj K x else x in
        (forall i l, (i < r)%nat -> (l < k)%nat -> get a (l * r + i)%nat = cc (f i l)) ->
        (forall l j, (l < k)%nat -> (j < c)%nat -> loc K t M (out_of K t A) (mid_of K t A) l j = cc (op_fun nt M (c_off (mid_of K t A) + j)%nat (c_off (out_of K t A) + l)%nat)) ->
        exists C', (do C1 <- conj_if K bf Cm; do d <- seq_mat K nt (cc alpha) A a (cc beta) (md C1) (mr Cm); conj_if K bf (with_data K Cm d)) = Some C' /\
          wf_mat C' r c /\ forall i j, (i < r)%nat -> (j < c)%nat -> me C' i j = beta * me Cm i j + alpha * sum k (fun l => f i l * loc K t M (out_of K t A) (mid_of K t A) l j)).
      { intros bf a La _ cc Ha HQ.
        assert (CCi : forall x, cc (cc x) = x) by (intros x; unfold cc; destruct bf; [apply cconj_invol|reflexivity]).
        assert (CCa : forall x y, cc (x + y) = cc x + cc y) by (intros x y; unfold cc; destruct bf; [apply cconj_add|reflexivity]).
        assert (CCm : forall x y, cc (x * y) = cc x * cc y) by (intros x y; unfold cc; destruct bf; [apply cconj_mul|reflexivity]).
        assert (CCs : forall n h, cc (sum n h) = sum n (fun i => cc (h i))) by (intros n h; unfold cc; destruct bf; [apply conj_sum|reflexivity]).
        assert (SZ : out_cl K nt (hv A) = mid_of K t A /\ in_cl K nt (hv A) = out_of K t A /\ compat K nt sy).
        { unfold out_cl, in_cl, mid_of, out_of, nt. destruct AN as [(-> & -> & ->)|(Es & Els & Esq & _)].
          - destruct t; repeat split.
          - rewrite Els, Esq. destruct Es as [->| ->]; destruct t; cbn [is_N sym_is_H sym_is_S orb]; rewrite ?Esq; auto. }
        destruct SZ as (Eo & Ei & Hn).
        destruct (conj_if_ok K bf Cm r c WC) as (C1 & E1 & E2 & E3). rewrite E1.
        assert (mr Cm = r) as MR by apply WC. rewrite MR.
        destruct (seq_mat_ok K A L Y sy M HL HM nt Hn r (cc alpha) (cc beta) a (md C1)) as (y & Y1 & Y2 & Y3 & Y4).
        - exact Hr.
        - rewrite Ei. fold k. lia.
        - rewrite Eo. fold c. destruct E2 as (_ & _ & ->). lia.
        - rewrite Y1. change (if is_N nt then h_t (hv A) else h_s (hv A)) with (out_cl K nt (hv A)) in *. change (if is_N nt then h_s (hv A) else h_t (hv A)) with (in_cl K nt (hv A)) in *.
          rewrite Eo, Ei in *. fold k c in Y3.
          assert (WD : wf_mat (with_data K Cm y) r c). { destruct WC as (W1 & W2 & W3). destruct E2 as (_ & _ & E2). repeat split; cbn [with_data mr mc md]; try assumption. congruence. }
          destruct (conj_if_ok K bf _ r c WD) as (C' & F1 & F2 & F3). exists C'. split; [exact F1|]. split; [exact F2|].
          intros i j Hi Hj. rewrite F3 by assumption. change (if bf then cconj K (me (with_data K Cm y) i j) else me (with_data K Cm y) i j) with (cc (me (with_data K Cm y) i j)).
          unfold me at 1. cbn [with_data mr md]. rewrite MR. replace (i + j * r)%nat with (j * r + i)%nat by lia. rewrite Y3 by assumption.
          rewrite CCa, !CCm, !CCi, CCs. f_equal.
          + f_equal. replace (get (md C1) (j * r + i)) with (me C1 i j) by (unfold me; destruct E2 as (-> & _); f_equal; lia).
            rewrite E3 by assumption. change (if bf then cconj K (me Cm i j) else me Cm i j) with (cc (me Cm i j)). apply CCi.
          + f_equal. apply sum_ext. intros l Hl. rewrite CCm, Ha by assumption. rewrite CCi. rewrite <- HQ by assumption. ring. }
      (* the entries that the product with nt uses *)
      assert (INo : forall l, (l < k)%nat -> in_iv (c_off (out_of K t A) + l) (interval (out_of K t A)) = true) by (intros l Hl; apply in_ivb; unfold k in Hl; lia).
      assert (INm : forall j, (j < c)%nat -> in_iv (c_off (mid_of K t A) + j) (interval (mid_of K t A)) = true) by (intros j Hj; apply in_ivb; unfold c in Hj; lia).
      assert (HQ : forall bf, bf = (if is_N ta then bn else is_C t) -> forall l j, (l < k)%nat -> (j < c)%nat ->
        loc K t M (out_of K t A) (mid_of K t A) l j = (if bf then cconj K (op_fun nt M (c_off (mid_of K t A) + j)%nat (c_off (out_of K t A) + l)%nat) else op_fun nt M (c_off (mid_of K t A) + j)%nat (c_off (out_of K t A) + l)%nat)).
      { intros bf Eb l j Hl Hj. unfold loc. specialize (INo l Hl). specialize (INm j Hj). subst bf. unfold nt, bn.
        destruct AN as [(-> & -> & ->)|(Es & Els & Esq & SM)].
        - cbn [orb andb]. rewrite orb_false_r. destruct t; cbn [is_N is_C op_fun]; destruct (is_N ta); reflexivity.
        - rewrite Els. destruct t; cbn [is_N is_C op_fun out_of mid_of] in *.
          + unfold out_of, mid_of in *. cbn [is_N] in *. rewrite <- Esq in INm |- *. rewrite (SM _ _ INm INo).
            destruct Es as [->| ->]; cbn [sym_is_H sym_is_S orb andb flip op_fun].
            * destruct (is_N ta); reflexivity.
            * destruct (GH eq_refl) as [->|Q]; [reflexivity|discriminate Q].
          + destruct Es as [->| ->]; cbn [sym_is_H andb orb]; destruct (is_N ta); reflexivity.
          + destruct Es as [->| ->]; cbn [sym_is_H andb orb]; destruct (is_N ta); reflexivity. }
      destruct HB as [(A1 & A2 & A3) EA]. destruct (is_N ta) eqn:Eta.
      - fold bn. specialize (HQ bn eq_refl). destruct bn eqn:EC.
        + destruct (conj_buf_ok K (mc B * mr B) (md B)) as (x & X1 & X2 & X3); [rewrite A1, A2; lia|]. rewrite X1.
          apply (MAIN true); [rewrite X2, A1, A2; reflexivity|auto| |exact HQ].
          intros i l Hi Hl. rewrite X3 by (rewrite A1, A2; nia). f_equal. rewrite <- EA by assumption. destruct ta; try discriminate. cbn [op_fun]. unfold me. rewrite A1. f_equal. lia.
        + apply (MAIN false); [lia|auto| |exact HQ]. intros i l Hi Hl. rewrite <- EA by assumption. destruct ta; try discriminate. cbn [op_fun]. unfold me. rewrite A1. f_equal. lia.
      - specialize (HQ (is_C t) eq_refl).
        set (cj := match ta with TrN => false | TrT => is_C t | TrC => negb (is_C t) end).
        destruct (conj_if_ok K cj (transpose K B) r k) as (tA & T1 & T2 & T3); [apply transpose_wf; assumption|].
        specialize (MAIN (is_C t) (md tA)). rewrite T1. destruct T2 as (T21 & T22 & T23).
        assert (Ha : forall i l, (i < r)%nat -> (l < k)%nat -> get (md tA) (l * r + i)%nat = (if is_C t then cconj K (f i l) else f i l)).
        { intros i l Hi Hl. replace (get (md tA) (l * r + i)) with (me tA i l) by (unfold me; rewrite T21; f_equal; lia).
          rewrite T3 by assumption. rewrite transpose_me by lia. rewrite <- EA by assumption. unfold cj.
          destruct ta; [discriminate| |]; cbn [op_fun]; destruct (is_C t); cbn [negb]; try reflexivity. symmetry. apply cconj_invol. }
        assert (Lt : length (md tA) = (k * r)%nat) by lia.
        assert (Or : is_C t = true \/ is_C t = false) by (destruct (is_C t); auto).
        specialize (MAIN Lt Or Ha HQ). destruct (conj_if K (is_C t) Cm) as [C1|]; [|destruct MAIN as (? & ? & _); discriminate]. exact MAIN.
    Qed.
    (** Low-rank factors on the left: the product is only called with the trans of the low-rank matrix. *)
    Section LowLeft.
      Variables (ta t : trans).
      Hypothesis Hcp : compat K TrN sy.
      Hypothesis AN : announced.
      Hypothesis GH : sy = SyH -> is_N ta = true \/ is_N t = false.
      Hypothesis Hk : (1 <= c_size (out_of K t A))%nat.
      Hypothesis Hc : (1 <= c_size (mid_of K t A))%nat.
      Let k := c_size (out_of K t A).
      Let c := c_size (mid_of K t A).
      Let G := loc K t M (out_of K t A) (mid_of K t A).
      Definition same_trans (a b : trans) : bool := match a, b with TrN, TrN | TrT, TrT | TrC, TrC => true | _, _ => false end.
      Lemma same_trans_eq : forall a b, same_trans a b = true -> a = b. Proof. intros [] []; cbn; congruence. Qed.
      Lemma same_trans_refl : forall a, same_trans a a = true. Proof. intros []; reflexivity. Qed.
      Let prod0 := fun ta' alpha B beta Cm => add_matrix_hmatrix_product_dense K ta' t alpha B A beta Cm.
      Let prod1 := fun ta' alpha B beta Cm => if same_trans ta' ta then prod0 ta' alpha B beta Cm else add_matrix_matrix_product K ta' TrN alpha B (of_fun K k c G) beta Cm.
      Lemma prod1_ok : prodL K prod1 k c G.
      Proof.
        intros ta' alpha B beta Cm r f Hr HB WC. unfold prod1. destruct (same_trans ta' ta) eqn:E.
        - apply same_trans_eq in E. subst ta'. exact (left_ok ta t Hcp AN GH alpha B beta Cm r f Hr HB WC).
        - apply (gemm_mat_ok K ta' TrN alpha B (of_fun K k c G) beta Cm r k c f G); try assumption.
          split; [apply of_fun_wf|]. intros i j Hi Hj. cbn [op_fun]. apply of_fun_me; assumption.
      Qed.
      Lemma prod1_same : forall ta', ta' = ta -> forall alpha B beta Cm, prod1 ta' alpha B beta Cm = prod0 ta' alpha B beta Cm.
      Proof. intros ta' -> alpha B beta Cm. unfold prod1. rewrite same_trans_refl. reflexivity. Qed.

      Lemma low_left_dense : forall alpha (B : lrm K) beta Cm r f, (1 <= r)%nat -> lr_op ta B r k f -> wf_mat Cm r c ->
        exists C', add_lrmat_hmatrix_product_dense K ta t alpha B A beta Cm = Some C' /\ wf_mat C' r c /\
          forall i j, (i < r)%nat -> (j < c)%nat -> me C' i j = beta * me Cm i j + alpha * sum k (fun l => f i l * G l j).
      Proof.
        intros alpha B beta Cm r f Hr HB WC.
        destruct (lr_times_dense_ok K prod1 k c G Hk Hc prod1_ok ta alpha B beta Cm r f Hr HB WC) as (C' & E & R). exists C'. split; [|exact R].
        unfold add_lrmat_hmatrix_product_dense. replace (if is_N t then h_cols K A else h_rows K A) with c by (unfold c, mid_of, h_rows, h_cols; destruct (is_N t); reflexivity).
        rewrite <- E. unfold lr_times_dense. destruct (lrank B =? 0); [reflexivity|]. destruct (is_N ta) eqn:Et.
        - assert (Q : TrN = ta) by (clear - Et; destruct ta; try discriminate; reflexivity). rewrite (prod1_same TrN Q). reflexivity.
        - rewrite (prod1_same ta eq_refl). reflexivity.
      Qed.

      Variable recompress : lrm K -> lrm K.
      Hypothesis HR : exact_recompression recompress.
      Lemma low_left_lr : forall alpha (B : lrm K) beta Cl r f, (1 <= r)%nat -> lr_op ta B r k f -> lr_any K Cl r c ->
        exists L', add_lrmat_hmatrix_product_lr K recompress ta t alpha B A beta Cl = Some L' /\
          lr_op TrN L' r c (fun i j => beta * lr_entry Cl i j + alpha * sum k (fun l => f i l * G l j)).
      Proof.
        intros alpha B beta Cl r f Hr HB WC.
        destruct (lr_times_lr_ok K prod1 k c G Hk Hc prod1_ok recompress HR false ta alpha B beta Cl r f Hr HB WC) as (L' & E & R). exists L'. split; [|exact R].
        unfold add_lrmat_hmatrix_product_lr. replace (if is_N t then h_cols K A else h_rows K A) with c by (unfold c, mid_of, h_rows, h_cols; destruct (is_N t); reflexivity).
        rewrite <- E. unfold lr_times_lr. destruct (lrank B =? 0); [reflexivity|]. rewrite !(prod1_same ta eq_refl).
        destruct (if is_N ta then Some (lU B) else transposed K (is_C ta) (lV B)); [|reflexivity].
        destruct (overwritten K beta Cl); [reflexivity|]. destruct (hcat K _ _ _); reflexivity.
      Qed.

      Variable svd_factors : mat K -> lrm K.
      Hypothesis HS : exact_svd svd_factors.
      Lemma left_lr : forall alpha (B : mat K) beta Cl r f, (1 <= r)%nat -> mat_op ta B r k f -> lr_any K Cl r c ->
        exists L', add_matrix_hmatrix_product_lr K recompress svd_factors ta t alpha B A beta Cl = Some L' /\
          lr_op TrN L' r c (fun i j => beta * lr_entry Cl i j + alpha * sum k (fun l => f i l * G l j)).
      Proof.
        intros alpha B beta Cl r f Hr HB WC. unfold add_matrix_hmatrix_product_lr.
        replace (if is_N t then h_cols K A else h_rows K A) with c by (unfold c, mid_of, h_rows, h_cols; destruct (is_N t); reflexivity).
        destruct (mat_op_dims K _ _ _ _ _ HB) as [-> _].
        destruct (left_ok ta t Hcp AN GH alpha B 0 (zeros K r c) r f Hr HB (zeros_wf K r c)) as (AB & E1 & E2 & E3). rewrite E1.
        destruct (add_svd_ok K recompress HR beta r k c Hr Hk Hc svd_factors HS AB Cl E2 WC) as (L' & F1 & F2 & F3 & F4).
        exists L'. split; [exact F1|]. split; [exact F2|]. split; [exact F3|].
        intros x y Hx Hy. rewrite F4 by assumption. rewrite E3 by assumption. rewrite zeros_me. unfold G, k. ring.
      Qed.
    End LowLeft.

    Section LowRight.
      Variable ta : trans.
      Hypothesis Hcp : compat K ta sy.
      Hypothesis Hr : (1 <= c_size (out_of K ta A))%nat.
      Hypothesis Hk : (1 <= c_size (mid_of K ta A))%nat.
      Let r := c_size (out_of K ta A).
      Let k := c_size (mid_of K ta A).
      Let F := loc K ta M (out_of K ta A) (mid_of K ta A).
      Lemma rows_of_A : (if is_N ta then h_rows K A else h_cols K A) = r.
      Proof. unfold r, out_of, h_rows, h_cols. destruct (is_N ta); reflexivity. Qed.
      Lemma low_right_dense : forall tb alpha (B : lrm K) beta Cm c g, (1 <= c)%nat -> lr_op tb B k c g -> wf_mat Cm r c ->
        exists C', add_hmatrix_lrmat_product_dense K ta tb alpha A B beta Cm = Some C' /\ wf_mat C' r c /\
          forall i j, (i < r)%nat -> (j < c)%nat -> me C' i j = beta * me Cm i j + alpha * sum k (fun l => F i l * g l j).
      Proof.
        intros tb alpha B beta Cm c g Hc HB WC. unfold add_hmatrix_lrmat_product_dense. rewrite rows_of_A.
        exact (times_lr_dense_ok K _ r k F Hr Hk (right_ok ta Hcp) tb alpha B beta Cm c g Hc HB WC).
      Qed.
      Variable recompress : lrm K -> lrm K.
      Hypothesis HR : exact_recompression recompress.
      Lemma low_right_lr : forall tb alpha (B : lrm K) beta Cl c g, (1 <= c)%nat -> lr_op tb B k c g -> lr_any K Cl r c ->
        exists L', add_hmatrix_lrmat_product_lr K recompress ta tb alpha A B beta Cl = Some L' /\
          lr_op TrN L' r c (fun i j => beta * lr_entry Cl i j + alpha * sum k (fun l => F i l * g l j)).
      Proof.
        intros tb alpha B beta Cl c g Hc HB WC. unfold add_hmatrix_lrmat_product_lr. rewrite rows_of_A.
        exact (times_lr_lr_ok K _ r k F Hr Hk (right_ok ta Hcp) recompress HR tb alpha B beta Cl c g Hc HB WC).
      Qed.
      Variable svd_factors : mat K -> lrm K.
      Hypothesis HS : exact_svd svd_factors.
      Lemma right_lr : forall tb alpha (B : mat K) beta Cl c g, (1 <= c)%nat -> mat_op tb B k c g -> lr_any K Cl r c ->
        exists L', add_hmatrix_matrix_product_lr K recompress svd_factors ta tb alpha A B beta Cl = Some L' /\
          lr_op TrN L' r c (fun i j => beta * lr_entry Cl i j + alpha * sum k (fun l => F i l * g l j)).
      Proof.
        intros tb alpha B beta Cl c g Hc HB WC. unfold add_hmatrix_matrix_product_lr. rewrite rows_of_A. destruct (mat_op_dims K _ _ _ _ _ HB) as [_ ->].
        destruct (right_ok ta Hcp tb alpha B 0 (zeros K r c) c g Hc HB (zeros_wf K r c)) as (AB & E1 & E2 & E3). rewrite E1.
        destruct (add_svd_ok K recompress HR beta r k c Hr Hk Hc svd_factors HS AB Cl E2 WC) as (L' & F1 & F2 & F3 & F4).
        exists L'. split; [exact F1|]. split; [exact F2|]. split; [exact F3|].
        intros x y Hx Hy. rewrite F4 by assumption. rewrite E3 by assumption. rewrite zeros_me. unfold F, k. ring.
      Qed.
    End LowRight.
  End One.

  (** ** The matrix is symmetric *)
  Lemma flip_invol : forall s (x : C), flip s (flip s x) = x.
  Proof. intros [] x; cbn [flip]; try reflexivity. apply cconj_invol. Qed.
  Lemma count_pos : forall T0 (f : T0 -> bool) l, (1 <= count f l)%nat -> exists x, In x l /\ f x = true.
  Proof.
    intros T0 f. induction l as [|x l IH]; unfold count; cbn [filter length]; [lia|]. destruct (f x) eqn:E; [exists x; split; [left; reflexivity|exact E]|].
    intros Q. destruct (IH Q) as (y & Hy & Ey). exists y. split; [right; exact Hy|exact Ey].
  Qed.
  Lemma symmetric_value : forall (r : hinfo K) L Y sy M, holds_matrix r L Y sy M -> h_t r = h_s r ->
    (forall h, In h L -> In h Y \/ (h_t h = h_s h /\ forall a b, (a < c_size (h_t h))%nat -> (b < c_size (h_t h))%nat -> leaf_entry h b a = flip sy (leaf_entry h a b))) ->
    forall i j, in_iv i (interval (h_t r)) = true -> in_iv j (interval (h_t r)) = true -> M j i = flip sy (M i j).
  Proof.
    intros r L Y sy M HM Esq HD i j Hi Hj. pose proof (hm_wf _ _ _ _ _ _ HM) as W. pose proof Hj as Hj'. rewrite Esq in Hj'.
    pose proof (wf_once _ _ _ _ _ W i j Hi Hj') as O.
    destruct (count (hcovers i j) L) as [|n] eqn:E.
    - destruct (count_pos _ (hcovers j i) Y) as (h & Hh & Hc); [lia|]. unfold hcovers in Hc. apply andb_true_iff in Hc. destruct Hc as [H1 H2].
      rewrite (hm_sym _ _ _ _ _ _ HM h Hh j i H1 H2). symmetry. apply flip_invol.
    - destruct (count_pos _ (hcovers i j) L) as (h & Hh & Hc); [lia|]. unfold hcovers in Hc. apply andb_true_iff in Hc. destruct Hc as [H1 H2].
      destruct (HD h Hh) as [HY|[Et Es]]; [exact (hm_sym _ _ _ _ _ _ HM h HY i j H1 H2)|].
      pose proof (hm_entries _ _ _ _ _ _ HM h Hh) as R. apply in_ivb in H1, H2. rewrite <- Et in *.
      replace (M j i) with (M (c_off (h_t h) + (j - c_off (h_t h)))%nat (c_off (h_t h) + (i - c_off (h_t h)))%nat) by (f_equal; lia).
      replace (M i j) with (M (c_off (h_t h) + (i - c_off (h_t h)))%nat (c_off (h_t h) + (j - c_off (h_t h)))%nat) by (f_equal; lia).
      rewrite <- !R by lia. apply Es; lia.
  Qed.
End P.

(** The matrices of the builder, when no diagonal block is admissible. *)
Lemma built_symmetric : forall K sy B gen compress T fuel A,
  (sy = SyS \/ sy = SyH) -> (forall i j, gen j i = flip sy (gen i j)) -> (forall t, bb_adm B t t = false) ->
  bb_uplo B <> UpN -> partitioned T (bb_tparts B) -> bb_sparts B = bb_tparts B -> nonempty T -> bb_cons B = true ->
  bb_tpart B = None -> bb_qpart B = None -> compress_ok K compress ->
  hbuild K sy B gen compress fuel T T = Some A ->
  exists L Y, hleaves K A = Some (L, Y) /\ well_formed (rt_val A) L Y sy /\ h_t (rt_val A) = T /\ h_s (rt_val A) = T /\
    forall i j, in_iv i (interval T) = true -> in_iv j (interval T) = true -> value L Y sy j i = flip sy (value L Y sy i j).
Proof.
  intros K sy B gen compress T fuel A Hsy Hg Hadm HU HT HP NT HC E1 E2 Hco HB. unfold hbuild in HB.
  destruct (build_root B fuel T T) as [root|] eqn:E; [|discriminate]. injection HB as <-.
  assert (Hgo : gen_ok K sy gen). { intros Eh i. rewrite (Hg i i) at 2. rewrite Eh. reflexivity. }
  assert (HR : (bb_tpart B = None /\ bb_qpart B = None /\ T = T) \/
       (exists q, bb_tpart B = Some q /\ bb_qpart B = Some q /\ nth_error (bb_tparts B) q = Some T /\ (T = T \/ ((c_rank T < 0)%Z /\ contains T T = true)))) by (left; auto).
  assert (SyNe : sy <> SyN) by (destruct Hsy; congruence).
  destruct (sym_built K sy B gen compress Hco Hgo T T fuel root Hsy HU HT HP NT HC HR E) as (L & Y & H1 & H2 & H3 & H4 & _).
  exists L, Y. split; [exact H1|]. split; [exact H2|]. split; [exact H3|]. split; [exact H4|].
  destruct (leaves_total (length (preorder root)) root (le_n _)) as [[L0 Y0] HL].
  rewrite hleaves_eq in H1 by (intros u Hu Q; exact SyNe). rewrite HL in H1. cbn [option_map] in H1. injection H1 as <- <-.
  assert (HL' := HL). apply leaves_run_ok in HL'. cbn [map concat fst snd app] in HL'. rewrite !app_nil_r in HL'. destruct HL' as [P1 P2].
  assert (HV : part_valid B T) by (unfold part_valid; rewrite E1; exact I).
  assert (HS' : partitioned T (bb_sparts B)) by (rewrite HP; exact HT).
  pose proof (build_root_shape B T T HT HS' HV fuel root E) as HF.
  destruct (final_state B T HT HP NT HC T HR HU root HF) as [F1 F2]. rewrite F1 in P2.
  destruct (sym_extra B T HT HP NT HC T HR HU fuel root _ L0 Y0 E HL) as (_ & _ & HLx & _).
  assert (Hrem : removed B T T = false) by (apply (rT_wide B T HT HP NT HC T HR HU)).
  assert (Hru : forall p u, bb_tpart B = Some p -> nth_error (bb_tparts B) p = Some u -> removed B u T = false) by (intros p u Q; congruence).
  destruct (final_leaves B T T HT HS' HV Hrem Hru (witnessed_S B T HT HP NT HC T HR HU) root HF) as [_ H5].
  intros i j Hi Hj. apply (symmetric_value K (rt_val (hfill K sy B gen compress root)) (map (hleaf K sy B gen compress) L0) (map (hleaf K sy B gen compress) Y0) sy).
  - apply value_holds, H2.
  - congruence.
  - intros h Hh. apply in_map_iff in Hh. destruct Hh as (x & <- & Hx). destruct (HLx x Hx) as (A1 & A2 & A3 & A4 & A5).
    pose proof (Permutation_in _ P1 Hx) as Hx'. destruct (F2 x Hx') as [D _].
    destruct (mark T x) eqn:Mk.
    + left. apply in_map. apply (Permutation_in _ (Permutation_sym P2)). apply filter_In. split; assumption.
    + right. unfold mark in Mk. apply andb_false_iff in Mk.
      assert (Ets : b_t x = b_s x).
      { destruct D as [D|D]; [exact D|]. pose proof (NT _ A2) as Z1. pose proof (NT _ A3) as Z2. destruct Mk as [Mk|Mk].
        - apply negb_false_iff, Nat.eqb_eq in Mk. unfold disj, c_size, c_off in *. lia.
        - pose proof (BlockSym.node_in B T HT T (b_s x) (root_in T) A3). exfalso. assert (contains T (b_s x) = true) by (apply contains_iff; lia). congruence. }
      split; [exact Ets|]. cbn [hleaf h_t h_s]. intros a b Ha Hb.
      assert (Bs : b_sym x = true).
      { rewrite A5. apply (has_sym_eq B T NT HU (b_t x) (b_s x) A2 A3 D). exact Ets. }
      assert (Tk : b_task x = Some TDense).
      { destruct (H5 x Hx') as (k & Ek & _ & _ & Eb & _). rewrite Ek. f_equal. unfold branch, low_rank_task in Eb. rewrite <- Ets, Hadm in Eb. cbn [andb] in Eb.
        repeat match type of Eb with context [if ?b then _ else _] => destruct b end; congruence. }
      assert (EE : forall a b, a < c_size (b_t x) -> b < c_size (b_t x) -> leaf_entry (hleaf K sy B gen compress x) a b = gen (c_off (b_t x) + a) (c_off (b_t x) + b)).
      { intros u v Hu Hv. unfold leaf_entry, hleaf. cbn [h_data h_sym h_uplo]. unfold block_data. rewrite Tk, Bs, <- Ets.
        assert (D0 : forall u v, u < c_size (b_t x) -> v < c_size (b_t x) -> me (dense_data K gen (b_t x) (b_t x)) u v = gen (c_off (b_t x) + u) (c_off (b_t x) + v)).
        { intros u' v' Hu' Hv'. unfold dense_data. rewrite of_fun_me by lia. reflexivity. }
        destruct Hsy as [->| ->]; unfold from_triangle; destruct (in_triangle _ u v); rewrite D0 by assumption; try reflexivity; symmetry; apply Hg. }
      rewrite !EE by assumption. apply Hg.
  - rewrite H3. exact Hi.
  - rewrite H3. exact Hj.
Qed.
