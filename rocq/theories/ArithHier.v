(** * Products of hierarchical matrices. *)

From Coq Require Import List Arith ZArith Bool Lia Ring Permutation.
From Verif Require Import ClusterModel ClusterSpec ClusterProofs IOModel IOSpec IOProofs BlockModel BlockSpec BlockProofs BlockSym Algebra BlasModel BlasProofs
  HMatModel HMatSpec HMatProofs HMatProducts HMatBuild HMatTop DistModel DistVec ArithModel ArithSpec ArithDense ArithLr ArithTree.
Import ListNotations.

Section P.
  Variable K : Coef.
  Notation C := (car K).
  Notation "0" := (c0 K).
  Notation "1" := (c1 K).
  Notation "x + y" := (cadd K x y).
  Notation "x * y" := (cmul K x y).
  Add Ring KringD : (c_ring K).
  Notation hmat := (rtree (hinfo K)).
  Notation hv := rt_val.
  Variable parts : ctree -> list ctree.
  Notation ct := (cluster_tree parts).
  Notation hrep := (hrep parts).

  (** op(M) on the block (o,i), local numbering *)
  Definition loc (t : trans) (M : nat -> nat -> C) (o i : ctree) (a b : nat) : C := op_fun t M (c_off o + a)%nat (c_off i + b)%nat.

  Lemma leaf_mat_op : forall t M A a, hrep M A -> h_data (hv A) = DDense a ->
    mat_op t a (c_size (out_of K t A)) (c_size (mid_of K t A)) (loc t M (out_of K t A) (mid_of K t A)).
  Proof.
    intros t M A a H E. destruct (hrep_leaf_inv K parts M A H) as (_ & W & EE); [congruence|]. unfold leaf_ok in W. rewrite E in W. unfold stored in EE. rewrite E in EE.
    unfold out_of, mid_of, loc. split; [destruct t; exact W|]. intros i j Hi Hj. destruct t; cbn [is_N op_fun] in *; rewrite EE by assumption; reflexivity.
  Qed.
  Lemma leaf_lr_op : forall t M A a, hrep M A -> h_data (hv A) = DLow a ->
    lr_op t a (c_size (out_of K t A)) (c_size (mid_of K t A)) (loc t M (out_of K t A) (mid_of K t A)).
  Proof.
    intros t M A a H E. destruct (hrep_leaf_inv K parts M A H) as (_ & W & EE); [congruence|]. unfold leaf_ok in W. rewrite E in W. unfold stored in EE. rewrite E in EE.
    unfold out_of, mid_of, loc. split; [destruct t; apply W|]. split; [apply W|]. intros i j Hi Hj. destruct t; cbn [is_N op_fun] in *; rewrite EE by assumption; reflexivity.
  Qed.
  Lemma out_ct : forall t M A, hrep M A -> ct (out_of K t A) /\ ct (mid_of K t A).
  Proof. intros t M A H. destruct (hrep_ct K parts M A H). unfold out_of, mid_of. destruct t; cbn [is_N]; auto. Qed.
  Lemma out_size : forall t M A, hrep M A -> (1 <= c_size (out_of K t A) /\ 1 <= c_size (mid_of K t A))%nat.
  Proof. intros t M A H. destruct (out_ct t M A H) as [H1 H2]. split; eapply ct_size; eassumption. Qed.

  (** ** Products of a hierarchical matrix and a dense matrix *)
  Lemma conj_buf_ok : forall n (x : list C), length x = n ->
    exists x', conj_buf K n x = Some x' /\ length x' = n /\ forall p, (p < n)%nat -> get x' p = cconj K (get x p).
  Proof.
    intros n x H. unfold conj_buf. destruct (transform_ok K n (cconj K) x) as (x' & E1 & E2 & E3); [lia|]. exists x'. split; [exact E1|]. split; [lia|].
    intros p Hp. rewrite E3. destruct (Nat.ltb_spec p n); [reflexivity|lia].
  Qed.

  Lemma hm_R : forall t M A, hrep M A ->
    prodR K (fun tb alpha B beta Cm => add_hmatrix_matrix_product_dense K t tb alpha A B beta Cm)
      (c_size (out_of K t A)) (c_size (mid_of K t A)) (loc t M (out_of K t A) (mid_of K t A)).
  Proof.
    intros t M A H tb alpha B beta Cm c g Hc HB WC. unfold add_hmatrix_matrix_product_dense.
    set (r := c_size (out_of K t A)). set (k := c_size (mid_of K t A)).
    destruct (hrep_holds K parts M A H) as (L & HL & HM).
    assert (WT : wf_mat (transpose K Cm) c r) by (apply transpose_wf; apply WC).
    assert (EB : exists b, (if is_N tb then Some (md (transpose K B)) else if is_C tb then conj_buf K (mc B * mr B) (md B) else Some (md B)) = Some b /\
       length b = (k * c)%nat /\ forall l j, (l < k)%nat -> (j < c)%nat -> get b (l * c + j)%nat = g l j).
    { fold k in HB. destruct HB as [(B1 & B2 & B3) EB]. destruct tb; cbn [is_N is_C] in *.
      - eexists. split; [reflexivity|]. assert (W : wf_mat (transpose K B) c k) by (apply transpose_wf; assumption). split; [destruct W as (_ & _ & ->); lia|].
        intros l j Hl Hj. rewrite <- EB by assumption. cbn [op_fun]. rewrite <- (transpose_me K B j l) by lia. unfold me.
        destruct W as (-> & _). f_equal. lia.
      - eexists. split; [reflexivity|]. split; [lia|]. intros l j Hl Hj. rewrite <- EB by assumption. cbn [op_fun]. unfold me. rewrite B1. f_equal. lia.
      - destruct (conj_buf_ok (mc B * mr B) (md B)) as (x & X1 & X2 & X3); [rewrite B1, B2; lia|]. exists x. split; [exact X1|]. split; [rewrite X2, B1, B2; reflexivity|].
        intros l j Hl Hj. rewrite X3 by (rewrite B1, B2; nia). rewrite <- EB by assumption. cbn [op_fun]. unfold me. rewrite B1. do 2 f_equal. lia. }
    destruct EB as (b & E1 & E2 & E3). rewrite E1. assert (mr (transpose K Cm) = c) as -> by apply WT.
    destruct (seq_mat_ok K A L [] SyN M HL HM t I c alpha beta b (md (transpose K Cm))) as (y & Y1 & Y2 & Y3 & Y4).
    - exact Hc.
    - change (in_cl K t (hv A)) with (mid_of K t A). fold k. lia.
    - change (out_cl K t (hv A)) with (out_of K t A). fold r. destruct WT as (_ & _ & ->). lia.
    - rewrite Y1. eexists. split; [reflexivity|]. change (if is_N t then h_t (hv A) else h_s (hv A)) with (out_of K t A) in *.
      change (if is_N t then h_s (hv A) else h_t (hv A)) with (mid_of K t A) in *. fold r k in Y3.
      assert (WD : wf_mat (with_data K (transpose K Cm) y) c r).
      { destruct WT as (T1 & T2 & T3). repeat split; cbn [with_data mr mc md]; try assumption. congruence. }
      assert (W2 : wf_mat (transpose K (with_data K (transpose K Cm) y)) r c) by (apply transpose_wf; apply WD).
      destruct WC as (C1 & C2 & C3).
      split. { unfold transpose_into. repeat split; cbn [with_data mr mc md]; try assumption. apply W2. }
      intros i j Hi Hj.
      assert (E4 : me (transpose_into K (with_data K (transpose K Cm) y) Cm) i j = me (transpose K (with_data K (transpose K Cm) y)) i j).
      { unfold transpose_into, me. cbn [with_data mr md]. rewrite C1. destruct W2 as (-> & _). reflexivity. }
      rewrite E4.
      rewrite transpose_me by (destruct WD as (D1 & D2 & _); lia). unfold me at 1. destruct WD as (D1 & D2 & D3). rewrite D1. cbn [with_data md].
      replace (j + i * c)%nat with (i * c + j)%nat by lia. rewrite Y3 by assumption. f_equal.
      + f_equal. rewrite <- (transpose_me K Cm j i) by lia. unfold me. destruct WT as (-> & _). f_equal. lia.
      + f_equal. apply sum_ext. intros l Hl. rewrite E3 by assumption. reflexivity.
  Qed.

  Lemma hm_L : forall t M B, hrep M B ->
    prodL K (fun ta alpha A beta Cm => add_matrix_hmatrix_product_dense K ta t alpha A B beta Cm)
      (c_size (out_of K t B)) (c_size (mid_of K t B)) (loc t M (out_of K t B) (mid_of K t B)).
  Proof.
    intros t M B H ta alpha A beta Cm r f Hr HA WC. unfold add_matrix_hmatrix_product_dense.
    set (k := c_size (out_of K t B)) in *. set (c := c_size (mid_of K t B)) in *.
    destruct (hrep_holds K parts M B H) as (L & HL & HM). destruct (hrep_sym K parts M B H) as [_ Hls].
    assert (LsH : sym_is_H (h_lsym (hv B)) = false) by (destruct (h_lsym (hv B)); try reflexivity; discriminate).
    assert (LsS : sym_is_S (h_lsym (hv B)) = false) by (destruct (h_lsym (hv B)); try reflexivity; discriminate).
    rewrite LsH, LsS. cbn [orb].
    assert (NT : (if is_N t then TrT else TrN) = (if is_N t then TrT else TrN)) by reflexivity.
    set (nt := if is_N t then TrT else TrN) in *.
    assert (Eo : out_cl K nt (hv B) = mid_of K t B) by (unfold out_cl, mid_of, nt; destruct t; reflexivity).
    assert (Ei : in_cl K nt (hv B) = out_of K t B) by (unfold in_cl, out_of, nt; destruct t; reflexivity).
    set (cc := fun x : C => if is_C t then cconj K x else x).
    assert (CCi : forall x, cc (cc x) = x) by (intros x; unfold cc; destruct (is_C t); [apply cconj_invol|reflexivity]).
    assert (CCa : forall x y, cc (x + y) = cc x + cc y) by (intros x y; unfold cc; destruct (is_C t); [apply cconj_add|reflexivity]).
    assert (CCm : forall x y, cc (x * y) = cc x * cc y) by (intros x y; unfold cc; destruct (is_C t); [apply cconj_mul|reflexivity]).
    assert (CCs : forall n h, cc (sum n h) = sum n (fun i => cc (h i))) by (intros n h; unfold cc; destruct (is_C t); [apply conj_sum|reflexivity]).
    assert (MAIN : forall a, length a = (k * r)%nat -> (forall i l, (i < r)%nat -> (l < k)%nat -> get a (l * r + i)%nat = cc (f i l)) ->
      exists C', (do C1 <- conj_if K (is_C t) Cm; do d <- seq_mat K nt (cc alpha) B a (cc beta) (md C1) (mr Cm); conj_if K (is_C t) (with_data K Cm d)) = Some C' /\
        wf_mat C' r c /\ forall i j, (i < r)%nat -> (j < c)%nat -> me C' i j = beta * me Cm i j + alpha * sum k (fun l => f i l * loc t M (out_of K t B) (mid_of K t B) l j)).
    { intros a La Ha. destruct (conj_if_ok K (is_C t) Cm r c WC) as (C1 & E1 & E2 & E3). rewrite E1.
      assert (mr Cm = r) as MR by apply WC. rewrite MR.
      destruct (seq_mat_ok K B L [] SyN M HL HM nt I r (cc alpha) (cc beta) a (md C1)) as (y & Y1 & Y2 & Y3 & Y4).
      - exact Hr.
      - rewrite Ei. fold k. lia.
      - rewrite Eo. fold c. destruct E2 as (_ & _ & ->). lia.
      - rewrite Y1. change (if is_N nt then h_t (hv B) else h_s (hv B)) with (out_cl K nt (hv B)) in *. change (if is_N nt then h_s (hv B) else h_t (hv B)) with (in_cl K nt (hv B)) in *.
        rewrite Eo, Ei in *. fold k c in Y3.
        assert (WD : wf_mat (with_data K Cm y) r c). { destruct WC as (W1 & W2 & W3). destruct E2 as (_ & _ & E2). repeat split; cbn [with_data mr mc md]; try assumption. congruence. }
        destruct (conj_if_ok K (is_C t) _ r c WD) as (C' & F1 & F2 & F3). exists C'. split; [exact F1|]. split; [exact F2|].
        intros i j Hi Hj. rewrite F3 by assumption. change (if is_C t then cconj K (me (with_data K Cm y) i j) else me (with_data K Cm y) i j) with (cc (me (with_data K Cm y) i j)).
        unfold me at 1. cbn [with_data mr md]. rewrite MR. replace (i + j * r)%nat with (j * r + i)%nat by lia. rewrite Y3 by assumption.
        rewrite CCa, !CCm, !CCi, CCs. f_equal.
        + f_equal. replace (get (md C1) (j * r + i)) with (me C1 i j) by (unfold me; destruct E2 as (-> & _); f_equal; lia).
          rewrite E3 by assumption. change (if is_C t then cconj K (me Cm i j) else me Cm i j) with (cc (me Cm i j)). apply CCi.
        + f_equal. apply sum_ext. intros l Hl. rewrite CCm, Ha by assumption. rewrite CCi.
          replace (cc (op_fun nt M (c_off (mid_of K t B) + j)%nat (c_off (out_of K t B) + l)%nat)) with (loc t M (out_of K t B) (mid_of K t B) l j); [ring|].
          unfold loc, cc, nt. destruct t; reflexivity. }
    destruct HA as [(A1 & A2 & A3) EA]. destruct (is_N ta) eqn:Eta.
    - assert (Eb : is_C t || false && is_N t = is_C t) by apply orb_false_r. rewrite Eb.
      destruct (is_C t) eqn:EC.
      + destruct (conj_buf_ok (mc A * mr A) (md A)) as (x & X1 & X2 & X3); [rewrite A1, A2; lia|]. rewrite X1. apply MAIN; [rewrite X2, A1, A2; reflexivity|].
        intros i l Hi Hl. rewrite X3 by (rewrite A1, A2; nia). unfold cc. f_equal. rewrite <- EA by assumption. destruct ta; try discriminate. cbn [op_fun]. unfold me. rewrite A1. f_equal. lia.
      + apply MAIN; [lia|]. intros i l Hi Hl. rewrite <- EA by assumption. destruct ta; try discriminate. cbn [op_fun]. unfold me, cc. rewrite A1. f_equal. lia.
    - set (cj := match ta with TrN => false | TrT => is_C t | TrC => negb (is_C t) end).
      destruct (conj_if_ok K cj (transpose K A) r k) as (tA & T1 & T2 & T3); [apply transpose_wf; assumption|].
      specialize (MAIN (md tA)). rewrite T1. destruct T2 as (T21 & T22 & T23).
      destruct (conj_if K (is_C t) Cm) as [C1|]; [|destruct MAIN as (? & ? & _); [lia| |discriminate]].
      + apply MAIN; [lia|]. intros i l Hi Hl. replace (get (md tA) (l * r + i)) with (me tA i l) by (unfold me; rewrite T21; f_equal; lia).
        rewrite T3 by assumption. rewrite transpose_me by lia. rewrite <- EA by assumption. unfold cc, cj.
        destruct ta; [discriminate| |]; cbn [op_fun]; destruct (is_C t); cbn [negb]; try reflexivity. symmetry. apply cconj_invol.
      + intros i l Hi Hl. replace (get (md tA) (l * r + i)) with (me tA i l) by (unfold me; rewrite T21; f_equal; lia).
        rewrite T3 by assumption. rewrite transpose_me by lia. rewrite <- EA by assumption. unfold cc, cj.
        destruct ta; [discriminate| |]; cbn [op_fun]; destruct (is_C t); cbn [negb]; try reflexivity. symmetry. apply cconj_invol.
  Qed.

  Variable recompress : lrm K -> lrm K.
  Hypothesis HR : exact_recompression recompress.
  Variable svd_factors : mat K -> lrm K.
  Hypothesis HS : exact_svd svd_factors.

  (** ** The nine cases *)
  Section Cases.
    Variables (ta tb : trans) (alpha beta : C) (MA MB : nat -> nat -> C) (A B : hmat).
    Hypothesis HA : hrep MA A.
    Hypothesis HB : hrep MB B.
    Hypothesis HM : mid_of K ta A = out_of K tb B.
    Let o := out_of K ta A.
    Let m := mid_of K ta A.
    Let i := mid_of K tb B.
    Let r := c_size o.
    Let k := c_size m.
    Let c := c_size i.
    Let f := loc ta MA o m.
    Let g := loc tb MB m i.
    Lemma Hr1 : (1 <= r)%nat. Proof. exact (proj1 (out_size ta MA A HA)). Qed.
    Lemma Hk1 : (1 <= k)%nat. Proof. exact (proj2 (out_size ta MA A HA)). Qed.
    Lemma Hc1 : (1 <= c)%nat. Proof. exact (proj2 (out_size tb MB B HB)). Qed.

    Lemma B_mat : forall b, h_data (hv B) = DDense b -> mat_op tb b k c g.
    Proof. intros b E. unfold k, g, m. rewrite HM. apply leaf_mat_op; assumption. Qed.
    Lemma B_lr : forall b, h_data (hv B) = DLow b -> lr_op tb b k c g.
    Proof. intros b E. unfold k, g, m. rewrite HM. apply leaf_lr_op; assumption. Qed.
    Lemma A_R : prodR K (fun tb alpha B beta Cm => add_hmatrix_matrix_product_dense K ta tb alpha A B beta Cm) r k f.
    Proof. apply hm_R, HA. Qed.
    Lemma B_L : prodL K (fun ta alpha A beta Cm => add_matrix_hmatrix_product_dense K ta tb alpha A B beta Cm) k c g.
    Proof. unfold k, g, m. rewrite HM. apply hm_L, HB. Qed.
    Lemma rows_A : (if is_N ta then h_rows K A else h_cols K A) = r.
    Proof. unfold r, o, out_of, h_rows, h_cols. destruct (is_N ta); reflexivity. Qed.
    Lemma cols_B : (if is_N tb then h_cols K B else h_rows K B) = c.
    Proof. unfold c, i, mid_of, h_rows, h_cols. destruct (is_N tb); reflexivity. Qed.

    (** dense result *)
    Lemma hd_dense : forall b Cm, mat_op tb b k c g -> wf_mat Cm r c ->
      dense_prod K (add_hmatrix_matrix_product_dense K ta tb alpha A b beta Cm) alpha beta Cm r k c f g.
    Proof. intros b Cm Hb HC. exact (A_R tb alpha b beta Cm c g Hc1 Hb HC). Qed.
    Lemma dh_dense : forall a Cm, mat_op ta a r k f -> wf_mat Cm r c ->
      dense_prod K (add_matrix_hmatrix_product_dense K ta tb alpha a B beta Cm) alpha beta Cm r k c f g.
    Proof. intros a Cm Ha HC. exact (B_L ta alpha a beta Cm r f Hr1 Ha HC). Qed.
    Lemma hl_dense : forall b Cm, lr_op tb b k c g -> wf_mat Cm r c ->
      dense_prod K (add_hmatrix_lrmat_product_dense K ta tb alpha A b beta Cm) alpha beta Cm r k c f g.
    Proof. intros b Cm Hb HC. unfold add_hmatrix_lrmat_product_dense. rewrite rows_A. apply times_lr_dense_ok; try assumption; [exact Hr1|exact Hk1|exact A_R|exact Hc1]. Qed.
    Lemma lh_dense : forall a Cm, lr_op ta a r k f -> wf_mat Cm r c ->
      dense_prod K (add_lrmat_hmatrix_product_dense K ta tb alpha a B beta Cm) alpha beta Cm r k c f g.
    Proof. intros a Cm Ha HC. unfold add_lrmat_hmatrix_product_dense. rewrite cols_B. apply lr_times_dense_ok; try assumption; [exact Hk1|exact Hc1|exact B_L|exact Hr1]. Qed.

    (** low-rank result *)
    Lemma hl_lr : forall b L, lr_op tb b k c g -> lr_any K L r c ->
      lr_prod K (add_hmatrix_lrmat_product_lr K recompress ta tb alpha A b beta L) alpha beta L r k c f g.
    Proof. intros b L Hb HC. unfold add_hmatrix_lrmat_product_lr. rewrite rows_A. apply times_lr_lr_ok; try assumption; [exact Hr1|exact Hk1|exact A_R|exact Hc1]. Qed.
    Lemma lh_lr : forall a L, lr_op ta a r k f -> lr_any K L r c ->
      lr_prod K (add_lrmat_hmatrix_product_lr K recompress ta tb alpha a B beta L) alpha beta L r k c f g.
    Proof. intros a L Ha HC. unfold add_lrmat_hmatrix_product_lr. rewrite cols_B. apply lr_times_lr_ok; try assumption; [exact Hk1|exact Hc1|exact B_L|exact Hr1]. Qed.
    Lemma hd_lr : forall b L, mat_op tb b k c g -> lr_any K L r c ->
      lr_prod K (add_hmatrix_matrix_product_lr K recompress svd_factors ta tb alpha A b beta L) alpha beta L r k c f g.
    Proof.
      intros b L Hb HL. unfold add_hmatrix_matrix_product_lr. rewrite rows_A. destruct (mat_op_dims K _ _ _ _ _ Hb) as [_ ->].
      destruct (A_R tb alpha b 0 (zeros K r c) c g Hc1 Hb (zeros_wf K r c)) as (AB & E1 & E2 & E3). rewrite E1.
      destruct (add_svd_ok K recompress HR beta r k c Hr1 Hk1 Hc1 svd_factors HS AB L E2 HL) as (L' & F1 & F2 & F3 & F4).
      exists L'. split; [exact F1|]. split; [exact F2|]. split; [exact F3|].
      intros x y Hx Hy. rewrite F4 by assumption. rewrite E3 by assumption. rewrite zeros_me. ring.
    Qed.
    Lemma dh_lr : forall a L, mat_op ta a r k f -> lr_any K L r c ->
      lr_prod K (add_matrix_hmatrix_product_lr K recompress svd_factors ta tb alpha a B beta L) alpha beta L r k c f g.
    Proof.
      intros a L Ha HL. unfold add_matrix_hmatrix_product_lr. rewrite cols_B. destruct (mat_op_dims K _ _ _ _ _ Ha) as [-> _].
      destruct (B_L ta alpha a 0 (zeros K r c) r f Hr1 Ha (zeros_wf K r c)) as (AB & E1 & E2 & E3). rewrite E1.
      destruct (add_svd_ok K recompress HR beta r k c Hr1 Hk1 Hc1 svd_factors HS AB L E2 HL) as (L' & F1 & F2 & F3 & F4).
      exists L'. split; [exact F1|]. split; [exact F2|]. split; [exact F3|].
      intros x y Hx Hy. rewrite F4 by assumption. rewrite E3 by assumption. rewrite zeros_me. ring.
    Qed.

    (** All the cases but hierarchical times hierarchical, low-rank result. *)
    Lemma leaf_case_lr : forall L, lr_any K L r c -> (h_data (hv A) <> DNone \/ h_data (hv B) <> DNone) ->
      lr_prod K (match h_data (hv A), h_data (hv B) with
        | DNone, DNone => None
        | DDense a, DLow b => add_matrix_lrmat_product_lr K recompress ta tb alpha a b beta L
        | DDense a, DDense b => add_matrix_matrix_product_lr K recompress svd_factors ta tb alpha a b beta L
        | DDense a, DNone => add_matrix_hmatrix_product_lr K recompress svd_factors ta tb alpha a B beta L
        | DLow a, DDense b => add_lrmat_matrix_product_lr K recompress ta tb alpha a b beta L
        | DLow a, DLow b => add_lrmat_lrmat_product_lr K recompress ta tb alpha a b beta L
        | DLow a, DNone => add_lrmat_hmatrix_product_lr K recompress ta tb alpha a B beta L
        | DNone, DLow b => add_hmatrix_lrmat_product_lr K recompress ta tb alpha A b beta L
        | DNone, DDense b => add_hmatrix_matrix_product_lr K recompress svd_factors ta tb alpha A b beta L
        end) alpha beta L r k c f g.
    Proof.
      intros L HL Hd. destruct (h_data (hv A)) as [|a|a] eqn:EA; destruct (h_data (hv B)) as [|b|b] eqn:EB.
      - destruct Hd; congruence.
      - apply hd_lr; [apply B_mat, EB|exact HL].
      - apply hl_lr; [apply B_lr, EB|exact HL].
      - apply dh_lr; [apply leaf_mat_op; assumption|exact HL].
      - apply dd_lr; try assumption; [exact Hr1|exact Hk1|exact Hc1|apply leaf_mat_op; assumption|apply B_mat, EB].
      - apply dl_lr; try assumption; [exact Hr1|exact Hk1|exact Hc1|apply leaf_mat_op; assumption|apply B_lr, EB].
      - apply lh_lr; [apply leaf_lr_op; assumption|exact HL].
      - apply ld_lr; try assumption; [exact Hr1|exact Hk1|exact Hc1|apply leaf_lr_op; assumption|apply B_mat, EB].
      - apply ll_lr; try assumption; [exact Hr1|exact Hk1|exact Hc1|apply leaf_lr_op; assumption|apply B_lr, EB].
    Qed.

    (** ** Dense result *)
    Lemma densified_ok : forall Cm, wf_mat Cm r c ->
      dense_prod K (do d <- copy_to_dense K B (repeat 0 (h_rows K B * h_cols K B));
        add_hmatrix_matrix_product_dense K ta tb alpha A (mkMat (h_rows K B) (h_cols K B) d) beta Cm) alpha beta Cm r k c f g.
    Proof.
      intros Cm HC. destruct (hrep_holds K parts MB B HB) as (L & HL & HMm).
      destruct (expanded_nosym K B L [] SyN MB HMm) with (tp := fun x : nat => x) (sp := fun x : nat => x) (b0 := repeat 0 (h_rows K B * h_cols K B)) as (d & E1 & E2 & E3 & E4); auto.
      - intros h Hh. destruct (wf_leaves _ _ _ _ _ (hm_wf _ _ _ _ _ _ HMm) h Hh) as [W Es].
        assert (Es' : h_sym h = SyN) by (destruct Es; assumption). unfold dense_ready. destruct (h_data h) as [|D|Lr] eqn:Ed; [exact I| |].
        + intros x y _ _. unfold leaf_entry. rewrite Ed, Es'. reflexivity.
        + assert (Q : In h (hl K B)).
          { destruct (hleaves_run_nosym K (length (preorder B)) [(B, negb (sym_is_N (h_sym (hv B))))] []) as (L' & F1 & F2).
            - intros p [<-|[]]. destruct (hrep_sym K parts MB B HB) as [-> _]. split; [reflexivity|]. exact (hrep_nosym K parts MB B HB).
            - cbn. rewrite app_nil_r. lia.
            - unfold hleaves in HL. rewrite HL in F1. injection F1 as <-. cbn [app map concat fst] in F2. rewrite app_nil_r in F2. eapply Permutation_in; eassumption. }
          destruct (hrep_hl K parts MB B HB h Q) as (_ & _ & _ & Wl & _). unfold leaf_ok in Wl. rewrite Ed in Wl. lia.
      - rewrite repeat_length. unfold h_rows, h_cols. lia.
      - unfold copy_to_dense. rewrite HL. rewrite E1. apply hd_dense; [|exact HC].
        unfold g. split.
        + unfold k, c, m, i. rewrite HM. unfold out_of, mid_of. rewrite repeat_length in E2. unfold h_rows, h_cols in *. destruct tb; cbn [is_N]; repeat split; cbn [mkMat mr mc md]; exact E2.
        + assert (V : forall x y, (x < h_rows K B)%nat -> (y < h_cols K B)%nat -> me (mkMat (h_rows K B) (h_cols K B) d) x y = MB (c_off (h_t (hv B)) + x)%nat (c_off (h_s (hv B)) + y)%nat).
          { intros x y Hx Hy. rewrite <- E3; [|apply in_ivb; unfold h_rows in Hx; lia|apply in_ivb; unfold h_cols in Hy; lia].
            unfold me. cbn [mkMat md mr]. unfold h_rows. f_equal. f_equal; [lia|f_equal; lia]. }
          intros x y Hx Hy. unfold loc. unfold k, c, m, i in *. rewrite HM in *. unfold out_of, mid_of in *. unfold h_rows, h_cols in *.
          destruct tb; cbn [is_N op_fun] in *; rewrite V by assumption; reflexivity.
    Qed.

    Lemma hh_dense_ok : forall Cm, beta = 1 -> wf_mat Cm r c ->
      dense_prod K (hh_dense K ta tb alpha A B 1 Cm) alpha beta Cm r k c f g.
    Proof.
      intros Cm Eb HC. unfold hh_dense. destruct (ceqb_spec K 1 1) as [_|N]; [|congruence]. rewrite <- Eb. cbv zeta.
      destruct (not_consistent K A B); [apply densified_ok, HC|].
      destruct (h_data (hv A)) as [|a|a] eqn:EA; destruct (h_data (hv B)) as [|b|b] eqn:EB.
      - apply densified_ok, HC.
      - apply hd_dense; [apply B_mat, EB|exact HC].
      - apply hl_dense; [apply B_lr, EB|exact HC].
      - apply dh_dense; [apply leaf_mat_op; assumption|exact HC].
      - apply dd_dense; try assumption; [exact Hr1|exact Hk1|exact Hc1|apply leaf_mat_op; assumption|apply B_mat, EB].
      - apply dl_dense; try assumption; [exact Hr1|exact Hk1|exact Hc1|apply leaf_mat_op; assumption|apply B_lr, EB].
      - apply lh_dense; [apply leaf_lr_op; assumption|exact HC].
      - apply ld_dense; try assumption; [exact Hr1|exact Hk1|exact Hc1|apply leaf_lr_op; assumption|apply B_mat, EB].
      - apply ll_dense; try assumption; [exact Hr1|exact Hk1|exact Hc1|apply leaf_lr_op; assumption|apply B_lr, EB].
    Qed.
  End Cases.
End P.
