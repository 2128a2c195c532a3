(** * The truncation errors of a product of hierarchical matrices add up. *)

From Coq Require Import List Arith ZArith Bool Lia Ring Reals Lra Permutation.
From Verif Require Import ClusterModel ClusterSpec ClusterProofs IOModel IOSpec IOProofs BlockModel BlockSpec BlockProofs BlockSym Algebra BlasModel BlasProofs
  HMatModel HMatSpec HMatProofs HMatBuild DistModel ArithModel ArithSpec ArithDense ArithLr ArithTree ArithHier ArithProd ArithDest P_Arith
  RealNum CompReal CompSpec AccSpec AccProofs P_Recomp TruncSpec TruncProofs AccumSpec.
Import ListNotations.
Local Open Scope R_scope.

Section P.
  Variable K : Coef.
  Variable md : car K -> R.
  Hypothesis MD : modulus K md.
  Notation C := (car K).
  Add Ring KrAc : (c_ring K).
  Variable rc : lrm K -> lrm K.
  Variable sv : mat K -> lrm K.
  Hypothesis HR : keeps_size rc.
  Hypothesis HS : svd_keeps_size sv.
  Notation err := (ev_error rc sv).
  Notation errs := (errors rc sv).
  Notation aerrs := (abs_errors rc sv md).
  Notation chron := (chronicle rc sv md).
  Notation event := (event K).

  (** ** Lists of truncations *)
  Lemma errs_app : forall es1 es2 i j, errs (es1 ++ es2) i j = cadd K (errs es1 i j) (errs es2 i j).
  Proof. intros. unfold errors. apply lsum_app. Qed.
  Lemma aerrs_app : forall es1 es2 i j, aerrs (es1 ++ es2) i j = aerrs es1 i j + aerrs es2 i j.
  Proof. induction es1 as [|e es1 IH]; intros es2 i j; cbn [app abs_errors]; [ring|]. rewrite IH. ring. Qed.
  Lemma aerrs_pos : forall es i j, 0 <= aerrs es i j.
  Proof. induction es as [|e es IH]; intros i j; cbn [abs_errors]; [lra|]. pose proof (md_pos _ _ MD (err e i j)). specialize (IH i j). lra. Qed.
  Lemma md_errs : forall es i j, md (errs es i j) <= aerrs es i j.
  Proof.
    induction es as [|e es IH]; intros i j; unfold errors; cbn [lsum abs_errors]; [rewrite (md_0 _ _ MD); lra|].
    eapply Rle_trans; [apply (md_add _ _ MD)|]. specialize (IH i j). unfold errors in IH. lra.
  Qed.
  Lemma chron_app : forall es1 N es2, chron N es1 -> chron (fun i j => N i j + aerrs es1 i j) es2 -> chron N (es1 ++ es2).
  Proof.
    assert (EXT : forall es N N', (forall i j, N i j = N' i j) -> chron N es -> chron N' es).
    { induction es as [|e es IH]; intros N N' E H; [exact I|]. destruct H as [H1 H2]. split; [intros a b Ha Hb; rewrite <- E; auto|].
      revert H2. apply IH. intros i j. rewrite E. reflexivity. }
    induction es1 as [|e es1 IH]; intros N es2 H1 H2; cbn [app].
    - revert H2. apply EXT. intros i j. cbn [abs_errors]. ring.
    - destruct H1 as [H1 H3]. split; [exact H1|]. apply IH; [exact H3|]. revert H2. apply EXT. intros i j. cbn [abs_errors]. ring.
  Qed.
  Lemma chron_mono : forall (es : list event) T S N N', good T S es ->
    (forall i j, in_iv i (interval T) = true -> in_iv j (interval S) = true -> N i j <= N' i j) -> chron N es -> chron N' es.
  Proof.
    induction es as [|e es IH]; intros T S N N' G E H; [exact I|]. destruct H as [H1 H2]. inversion G as [|? ? [O [I1 I2]] G']; subst. apply contains_iff in I1, I2. split.
    - intros a b Ha Hb. eapply Rle_trans; [apply H1; assumption|]. apply E; apply in_ivb; lia.
    - revert H2. apply (IH T S); [exact G'|]. intros i j Hi Hj. specialize (E i j Hi Hj). lra.
  Qed.
  Lemma good_app : forall T S (es1 es2 : list event), good T S es1 -> good T S es2 -> good T S (es1 ++ es2).
  Proof. intros T S es1 es2 H1 H2. unfold good in *. apply Forall_app. auto. Qed.
  Lemma good_wide : forall T S T' S' (es : list event), contains T' T = true -> contains S' S = true -> good T S es -> good T' S' es.
  Proof.
    intros T S T' S' es H1 H2 H. apply (Forall_impl (P := fun e => ev_ok e /\ ev_inside T S e)); [|exact H]. intros e [O [I1 I2]]. split; [exact O|].
    apply contains_iff in H1, H2, I1, I2. split; apply contains_iff; lia.
  Qed.
  Lemma errs_outside : forall T S (es : list event) i j, good T S es -> in_iv i (interval T) && in_iv j (interval S) = false -> errs es i j = c0 K /\ aerrs es i j = 0.
  Proof.
    intros T S es i j G H. induction G as [|e es [O [I1 I2]] G [IH1 IH2]]; [split; reflexivity|]. apply contains_iff in I1, I2.
    assert (E : err e i j = c0 K).
    { unfold ev_error. destruct (in_iv i (interval (ev_t e))) eqn:E1; [|reflexivity]. destruct (in_iv j (interval (ev_s e))) eqn:E2; [|reflexivity]. exfalso.
      apply in_ivb in E1, E2. assert (Q1 : in_iv i (interval T) = true) by (apply in_ivb; lia). assert (Q2 : in_iv j (interval S) = true) by (apply in_ivb; lia).
      rewrite Q1, Q2 in H. discriminate. }
    split; [unfold errors in *; cbn [lsum]; rewrite E, IH1; ring|cbn [abs_errors]; rewrite E, IH2, (md_0 _ _ MD); ring].
  Qed.
  Lemma err_at : forall t s x a b, (a < c_size t)%nat -> (b < c_size s)%nat -> err (mkEvent t s x) (c_off t + a) (c_off s + b) =
    csub K (lr_entry (ev_after rc sv (mkEvent t s x)) a b) (ev_before (mkEvent t s x) a b).
  Proof.
    intros t s x a b Ha Hb. unfold ev_error. cbn [ev_t ev_s].
    assert (in_iv (c_off t + a) (interval t) = true) as -> by (apply in_ivb; lia). assert (in_iv (c_off s + b) (interval s) = true) as -> by (apply in_ivb; lia). cbn [andb].
    replace (c_off t + a - c_off t)%nat with a by lia. replace (c_off s + b - c_off s)%nat with b by lia. reflexivity.
  Qed.

  (** ** A low-rank result with its truncations *)
  Definition outcome (T S : ctree) (out : option (lrm K)) (base : nat -> nat -> C) (N : nat -> nat -> R) (n : nat) : Prop :=
    exists L' es, out = Some L' /\ wf_lrm L' (c_size T) (c_size S) /\ (1 <= lrank L')%nat /\ good T S es /\ (length es <= n)%nat /\ chron N es /\
      forall a b, (a < c_size T)%nat -> (b < c_size S)%nat -> lr_entry L' a b = cadd K (base a b) (errs es (c_off T + a)%nat (c_off S + b)%nat).
  Definition majorant (T S : ctree) (f : nat -> nat -> C) (N : nat -> nat -> R) : Prop :=
    forall a b, (a < c_size T)%nat -> (b < c_size S)%nat -> md (f a b) <= N (c_off T + a)%nat (c_off S + b)%nat.

  Lemma self : forall T, contains T T = true.
  Proof. intros T. apply contains_iff. lia. Qed.

  Lemma one_event : forall T S out0 out base N L0, (1 <= c_size T)%nat -> (1 <= c_size S)%nat -> same_shape K rc out0 out ->
    out0 = Some L0 -> lr_op TrN L0 (c_size T) (c_size S) base -> majorant T S base N -> outcome T S out base N 1.
  Proof.
    intros T S out0 out base N L0 HT1 HS1 Sh E (W & R & V) HN. cbn [is_N op_fun] in W, V. destruct (Sh L0 E) as (b & E'). destruct b.
    - destruct (HR L0 _ _ HT1 HS1 W R) as [W' R'].
      exists (rc L0), [mkEvent T S (inr L0)]. split; [exact E'|]. split; [exact W'|]. split; [exact R'|].
      split. { constructor; [|constructor]. split; [unfold ev_ok; cbn [ev_t ev_s ev_matrix]; auto|]. split; cbn [ev_t ev_s]; apply self. }
      split; [apply le_n|]. split.
      { split; [|exact I]. cbn [ev_t ev_s]. intros a c Ha Hc. unfold ev_before. cbn [ev_matrix]. rewrite V by assumption. apply HN; assumption. }
      intros a c Ha Hc. unfold errors. cbn [lsum]. rewrite err_at by assumption. unfold ev_after, ev_before. cbn [ev_matrix]. rewrite V by assumption. ring.
    - exists L0, []. split; [exact E'|]. split; [exact W|]. split; [exact R|]. split; [constructor|]. split; [cbn; lia|]. split; [exact I|].
      intros a c Ha Hc. unfold errors. cbn [lsum]. rewrite V by assumption. ring.
  Qed.

  Lemma svd_events : forall T S AB L N, (1 <= c_size T)%nat -> (1 <= c_size S)%nat -> wf_mat AB (c_size T) (c_size S) -> lr_any K L (c_size T) (c_size S) ->
    majorant T S (me AB) N -> majorant T S (fun a b => cadd K (lr_entry L a b) (me AB a b)) N ->
    outcome T S (add_svd K rc sv AB (c1 K) L) (fun a b => cadd K (lr_entry L a b) (me AB a b)) N 2.
  Proof.
    intros T S AB L N HT1 HS1 WAB WL N1 N2. unfold add_svd. destruct (HS AB _ _ HT1 HS1 WAB) as ([RU RV] & R2). set (r := c_size T) in *. set (c := c_size S) in *.
    set (e1 := mkEvent T S (inl AB) : event).
    assert (O1 : ev_ok e1 /\ ev_inside T S e1). { split; [unfold ev_ok; cbn [e1 ev_t ev_s ev_matrix]; auto|]. split; cbn [e1 ev_t ev_s]; apply self. }
    assert (C1 : forall a b, (a < r)%nat -> (b < c)%nat -> md (ev_before e1 a b) <= N (c_off T + a)%nat (c_off S + b)%nat) by (intros a b Ha Hb; apply N1; assumption).
    assert (V1 : forall a b, (a < r)%nat -> (b < c)%nat -> err e1 (c_off T + a)%nat (c_off S + b)%nat = csub K (lr_entry (sv AB) a b) (me AB a b)).
    { intros a b Ha Hb. unfold e1. rewrite err_at by assumption. reflexivity. }
    destruct (overwritten K (c1 K) L) eqn:Eo.
    - exists (sv AB), [e1]. split; [reflexivity|]. split; [split; assumption|]. split; [exact R2|]. split; [constructor; [exact O1|constructor]|]. split; [cbn; lia|].
      split; [split; [exact C1|exact I]|]. intros a b Ha Hb. unfold errors. cbn [lsum]. rewrite V1 by assumption.
      assert (lr_entry L a b = c0 K) as ->; [|ring]. unfold overwritten in Eo. apply orb_true_iff in Eo. destruct Eo as [Eo|Eo].
      + destruct (ceqb_spec K (c1 K) (c0 K)) as [Q|]; [|discriminate]. rewrite <- (Ring_theory.Rmul_1_l (c_ring K) (lr_entry L a b)). rewrite Q. ring.
      + apply Nat.eqb_eq in Eo. apply lr_entry_0, Eo.
    - unfold overwritten in Eo. apply orb_false_iff in Eo. destruct Eo as [_ Eo]. apply Nat.eqb_neq in Eo.
      destruct WL as [WL|[WLU WLV]]; [congruence|]. assert (mr (lU (sv AB)) = r) as -> by apply RU.
      destruct (hcat_ok K _ (lU L) r _ _ RU WLU) as (U & U1 & U2 & U3). rewrite U1.
      destruct (mat_scale_ok K (c1 K) _ _ _ WLV) as (VC & S1 & S2 & S3). rewrite S1. assert (mc VC = c) as -> by apply S2.
      destruct (vcat_ok K _ VC c _ _ RV S2) as (V & W1 & W2 & W3). rewrite W1.
      destruct (concat_lr K U _ (lU L) V _ VC r c _ _ RU WLU RV S2 U2 W2 U3 W3) as [Wn En].
      assert (Rn : (1 <= lrank (mkLrm U V))%nat) by (unfold lrank; cbn [lU]; destruct U2 as (_ & -> & _); lia).
      destruct (HR (mkLrm U V) r c HT1 HS1 Wn Rn) as [Q1 Q2].
      assert (ET : forall i j, (i < r)%nat -> (j < c)%nat -> lr_entry (mkLrm U V) i j = cadd K (lr_entry (sv AB) i j) (lr_entry L i j)).
      { intros i j Hi Hj. rewrite En by assumption. unfold lr_entry at 1 2. f_equal. apply sum_ext. intros q Hq. rewrite S3 by assumption. ring. }
      set (e2 := mkEvent T S (inr (mkLrm U V)) : event).
      assert (V2 : forall a b, (a < r)%nat -> (b < c)%nat -> err e2 (c_off T + a)%nat (c_off S + b)%nat = csub K (lr_entry (rc (mkLrm U V)) a b) (lr_entry (mkLrm U V) a b)).
      { intros a b Ha Hb. unfold e2. rewrite err_at by assumption. reflexivity. }
      exists (rc (mkLrm U V)), [e1; e2]. split; [reflexivity|]. split; [exact Q1|]. split; [exact Q2|].
      split. { constructor; [exact O1|]. constructor; [|constructor]. split; [unfold ev_ok; cbn [e2 ev_t ev_s ev_matrix]; auto|]. split; cbn [e2 ev_t ev_s]; apply self. }
      split; [cbn; lia|]. split.
      { split; [exact C1|]. split; [|exact I]. intros a b Ha Hb. cbn [e2 ev_t ev_s] in *. fold r in Ha. fold c in Hb. unfold ev_before at 1. cbn [e2 ev_matrix]. rewrite ET by assumption.
        rewrite V1 by assumption. specialize (N2 a b Ha Hb). cbv beta in N2.
        replace (cadd K (lr_entry (sv AB) a b) (lr_entry L a b)) with (cadd K (cadd K (lr_entry L a b) (me AB a b)) (csub K (lr_entry (sv AB) a b) (me AB a b))) by ring.
        eapply Rle_trans; [apply (md_add _ _ MD)|]. lra. }
      intros a b Ha Hb. unfold errors. cbn [lsum]. rewrite V1, V2 by assumption. rewrite ET by assumption. ring.
  Qed.

  Variable parts : ctree -> list ctree.
  Notation hmat := (rtree (hinfo K)).
  Notation hv := rt_val.
  Notation ct := (cluster_tree parts).
  Notation hrep := (hrep parts).

  (** ** The products with a leaf *)
  Section Leaf.
    Variables (ta tb : trans) (alpha : C) (MA MB : nat -> nat -> C) (A B : hmat).
    Hypothesis HA : hrep MA A.
    Hypothesis HB : hrep MB B.
    Hypothesis HM : mid_of K ta A = out_of K tb B.
    Let o := out_of K ta A.
    Let m := mid_of K ta A.
    Let i := mid_of K tb B.
    Definition product_at (a b : nat) : C := cmul K alpha (csum m (fun x => cmul K (op_fun ta MA a x) (op_fun tb MB x b))).
    Notation pabs := (abs_product md ta tb alpha MA MB).

    Lemma md_product : forall a b, md (product_at a b) <= pabs m a b.
    Proof.
      intros a b. unfold product_at, abs_product. rewrite (md_mul _ _ MD). apply Rmult_le_compat_l; [apply (md_pos _ _ MD)|]. unfold csum.
      eapply Rle_trans; [apply (md_sum K md MD)|]. right. unfold rsum. apply (sum_ext Rc). intros k Hk. rewrite (md_mul _ _ MD). reflexivity.
    Qed.

    Lemma leaf_case_ev : forall L N, lr_any K L (c_size o) (c_size i) -> majorant o i (lr_entry L) N -> (h_data (hv A) <> DNone \/ h_data (hv B) <> DNone) ->
      outcome o i (match h_data (hv A), h_data (hv B) with
        | DNone, DNone => None
        | DDense a, DLow b => add_matrix_lrmat_product_lr K rc ta tb alpha a b (c1 K) L
        | DDense a, DDense b => add_matrix_matrix_product_lr K rc sv ta tb alpha a b (c1 K) L
        | DDense a, DNone => add_matrix_hmatrix_product_lr K rc sv ta tb alpha a B (c1 K) L
        | DLow a, DDense b => add_lrmat_matrix_product_lr K rc ta tb alpha a b (c1 K) L
        | DLow a, DLow b => add_lrmat_lrmat_product_lr K rc ta tb alpha a b (c1 K) L
        | DLow a, DNone => add_lrmat_hmatrix_product_lr K rc ta tb alpha a B (c1 K) L
        | DNone, DLow b => add_hmatrix_lrmat_product_lr K rc ta tb alpha A b (c1 K) L
        | DNone, DDense b => add_hmatrix_matrix_product_lr K rc sv ta tb alpha A b (c1 K) L
        end) (fun a b => cadd K (lr_entry L a b) (product_at (c_off o + a) (c_off i + b))) (fun x y => N x y + pabs m x y) 2.
    Proof.
      intros L N HL HN Hd.
      pose proof (Hr1 K parts ta MA A HA) as r1. pose proof (Hk1 K parts ta MA A HA) as k1. pose proof (Hc1 K parts tb MB B HB) as c1'. cbv zeta in r1, k1, c1'. fold o m i in r1, k1, c1'.
      assert (NB : majorant o i (fun a b => cadd K (lr_entry L a b) (product_at (c_off o + a) (c_off i + b))) (fun x y => N x y + pabs m x y)).
      { intros a b Ha Hb. eapply Rle_trans; [apply (md_add _ _ MD)|]. specialize (HN a b Ha Hb). pose proof (md_product (c_off o + a) (c_off i + b)). lra. }
      assert (ONE : forall out0 out L0, same_shape K rc out0 out -> out0 = Some L0 ->
        lr_op TrN L0 (c_size o) (c_size i) (fun x y => cadd K (cmul K (c1 K) (lr_entry L x y)) (cmul K alpha (sum (c_size m) (fun k => cmul K (loc K ta MA o m x k) (loc K tb MB m i k y))))) ->
        outcome o i out (fun a b => cadd K (lr_entry L a b) (product_at (c_off o + a) (c_off i + b))) (fun x y => N x y + pabs m x y) 2).
      { intros out0 out L0 S E (W & R & V).
        destruct (one_event o i out0 out (fun a b => cadd K (lr_entry L a b) (product_at (c_off o + a) (c_off i + b))) (fun x y => N x y + pabs m x y) L0) as (L' & es & Q1 & Q2 & Q3 & Q4 & Q5 & Q6 & Q7); try assumption.
        - split; [exact W|]. split; [exact R|]. intros a b Ha Hb. rewrite V by assumption. unfold product_at, csum, loc. ring.
        - exists L', es. do 4 (split; [assumption|]). split; [lia|]. split; assumption. }
      assert (TWO : forall AB, wf_mat AB (c_size o) (c_size i) -> (forall a b, (a < c_size o)%nat -> (b < c_size i)%nat -> me AB a b = product_at (c_off o + a) (c_off i + b)) ->
        outcome o i (add_svd K rc sv AB (c1 K) L) (fun a b => cadd K (lr_entry L a b) (product_at (c_off o + a) (c_off i + b))) (fun x y => N x y + pabs m x y) 2).
      { intros AB W V. destruct (svd_events o i AB L (fun x y => N x y + pabs m x y) r1 c1' W HL) as (L' & es & Q1 & Q2 & Q3 & Q4 & Q5 & Q6 & Q7).
        - intros a b Ha Hb. rewrite V by assumption. pose proof (md_product (c_off o + a) (c_off i + b)). pose proof (HN a b Ha Hb). pose proof (md_pos _ _ MD (lr_entry L a b)). lra.
        - intros a b Ha Hb. rewrite V by assumption. apply NB; assumption.
        - exists L', es. do 6 (split; [assumption|]). intros a b Ha Hb. rewrite Q7 by assumption. rewrite V by assumption. reflexivity. }
      pose proof (recompress_id K) as HI.
      destruct (h_data (hv A)) as [|a|a] eqn:EA; destruct (h_data (hv B)) as [|b|b] eqn:EB.
      - destruct Hd; congruence.
      - unfold add_hmatrix_matrix_product_lr. rewrite (rows_A K ta A). fold o. pose proof (B_mat K parts ta tb MB A B HB HM b EB) as Hb. destruct (mat_op_dims K _ _ _ _ _ Hb) as [_ ->].
        destruct (A_R K parts ta MA A HA tb alpha b (c0 K) (zeros K (c_size o) (c_size i)) (c_size i) _ c1' Hb (zeros_wf K _ _)) as (AB & E1 & E2 & E3). fold i. rewrite E1.
        apply TWO; [exact E2|]. intros x y Hx Hy. rewrite E3 by assumption. rewrite zeros_me. unfold product_at, csum, loc. fold o m i. ring.
      - destruct (hl_lr K parts (fun L => L) HI ta tb alpha (c1 K) MA MB A B HA HB b L) as (L0 & E & V); [apply (B_lr K parts ta tb MB A B HB HM); assumption|exact HL|].
        apply (ONE _ _ L0 (shape_times K rc _ _ _ _ _ _ _) E V).
      - unfold add_matrix_hmatrix_product_lr. rewrite (cols_B K tb B). fold i. pose proof (leaf_mat_op K parts ta MA A a HA EA) as Ha. destruct (mat_op_dims K _ _ _ _ _ Ha) as [-> _].
        destruct (B_L K parts ta tb MB A B HB HM ta alpha a (c0 K) (zeros K (c_size o) (c_size i)) (c_size o) _ r1 Ha (zeros_wf K _ _)) as (AB & E1 & E2 & E3). fold o. rewrite E1.
        apply TWO; [exact E2|]. intros x y Hx Hy. rewrite E3 by assumption. rewrite zeros_me. unfold product_at, csum, loc. fold o m i. ring.
      - pose proof (leaf_mat_op K parts ta MA A a HA EA) as Ha. pose proof (B_mat K parts ta tb MB A B HB HM b EB) as Hb.
        unfold add_matrix_matrix_product_lr. destruct (mat_op_dims K _ _ _ _ _ Ha) as [-> _]. destruct (mat_op_dims K _ _ _ _ _ Hb) as [_ ->].
        destruct (gemm_mat_ok K ta tb alpha a b (c1 K) (zeros K (c_size o) (c_size i)) (c_size o) (c_size m) (c_size i) (loc K ta MA o m) (loc K tb MB m i)) as (AB & E1 & E2 & E3); try eassumption; [apply zeros_wf|].
        fold o i. rewrite E1. apply TWO; [exact E2|]. intros x y Hx Hy. rewrite E3 by assumption. rewrite zeros_me. unfold product_at, csum, loc. fold o m i. ring.
      - destruct (dl_lr K (fun L => L) HI ta tb alpha (c1 K) (c_size o) (c_size m) (c_size i) (loc K ta MA o m) (loc K tb MB m i) r1 k1 c1' a b L) as (L0 & E & V);
          [apply (leaf_mat_op K parts ta MA A); assumption|apply (B_lr K parts ta tb MB A B HB HM); assumption|exact HL|]. apply (ONE _ _ L0 (shape_times K rc _ _ _ _ _ _ _) E V).
      - destruct (lh_lr K parts (fun L => L) HI ta tb alpha (c1 K) MA MB A B HA HB HM a L) as (L0 & E & V); [apply (leaf_lr_op K parts ta MA A); assumption|exact HL|].
        apply (ONE _ _ L0 (shape_ltimes K rc _ _ _ _ _ _ _ _) E V).
      - destruct (ld_lr K (fun L => L) HI ta tb alpha (c1 K) (c_size o) (c_size m) (c_size i) (loc K ta MA o m) (loc K tb MB m i) r1 k1 c1' a b L) as (L0 & E & V);
          [apply (leaf_lr_op K parts ta MA A); assumption|apply (B_mat K parts ta tb MB A B HB HM); assumption|exact HL|]. apply (ONE _ _ L0 (shape_ltimes K rc _ _ _ _ _ _ _ _) E V).
      - destruct (ll_lr K (fun L => L) HI ta tb alpha (c1 K) (c_size o) (c_size m) (c_size i) (loc K ta MA o m) (loc K tb MB m i) r1 k1 c1' a b L) as (L0 & E & V);
          [apply (leaf_lr_op K parts ta MA A); assumption|apply (B_lr K parts ta tb MB A B HB HM); assumption|exact HL|]. apply (ONE _ _ L0 (shape_ll K rc _ _ _ _ _ _ _) E V).
    Qed.
  End Leaf.

  Lemma pabs_pos : forall ta tb alpha MA MB m a b, 0 <= abs_product md ta tb alpha MA MB m a b.
  Proof.
    intros. unfold abs_product. apply Rmult_le_pos; [apply (md_pos _ _ MD)|]. unfold csum. apply (rsum_nonneg (c_size m)). intros k _.
    apply Rmult_le_pos; apply (md_pos _ _ MD).
  Qed.
  Notation rl := (@lsum Rc _).
  Lemma rl_pos : forall X (l : list X) f, (forall x, 0 <= f x) -> 0 <= rl l f.
  Proof. intros X l f H. induction l as [|x l IH]; cbn; [lra|]. specialize (H x). cbn in IH. lra. Qed.
  Definition pabs_all (ta tb : trans) (alpha : C) (MA MB : nat -> nat -> C) (ms : list ctree) (a b : nat) : R := rl ms (fun m => abs_product md ta tb alpha MA MB m a b).
  Lemma pabs_kids : forall ta tb alpha MA MB m a b, ct m -> abs_product md ta tb alpha MA MB m a b = pabs_all ta tb alpha MA MB (ckids m) a b.
  Proof.
    intros ta tb alpha MA MB m a b H. unfold abs_product, pabs_all, abs_product. rewrite (csum_kids Rc parts m _ H).
    exact (eq_sym (lsum_mul_l Rc _ (ckids m) (md alpha) (fun k => csum (K := Rc) k (fun x => md (op_fun ta MA a x) * md (op_fun tb MB x b))))).
  Qed.
  Lemma md_gp : forall ta tb alpha MA MB ms a b, md (cmul K alpha (gp K ta tb MA MB ms a b)) <= pabs_all ta tb alpha MA MB ms a b.
  Proof.
    intros ta tb alpha MA MB ms a b. unfold gp, pabs_all. induction ms as [|m ms IH]; cbn [lsum].
    - replace (cmul K alpha (c0 K)) with (c0 K) by ring. rewrite (md_0 _ _ MD). cbn. lra.
    - replace (cmul K alpha (cadd K (csum m (fun x => cmul K (op_fun ta MA a x) (op_fun tb MB x b))) (lsum ms (fun m0 => csum m0 (fun x => cmul K (op_fun ta MA a x) (op_fun tb MB x b))))))
        with (cadd K (cmul K alpha (csum m (fun x => cmul K (op_fun ta MA a x) (op_fun tb MB x b)))) (cmul K alpha (lsum ms (fun m0 => csum m0 (fun x => cmul K (op_fun ta MA a x) (op_fun tb MB x b)))))) by ring.
      eapply Rle_trans; [apply (md_add _ _ MD)|]. cbn. apply Rplus_le_compat; [|exact IH].
      unfold abs_product. rewrite (md_mul _ _ MD). apply Rmult_le_compat_l; [apply (md_pos _ _ MD)|]. unfold csum.
      eapply Rle_trans; [apply (md_sum K md MD)|]. right. unfold rsum. apply (sum_ext Rc). intros k Hk. rewrite (md_mul _ _ MD). reflexivity.
  Qed.

  (** ** Low-rank result *)
  Lemma sum_events : forall (X Y : lrm K) Xt Xs Yt Ys N, (1 <= c_size Yt)%nat -> (1 <= c_size Ys)%nat -> wf_lrm X (c_size Xt) (c_size Xs) -> wf_lrm Y (c_size Yt) (c_size Ys) ->
    (contains Yt Xt = true /\ contains Ys Xs = true) \/ (contains Xt Yt = true /\ contains Xs Ys = true) ->
    (1 <= lrank X)%nat -> majorant Yt Ys (exact_sum X Xt Xs Y Yt Ys) N ->
    outcome Yt Ys (add_lrmat_lrmat K rc X Xt Xs Y Yt Ys) (exact_sum X Xt Xs Y Yt Ys) N 1.
  Proof.
    intros X Y Xt Xs Yt Ys N H1 H2 WX WY CT RX HN. destruct (sum_facts K X Y Xt Xs Yt Ys H1 H2 WX WY CT) as (L0 & E & W & _ & R & V). specialize (E rc).
    assert (R0 : (1 <= lrank L0)%nat) by lia.
    apply (one_event Yt Ys (Some L0) _ _ N L0 H1 H2); [|reflexivity| |exact HN].
    - intros L1 E1. injection E1 as <-. rewrite E. destruct (Nat.eqb (lrank Y) 0); [exists false|exists true]; reflexivity.
    - split; [exact W|]. split; [exact R0|]. exact V.
  Qed.


  Theorem hh_lr_ev : forall leaves fuel ta tb alpha MA MB A B L N, (height K A < fuel)%nat -> hrep MA A -> hrep MB B ->
    mid_of K ta A = out_of K tb B -> above (out_of K ta A) = above (mid_of K ta A) -> above (mid_of K tb B) = above (mid_of K ta A) ->
    wf_lrm L (c_size (out_of K ta A)) (c_size (mid_of K tb B)) -> majorant (out_of K ta A) (mid_of K tb B) (lr_entry L) N ->
    outcome (out_of K ta A) (mid_of K tb B) (hh_lr K rc sv parts fuel ta tb alpha A B (c1 K) L)
      (fun a b => cadd K (lr_entry L a b) (product_at ta tb alpha MA MB A (c_off (out_of K ta A) + a) (c_off (mid_of K tb B) + b)))
      (fun x y => N x y + abs_product md ta tb alpha MA MB (mid_of K ta A) x y) (truncations leaves fuel ta tb A B).
  Proof.
    intros leaves. induction fuel as [|fuel IH]; intros ta tb alpha MA MB A B L N Hf HA HB HM Ao Ai HL HN; [lia|].
    cbn [hh_lr truncations]. destruct (ceqb_spec K (c1 K) (c1 K)) as [_|Q]; [|congruence].
    pose proof (leaf_case_ev ta tb alpha MA MB A B HA HB HM L N (or_intror HL) HN) as LEAF.
    assert (WK : forall T S out base N' n, outcome T S out base N' 2 -> (2 <= n)%nat -> outcome T S out base N' n).
    { intros T S out base N' n (L' & es & Q1 & Q2 & Q3 & Q4 & Q5 & Q6 & Q7) Hn. exists L', es. do 4 (split; [assumption|]). split; [lia|]. split; assumption. }
    destruct (h_data (hv A)) eqn:EA; [destruct (h_data (hv B)) eqn:EB| |];
      try (eapply WK; [apply LEAF; first [left; discriminate|right; discriminate]|lia]).
    clear LEAF WK. pose proof (nc_eq K ta tb A B HM Ao Ai) as NC. unfold product_at.
    set (o := out_of K ta A) in *. set (m := mid_of K ta A) in *. change (in_of K tb B) with (mid_of K tb B). set (i := mid_of K tb B) in *.
    destruct (out_ct K parts ta MA A HA) as [Co Cm]. destruct (out_ct K parts tb MB B HB) as [_ Ci]. fold o m in Co, Cm. fold i in Ci.
    rewrite NC. rewrite !(kids_eq parts) by (try assumption; congruence). rewrite pairs_of_prod.
    set (gpm := gp K ta tb MA MB).
    set (cnt := fun (o' i' m' : ctree) => match (if is_N ta then sub K A o' m' else sub K A m' o'), (if is_N tb then sub K B m' i' else sub K B i' m') with
            | Some Ac, Some Bc => truncations leaves fuel ta tb Ac Bc | _, _ => 0%nat end).
    set (pa := pabs_all ta tb alpha MA MB).
    assert (PA : forall ms a b, 0 <= pa ms a b) by (intros; apply rl_pos; intros; apply pabs_pos).
    (* the inner loop *)
    assert (INNER : forall o' i', In o' (ckids o) -> In i' (ckids i) -> forall ms acc N0, incl ms (ckids m) -> wf_lrm acc (c_size o') (c_size i') ->
      majorant o' i' (lr_entry acc) N0 ->
      exists acc' es, fold_o (fun m' acc =>
                do Ac <- (if is_N ta then sub K A o' m' else sub K A m' o');
                do Bc <- (if is_N tb then sub K B m' i' else sub K B i' m');
                hh_lr K rc sv parts fuel ta tb alpha Ac Bc (c1 K) acc) ms acc = Some acc' /\
        wf_lrm acc' (c_size o') (c_size i') /\ (ms <> [] \/ 1 <= lrank acc -> 1 <= lrank acc')%nat /\ good o' i' es /\ (length es <= list_sum (map (cnt o' i') ms))%nat /\
        chron (fun x y => N0 x y + pa ms x y) es /\
        forall a b, (a < c_size o')%nat -> (b < c_size i')%nat ->
          lr_entry acc' a b = cadd K (cadd K (lr_entry acc a b) (cmul K alpha (gpm ms (c_off o' + a)%nat (c_off i' + b)%nat))) (errs es (c_off o' + a)%nat (c_off i' + b)%nat)).
    { intros o' i' Ho' Hi'. induction ms as [|m' ms IHm]; intros acc N0 Hms Hacc HN0.
      - exists acc, []. split; [reflexivity|]. split; [exact Hacc|]. split; [intros [Q|Q]; [congruence|exact Q]|]. split; [constructor|]. split; [cbn; lia|]. split; [exact I|].
        intros a b _ _. unfold gpm, gp, errors. cbn [lsum]. ring.
      - assert (Hm' : In m' (ckids m)) by (apply Hms; left; reflexivity).
        destruct (op_child K parts ta MA A o' m' HA EA Ho' Hm') as (Ac & E1 & _ & H1 & O1 & M1 & G1).
        destruct (op_child K parts tb MB B m' i' HB EB) as (Bc & E2 & _ & H2 & O2 & M2 & _); [rewrite <- HM; exact Hm'|exact Hi'|].
        destruct (IH ta tb alpha MA MB Ac Bc acc N0) as (acc1 & es1 & E3 & W & R & G & Ln & Ch & V).
        + lia. + exact H1. + exact H2. + congruence.
        + rewrite O1, M1. rewrite (above_kid parts o o'), (above_kid parts m m'); auto.
        + rewrite M1, M2. rewrite (above_kid parts i i'), (above_kid parts m m'); auto.
        + rewrite O1, M2. exact Hacc.
        + rewrite O1, M2. exact HN0.
        + rewrite O1, M1, M2 in *. cbn [fold_o]. rewrite E1, E2, E3.
          assert (V1 : forall a b, (a < c_size o')%nat -> (b < c_size i')%nat -> lr_entry acc1 a b =
             cadd K (cadd K (lr_entry acc a b) (cmul K alpha (csum m' (fun x => cmul K (op_fun ta MA (c_off o' + a) x) (op_fun tb MB x (c_off i' + b)))))) (errs es1 (c_off o' + a)%nat (c_off i' + b)%nat)).
          { intros a b Ha Hb. rewrite V by assumption. unfold product_at. rewrite M1. reflexivity. }
          destruct (IHm acc1 (fun x y => N0 x y + abs_product md ta tb alpha MA MB m' x y + aerrs es1 x y)) as (acc' & es2 & E4 & W' & R' & G' & Ln' & Ch' & V');
            [intros x Hx; apply Hms; right; exact Hx|exact W| |].
          { intros a b Ha Hb. rewrite V1 by assumption. eapply Rle_trans; [apply (md_add _ _ MD)|]. apply Rplus_le_compat; [|apply md_errs].
            eapply Rle_trans; [apply (md_add _ _ MD)|]. apply Rplus_le_compat; [apply HN0; assumption|].
            pose proof (md_product ta tb alpha MA MB Ac (c_off o' + a) (c_off i' + b)) as Q. unfold product_at in Q. rewrite M1 in Q. exact Q. }
          exists acc', (es1 ++ es2). split; [exact E4|]. split; [exact W'|].
          split; [intros _; apply R'; right; exact R|]. split; [apply good_app; assumption|].
          split. { rewrite app_length. cbn [map]. change (list_sum (cnt o' i' m' :: map (cnt o' i') ms)) with (cnt o' i' m' + list_sum (map (cnt o' i') ms))%nat.
            assert (cnt o' i' m' = truncations leaves fuel ta tb Ac Bc) as -> by (unfold cnt; rewrite E1, E2; reflexivity). lia. }
          split.
          * apply chron_app.
            -- revert Ch. apply (chron_mono es1 o' i'); [exact G|]. intros x y _ _. unfold pa, pabs_all. cbn [lsum]. pose proof (PA ms x y) as P. unfold pa, pabs_all in P. cbn in *. lra.
            -- revert Ch'. apply (chron_mono es2 o' i'); [exact G'|]. intros x y _ _. unfold pa, pabs_all. cbn [lsum]. cbn. lra.
          * intros a b Ha Hb. rewrite V', V1 by assumption. rewrite errs_app. unfold gpm, gp. cbn [lsum]. ring. }
    set (PR := fun (oi : ctree * ctree) (X : lrm K) => wf_lrm X (c_size (fst oi)) (c_size (snd oi)) /\ (1 <= lrank X)%nat /\
          exists es, good (fst oi) (snd oi) es /\ (length es <= list_sum (map (cnt (fst oi) (snd oi)) (ckids m)))%nat /\ chron (pa (ckids m)) es /\
          forall a b, in_iv a (interval (fst oi)) = true -> in_iv b (interval (snd oi)) = true -> lr_at K X (fst oi) (snd oi) a b = cadd K (cmul K alpha (gpm (ckids m) a b)) (errs es a b)).
    destruct (map_o_ok _ _ (fun oi : ctree * ctree =>
              fold_o (fun m' acc =>
                do Ac <- (if is_N ta then sub K A (fst oi) m' else sub K A m' (fst oi));
                do Bc <- (if is_N tb then sub K B m' (snd oi) else sub K B (snd oi) m');
                hh_lr K rc sv parts fuel ta tb alpha Ac Bc (c1 K) acc)
                (ckids m) (mkLrm (zeros K (c_size (fst oi)) 0) (zeros K 0 (c_size (snd oi)))))
       PR (list_prod (ckids o) (ckids i))) as (ls & E & F).
    { intros [o' i'] Hp. apply in_prod_iff in Hp. destruct Hp as [Ho' Hi']. cbn [fst snd].
      destruct (INNER o' i' Ho' Hi' (ckids m) (mkLrm (zeros K (c_size o') 0) (zeros K 0 (c_size i'))) (fun _ _ => 0)) as (X & es & E & W & R & G & Ln & Ch & V).
      - apply incl_refl.
      - repeat split; try reflexivity; cbn [lU lV]; apply zeros_wf.
      - intros a b _ _. rewrite lr_entry_0 by reflexivity. rewrite (md_0 _ _ MD). lra.
      - exists X. split; [exact E|]. split; [exact W|]. split; [apply R; left; apply ckids_nonempty|].
        exists es. split; [exact G|]. split; [exact Ln|]. split; [revert Ch; apply (chron_mono es o' i'); [exact G|]; intros; lra|].
        cbn [fst snd]. intros a b Ha Hb. apply in_ivb in Ha, Hb. unfold lr_at. rewrite V by lia. rewrite lr_entry_0 by reflexivity.
        replace (c_off o' + (a - c_off o'))%nat with a by lia. replace (c_off i' + (b - c_off i'))%nat with b by lia. ring. }
    rewrite E. clear E INNER IH.
    (* the additions *)
    set (IN := fun (p : ctree * ctree) a b => in_iv a (interval (fst p)) && in_iv b (interval (snd p))).
    assert (OUTER : forall blocks ls acc N0, Forall2 PR blocks ls ->
       incl blocks (list_prod (ckids o) (ckids i)) -> wf_lrm acc (c_size o) (c_size i) -> majorant o i (lr_entry acc) N0 ->
       exists acc' es, fold_o (fun x L => add_lrmat_lrmat K rc (snd x) (fst (fst x)) (snd (fst x)) L o i) (combine blocks ls) acc = Some acc' /\
         wf_lrm acc' (c_size o) (c_size i) /\ (blocks <> [] \/ 1 <= lrank acc -> 1 <= lrank acc')%nat /\ good o i es /\
         (length es <= list_sum (map (fun oi => S (list_sum (map (cnt (fst oi) (snd oi)) (ckids m)))) blocks))%nat /\
         chron (fun x y => N0 x y + rl blocks (fun p => if IN p x y then pa (ckids m) x y else 0)) es /\
         forall a b, (a < c_size o)%nat -> (b < c_size i)%nat -> lr_entry acc' a b =
           cadd K (cadd K (lr_entry acc a b) (lsum blocks (fun p => if IN p (c_off o + a)%nat (c_off i + b)%nat then cmul K alpha (gpm (ckids m) (c_off o + a)%nat (c_off i + b)%nat) else c0 K)))
             (errs es (c_off o + a)%nat (c_off i + b)%nat)).
    { clear L HL HN ls F. intros blocks ls acc N0 F. revert acc N0. induction F as [|[o' i'] X blocks ls (W & R & es & G & Ln & Ch & V) F IHf]; intros acc N0 Hin Hacc HN0.
      - exists acc, []. split; [reflexivity|]. split; [exact Hacc|]. split; [intros [Q|Q]; [congruence|exact Q]|]. split; [constructor|]. split; [cbn; lia|]. split; [exact I|].
        intros. unfold errors. cbn [lsum]. ring.
      - assert (Hp : In (o', i') (list_prod (ckids o) (ckids i))) by (apply Hin; left; reflexivity). apply in_prod_iff in Hp. destruct Hp as [Ho' Hi'].
        pose proof (ckids_in parts o o' Co Ho') as Q1. pose proof (ckids_in parts i i' Ci Hi') as Q2. cbn [fst snd] in *.
        assert (CT : contains o o' = true /\ contains i i' = true) by (rewrite !contains_iff; lia).
        set (p0 := fun x y => if IN (o', i') x y then pa (ckids m) x y else 0).
        set (v0 := fun x y => if IN (o', i') x y then cmul K alpha (gpm (ckids m) x y) else c0 K).
        assert (P0 : forall x y, 0 <= p0 x y) by (intros x y; unfold p0; destruct (IN _ _ _); [apply PA|lra]).
        assert (VP : forall x y, md (v0 x y) <= p0 x y).
        { intros x y. unfold v0, p0. destruct (IN _ _ _); [apply md_gp|rewrite (md_0 _ _ MD); lra]. }
        assert (SE : forall a b, (a < c_size o)%nat -> (b < c_size i)%nat -> exact_sum X o' i' acc o i a b =
           cadd K (cadd K (lr_entry acc a b) (v0 (c_off o + a)%nat (c_off i + b)%nat)) (errs es (c_off o + a)%nat (c_off i + b)%nat)).
        { intros a b Ha Hb. unfold exact_sum, v0, IN. cbn [fst snd].
          destruct (in_iv (c_off o + a) (interval o') && in_iv (c_off i + b) (interval i')) eqn:EI.
          - apply andb_true_iff in EI. destruct EI as [I1 I2]. pose proof (V _ _ I1 I2) as V0. unfold lr_at in V0. rewrite V0. ring.
          - destruct (errs_outside o' i' es _ _ G EI) as [-> _]. ring. }
        set (N1 := fun x y => N0 x y + p0 x y + aerrs es x y).
        assert (MJ : majorant o i (exact_sum X o' i' acc o i) N1).
        { intros a b Ha Hb. rewrite SE by assumption. unfold N1. eapply Rle_trans; [apply (md_add _ _ MD)|]. apply Rplus_le_compat; [|apply md_errs].
          eapply Rle_trans; [apply (md_add _ _ MD)|]. apply Rplus_le_compat; [apply HN0; assumption|apply VP]. }
        destruct (sum_events X acc o' i' o i N1) as (acc1 & es1 & E1 & W1 & R1 & G1 & Ln1 & Ch1 & V1); try assumption.
        + eapply ct_size, Co. + eapply ct_size, Ci. + left. exact CT.
        + cbn [combine fold_o fst snd]. rewrite E1. destruct (IHf acc1 (fun x y => N1 x y + aerrs es1 x y)) as (acc' & es2 & E2 & W2 & R2 & G2 & Ln2 & Ch2 & V2).
          * intros x Hx. apply Hin. right. exact Hx.
          * exact W1.
          * intros a b Ha Hb. rewrite V1 by assumption. eapply Rle_trans; [apply (md_add _ _ MD)|]. apply Rplus_le_compat; [apply MJ; assumption|apply md_errs].
          * exists acc', (es ++ es1 ++ es2). split; [exact E2|]. split; [exact W2|]. split; [intros _; apply R2; right; exact R1|].
            assert (Gw : good o i es) by (apply (good_wide o' i'); try apply CT; exact G).
            split; [apply good_app; [exact Gw|apply good_app; assumption]|].
            split. { rewrite !app_length. cbn [map fst snd]. match goal with |- (_ <= list_sum (?x :: ?l))%nat => change (list_sum (x :: l)) with (x + list_sum l)%nat end. lia. }
            split.
            -- assert (RP : forall x y, 0 <= rl blocks (fun p => if IN p x y then pa (ckids m) x y else 0)).
               { intros x y. apply rl_pos. intros p. destruct (IN _ _ _); [apply PA|lra]. }
               assert (HN0p : forall x y, in_iv x (interval o) = true -> in_iv y (interval i) = true -> 0 <= N0 x y).
               { intros x y Hx Hy. apply in_ivb in Hx, Hy. pose proof (HN0 (x - c_off o)%nat (y - c_off i)%nat ltac:(lia) ltac:(lia)) as Z.
                 replace (c_off o + (x - c_off o))%nat with x in Z by lia. replace (c_off i + (y - c_off i))%nat with y in Z by lia.
                 pose proof (md_pos _ _ MD (lr_entry acc (x - c_off o) (y - c_off i))). lra. }
               assert (EXP : forall x y, rl ((o', i') :: blocks) (fun p => if IN p x y then pa (ckids m) x y else 0) = p0 x y + rl blocks (fun p => if IN p x y then pa (ckids m) x y else 0)) by reflexivity.
               apply chron_app; [|apply chron_app].
               ++ revert Ch. apply (chron_mono es o' i'); [exact G|]. intros x y Hx Hy. rewrite EXP.
                  assert (p0 x y = pa (ckids m) x y) as -> by (unfold p0, IN; cbn [fst snd]; rewrite Hx, Hy; reflexivity).
                  assert (0 <= N0 x y). { apply HN0p; apply in_ivb in Hx, Hy; apply in_ivb; lia. } specialize (RP x y). lra.
               ++ revert Ch1. apply (chron_mono es1 o i); [exact G1|]. intros x y Hx Hy. rewrite EXP. unfold N1. specialize (RP x y). lra.
               ++ revert Ch2. apply (chron_mono es2 o i); [exact G2|]. intros x y Hx Hy. rewrite EXP. unfold N1. lra.
            -- intros a b Ha Hb. rewrite V2, V1, SE by assumption. rewrite !errs_app. cbn [lsum]. unfold v0. ring. }
    destruct (OUTER _ ls L N F (incl_refl _) HL HN) as (L' & es & E & W & R & G & Ln & Ch & V). exists L', es. split; [exact E|]. split; [exact W|]. split.
    { apply R. left. intros Q. assert (In (nth 0 (ckids o) o, nth 0 (ckids i) i) (list_prod (ckids o) (ckids i))) as Q'.
      { apply in_prod; apply nth_In; [pose proof (ckids_nonempty o); destruct (ckids o)|pose proof (ckids_nonempty i); destruct (ckids i)]; cbn; try congruence; lia. }
      rewrite Q in Q'. contradiction. }
    split; [exact G|]. split; [exact Ln|]. split.
    - revert Ch. apply (chron_mono es o i); [exact G|]. intros x y Hx Hy. apply in_ivb in Hx, Hy. unfold IN.
      rewrite (one_block Rc _ _ _ _ _ _ _ _ _ (ckids_tiles parts o Co) (ckids_tiles parts i Ci)) by lia.
      unfold pa. rewrite <- (pabs_kids ta tb alpha MA MB m x y Cm). lra.
    - intros a b Ha Hb. rewrite V by assumption. unfold IN. rewrite (one_block K _ _ _ _ _ _ _ _ _ (ckids_tiles parts o Co) (ckids_tiles parts i Ci)) by lia.
      rewrite (csum_kids K parts m _ Cm). reflexivity.
  Qed.

  (** ** Hierarchical result *)
  Lemma low_child : forall i (cs : list hmat) c, In c cs -> (low_leaves c <= low_leaves (RNode i cs))%nat.
  Proof.
    intros i cs c H. cbn [low_leaves]. assert (Q : (low_leaves c <= list_sum (map low_leaves cs))%nat); [|lia].
    clear i. induction cs as [|x cs IH]; [contradiction|]. cbn [map]. change (list_sum (low_leaves x :: map low_leaves cs)) with (low_leaves x + list_sum (map low_leaves cs))%nat.
    destruct H as [<-|H]; [lia|]. specialize (IH H). lia.
  Qed.
  Lemma low_upd : forall g (A B : hmat), hupd g A B -> low_leaves B = low_leaves A.
  Proof.
    intros g. induction A as [i cs IH] using rtree_ind'. intros B U. inversion U as [x x' S1 S2 S3|x xs xs' S1 S2]; subst; cbn [low_leaves map].
    - destruct S1 as (_ & _ & _ & _ & _ & _ & S1). destruct (h_data i), (h_data x'); try contradiction; reflexivity.
    - f_equal. clear - IH S2. induction S2 as [|a b l l' U S2 IHs]; [reflexivity|]. cbn [map]. 
      change (list_sum (low_leaves b :: map low_leaves l')) with (low_leaves b + list_sum (map low_leaves l'))%nat. change (list_sum (low_leaves a :: map low_leaves l)) with (low_leaves a + list_sum (map low_leaves l))%nat.
      rewrite (IH a (or_introl eq_refl) b U), IHs; [reflexivity|]. intros c Hc. apply IH. right. exact Hc.
  Qed.
  Lemma bounded_upd : forall (N N' : nat -> nat -> R) (f : nat -> nat -> C) (A B : hmat), bounded md N A -> (forall x y, md (f x y) <= N' x y) ->
    hupd (fun x y v => cadd K v (f x y)) A B -> bounded md (fun x y => N x y + N' x y) B.
  Proof.
    intros N N' f A B H HN. revert B. induction H as [i H|i cs D H IH]; intros B U; inversion U as [x x' S1 S2 S3|x xs xs' S1 S2]; subst.
    - destruct S1 as (E1 & E2 & _). apply bounded_leaf. rewrite <- E1, <- E2. intros a b Ha Hb. rewrite S3 by assumption.
      eapply Rle_trans; [apply (md_add _ _ MD)|]. apply Rplus_le_compat; [apply H; assumption|apply HN].
    - inversion S2; subst. apply bounded_leaf. intros a b Ha Hb. specialize (H a b Ha Hb). pose proof (HN (c_off (h_t i) + a)%nat (c_off (h_s i) + b)%nat).
      pose proof (md_pos _ _ MD (f (c_off (h_t i) + a)%nat (c_off (h_s i) + b)%nat)). lra.
    - exfalso. destruct S1 as (_ & _ & _ & _ & _ & _ & S1). rewrite D in S1. apply leaf_ok_data in S2. destruct (h_data x'); try contradiction; congruence.
    - apply bounded_node; [exact D|]. intros c Hc. clear - IH S2 Hc. induction S2 as [|a b l l' U S2 IHs]; [contradiction|]. destruct Hc as [<-|Hc].
      + apply (IH a (or_introl eq_refl) b U).
      + apply IHs; [|exact Hc]. intros c0 Hc0. apply IH. right. exact Hc0.
  Qed.
  Lemma bounded_child : forall N i (cs : list hmat), bounded md N (RNode i cs) -> forall c, In c cs -> bounded md N c.
  Proof. intros N i cs H c Hc. inversion H; subst; [contradiction|auto]. Qed.

  Lemma blocks_apart : forall t s p q x y, ct t -> ct s -> In p (list_prod (ckids t) (ckids s)) -> In q (list_prod (ckids t) (ckids s)) ->
    in_iv x (interval (fst p)) && in_iv y (interval (snd p)) = true -> in_iv x (interval (fst q)) && in_iv y (interval (snd q)) = true -> p = q.
  Proof.
    intros t s [p1 p2] [q1 q2] x y Ht Hs Hp Hq H1 H2. apply in_prod_iff in Hp, Hq. cbn [fst snd] in *. apply andb_true_iff in H1, H2. rewrite !in_ivb in H1, H2.
    destruct Hp as [P1 P2]. destruct Hq as [Q1 Q2].
    destruct (tiles_pair _ _ _ p1 q1 (ckids_tiles parts t Ht) P1 Q1) as [->|D1]; [|unfold disj in D1; lia].
    destruct (tiles_pair _ _ _ p2 q2 (ckids_tiles parts s Hs) P2 Q2) as [->|D2]; [reflexivity|unfold disj in D2; lia].
  Qed.
  (** Events in some of the blocks. *)
  Definition among (ps : list (ctree * ctree)) (es : list event) : Prop := Forall (fun e => ev_ok e /\ exists p, In p ps /\ ev_inside (fst p) (snd p) e) es.
  Lemma among_app : forall ps qs es fs, among ps es -> among qs fs -> among (ps ++ qs) (es ++ fs).
  Proof.
    intros ps qs es fs H1 H2. unfold among in *. apply Forall_app. split.
    - apply (Forall_impl (P := fun e => ev_ok e /\ exists p, In p ps /\ ev_inside (fst p) (snd p) e)); [|exact H1]. intros e (O & p & Hp & I). split; [exact O|]. exists p. split; [apply in_or_app; left; exact Hp|exact I].
    - apply (Forall_impl (P := fun e => ev_ok e /\ exists p, In p qs /\ ev_inside (fst p) (snd p) e)); [|exact H2]. intros e (O & p & Hp & I). split; [exact O|]. exists p. split; [apply in_or_app; right; exact Hp|exact I].
  Qed.
  Lemma among_one : forall p es, good (fst p) (snd p) es -> among [p] es.
  Proof. intros p es H. unfold among. apply (Forall_impl (P := fun e => ev_ok e /\ ev_inside (fst p) (snd p) e)); [|exact H]. intros e [O I]. split; [exact O|]. exists p. split; [left; reflexivity|exact I]. Qed.
  Lemma among_good : forall t s ps es, ct t -> ct s -> incl ps (list_prod (ckids t) (ckids s)) -> among ps es -> good t s es.
  Proof.
    intros t s ps es Ht Hs Hin H. unfold good. apply (Forall_impl (P := fun e => ev_ok e /\ exists p, In p ps /\ ev_inside (fst p) (snd p) e)); [|exact H].
    intros e (O & [p1 p2] & Hp & I1 & I2). split; [exact O|]. apply Hin, in_prod_iff in Hp. destruct Hp as [P1 P2]. pose proof (ckids_in parts t p1 Ht P1). pose proof (ckids_in parts s p2 Hs P2).
    cbn [fst snd] in *. apply contains_iff in I1, I2. split; apply contains_iff; lia.
  Qed.
  Lemma among_zero : forall t s ps es q x y, ct t -> ct s -> incl ps (list_prod (ckids t) (ckids s)) -> In q (list_prod (ckids t) (ckids s)) -> ~ In q ps -> among ps es ->
    in_iv x (interval (fst q)) = true -> in_iv y (interval (snd q)) = true -> errs es x y = c0 K.
  Proof.
    intros t s ps es q x y Ht Hs Hin Hq Hn H Hx Hy. unfold errors. apply lsum_0. intros e He. unfold among in H. rewrite Forall_forall in H. destruct (H e He) as (O & p & Hp & I1 & I2).
    unfold ev_error. destruct (in_iv x (interval (ev_t e)) && in_iv y (interval (ev_s e))) eqn:E; [|reflexivity]. exfalso. apply Hn.
    assert (p = q); [|congruence]. apply (blocks_apart t s p q x y Ht Hs (Hin p Hp) Hq); [|rewrite Hx, Hy; reflexivity].
    apply andb_true_iff in E. rewrite !in_ivb in E. apply contains_iff in I1, I2. rewrite andb_true_iff, !in_ivb. lia.
  Qed.

  Lemma alh_ev : forall (L : lrm K) Rt Rs, wf_lrm L (c_size Rt) (c_size Rs) -> (1 <= lrank L)%nat -> forall A N, hdest A -> ct (h_t (hv A)) -> ct (h_s (hv A)) ->
    contains Rt (h_t (hv A)) = true -> contains Rs (h_s (hv A)) = true -> bounded md N A ->
    exists B es, on_leaves K (fun i =>
      match h_data i with
      | DDense D =>
          let ro := (c_off (h_t i) - c_off Rt)%nat in
          let co := (c_off (h_s i) - c_off Rs)%nat in
          let M := c_size (h_t i) in let N := c_size (h_s i) in
          do rU <- copy_block K (lU L) ro 0 M (lrank L) (zeros K M (lrank L)) 0 0;
          do rV <- ptr K (HMatModel.md (lV L)) (co * mr (lV L))%nat;
          do d <- gemm K TrN TrN M N (lrank L) (c1 K) (HMatModel.md rU) M rV (lrank L) (c1 K) (HMatModel.md D) M;
          Some (DDense (with_data K D d))
      | DLow Y => do Y' <- add_lrmat_lrmat K rc L Rt Rs Y (h_t i) (h_s i); Some (DLow Y')
      | DNone => Some DNone
      end) A = Some B /\ good (h_t (hv A)) (h_s (hv A)) es /\ (length es <= low_leaves A)%nat /\
      chron (fun x y => N x y + md (lr_at K L Rt Rs x y)) es /\
      hupd (fun x y v => cadd K v (cadd K (lr_at K L Rt Rs x y) (errs es x y))) A B.
  Proof.
    intros L Rt Rs WL RL A N H. revert N. induction H as [i Li|i cs D Lf ND IN H IH]; intros N Ht Hs C1 C2 HN; cbn [rt_val] in *.
    - cbn [on_leaves map_o low_leaves map]. pose proof Li as Li'. unfold leaf_ok in Li'. destruct (h_data i) as [|Dm|Y] eqn:E; [contradiction| |].
      + destruct (dense_leaf_sum K parts L Rt Rs i Dm Ht Hs C1 C2 WL RL Li') as (D' & E1 & E2 & E3 & E4). cbv zeta in E1 |- *. rewrite E1. eexists. exists []. split; [reflexivity|].
        split; [constructor|]. split; [cbn; lia|]. split; [exact I|]. apply hupd_leaf.
        * do 6 (split; [reflexivity|]). cbn [h_data]. rewrite E. exact E2.
        * exact E3.
        * intros a b Ha Hb. unfold stored. cbn [h_data]. rewrite E. rewrite E4 by assumption. unfold errors, lr_at. cbn [lsum]. ring.
      + destruct Li' as [WY RY].
        assert (SE : forall a b, (a < c_size (h_t i))%nat -> (b < c_size (h_s i))%nat -> exact_sum L Rt Rs Y (h_t i) (h_s i) a b = cadd K (lr_entry Y a b) (lr_at K L Rt Rs (c_off (h_t i) + a) (c_off (h_s i) + b))).
        { intros a b Ha Hb. unfold exact_sum, lr_at. apply contains_iff in C1, C2.
          assert (in_iv (c_off (h_t i) + a) (interval Rt) = true) as -> by (apply in_ivb; lia). assert (in_iv (c_off (h_s i) + b) (interval Rs) = true) as -> by (apply in_ivb; lia). reflexivity. }
        destruct (sum_events L Y Rt Rs (h_t i) (h_s i) (fun x y => N x y + md (lr_at K L Rt Rs x y))) as (Y' & es & E1 & E2 & E3 & E4 & E5 & E6 & E7); try assumption.
        * eapply ct_size, Ht. * eapply ct_size, Hs. * right. split; assumption.
        * intros a b Ha Hb. rewrite SE by assumption. eapply Rle_trans; [apply (md_add _ _ MD)|]. apply Rplus_le_compat_r.
          inversion HN as [x H|x xs Q]; subst; [|congruence]. specialize (H a b Ha Hb). unfold stored in H. rewrite E in H. exact H.
        * rewrite E1. eexists. exists es. split; [reflexivity|]. split; [exact E4|]. split; [cbn; lia|]. split; [exact E6|]. apply hupd_leaf.
          -- do 6 (split; [reflexivity|]). cbn [h_data]. rewrite E. exact I.
          -- split; assumption.
          -- intros a b Ha Hb. unfold stored. cbn [h_data]. rewrite E. rewrite E7, SE by assumption. ring.
    - cbn [on_leaves low_leaves]. rewrite D. match goal with |- context [on_leaves K ?f] => set (F := f) in * end.
      assert (Q : forall l, (forall c, In c l -> In c cs) -> NoDup (map block_of l) -> exists l' es, map_o (on_leaves K F) l = Some l' /\ among (map block_of l) es /\
        (length es <= list_sum (map low_leaves l))%nat /\ chron (fun x y => N x y + md (lr_at K L Rt Rs x y)) es /\
        Forall2 (hupd (fun x y v => cadd K v (cadd K (lr_at K L Rt Rs x y) (errs es x y)))) l l').
      { induction l as [|c l IHl]; intros Hl NDl.
        - exists [], []. split; [reflexivity|]. split; [constructor|]. split; [cbn; lia|]. split; [exact I|constructor].
        - cbn [map] in NDl. inversion NDl as [|? ? Nc NDl']; subst. assert (Hc : In c cs) by (apply Hl; left; reflexivity).
          assert (HL : forall c, In c l -> In c cs) by (intros x Hx; apply Hl; right; exact Hx).
          assert (P : In (block_of c) (list_prod (ckids (h_t i)) (ckids (h_s i)))) by (apply IN, in_map, Hc).
          pose proof P as P'. unfold block_of in P'. apply in_prod_iff in P'. destruct P' as [P1 P2].
          pose proof (ckids_in parts _ _ Ht P1). pose proof (ckids_in parts _ _ Hs P2). pose proof (ckids_ct parts _ _ Ht P1) as CT1. pose proof (ckids_ct parts _ _ Hs P2) as CT2.
          destruct (IH c Hc N) as (c' & es1 & E1 & G1 & L1 & Ch1 & U1); try assumption.
          + apply contains_iff in C1. apply contains_iff. lia.
          + apply contains_iff in C2. apply contains_iff. lia.
          + eapply bounded_child; eassumption.
          + destruct (IHl HL NDl') as (l' & es2 & E2 & G2 & L2 & Ch2 & U2).
            assert (IN' : incl (map block_of l) (list_prod (ckids (h_t i)) (ckids (h_s i)))).
            { intros x Hx. apply in_map_iff in Hx. destruct Hx as (z & <- & Hz). apply IN, in_map, HL, Hz. }
            exists (c' :: l'), (es1 ++ es2).
            split. { cbn [map_o]. rewrite E1. change ((fix go (l0 : list hmat) : option (list hmat) := match l0 with [] => Some [] | a :: l' => match on_leaves K F a with Some b => match go l' with Some bs => Some (b :: bs) | None => None end | None => None end end) l) with (map_o (on_leaves K F) l). rewrite E2. reflexivity. }
            assert (G1' : among [block_of c] es1) by (apply among_one; exact G1).
            split; [exact (among_app [block_of c] (map block_of l) es1 es2 G1' G2)|].
            split. { rewrite app_length. cbn [map]. change (list_sum (low_leaves c :: map low_leaves l)) with (low_leaves c + list_sum (map low_leaves l))%nat. lia. }
            split. { apply chron_app; [exact Ch1|]. pose proof (among_good _ _ _ _ Ht Hs IN' G2) as Gd. revert Ch2. apply (chron_mono es2 _ _ _ _ Gd). intros x y _ _. pose proof (aerrs_pos es1 x y). lra. }
            constructor.
            * revert U1. apply (hupd_ext_in K parts); try assumption; [apply H, Hc|]. intros x y v Hx Hy. rewrite errs_app.
              assert (errs es2 x y = c0 K) as ->; [|ring]. apply (among_zero (h_t i) (h_s i) (map block_of l) es2 (block_of c)); assumption.
            * assert (Z : forall d, In d l -> forall B, hupd (fun x y v => cadd K v (cadd K (lr_at K L Rt Rs x y) (errs es2 x y))) d B -> hupd (fun x y v => cadd K v (cadd K (lr_at K L Rt Rs x y) (errs (es1 ++ es2) x y))) d B).
              { intros d Hd B U. assert (Pd : In (block_of d) (list_prod (ckids (h_t i)) (ckids (h_s i)))) by (apply IN', in_map, Hd).
                pose proof Pd as P'. unfold block_of in P'. apply in_prod_iff in P'. destruct P' as [P3 P4].
                revert U. apply (hupd_ext_in K parts).
                - apply H, HL, Hd. - exact (ckids_ct parts _ _ Ht P3). - exact (ckids_ct parts _ _ Hs P4).
                - intros x y v Hx Hy. rewrite errs_app. assert (errs es1 x y = c0 K) as ->; [|ring].
                  apply (among_zero (h_t i) (h_s i) [block_of c] es1 (block_of d)); try assumption.
                  + intros z [<-|[]]. exact P.
                  + intros [Q|[]]. apply Nc. rewrite Q. apply in_map, Hd. }
              clear - U2 Z. induction U2 as [|a b l l' U U2 IHu]; constructor; [apply Z; [left; reflexivity|exact U]|]. apply IHu. intros d Hd. apply Z. right. exact Hd. }
      destruct (Q cs (fun c Hc => Hc) ND) as (cs' & es & E1 & E2 & E3 & E4 & E5). rewrite E1. eexists. exists es. split; [reflexivity|].
      assert (Qi : mkHinfo K (h_t i) (h_s i) (h_sym i) (h_uplo i) DNone (h_lsym i) (h_luplo i) = i) by (destruct i; cbn in *; congruence). rewrite Qi.
      split; [exact (among_good _ _ _ _ Ht Hs IN E2)|]. split; [exact E3|]. split; [exact E4|]. apply hupd_node; assumption.
  Qed.

  Definition houtcome (T S : ctree) (out : option hmat) (H : hmat) (base : nat -> nat -> C) (N : nat -> nat -> R) (n : nat) : Prop :=
    exists H' es, out = Some H' /\ good T S es /\ (length es <= n)%nat /\ chron N es /\ hupd (fun x y v => cadd K v (cadd K (base x y) (errs es x y))) H H'.

  Theorem hh_h_ev : forall leaves fuel ta tb alpha MA MB A B H N, (height K A < fuel)%nat -> hrep MA A -> hrep MB B ->
    mid_of K ta A = out_of K tb B -> above (out_of K ta A) = above (mid_of K ta A) -> above (mid_of K tb B) = above (mid_of K ta A) ->
    hdest H -> block_of H = (out_of K ta A, mid_of K tb B) -> (low_leaves H <= leaves)%nat -> (forall x y, 0 <= N x y) -> bounded md N H ->
    houtcome (out_of K ta A) (mid_of K tb B) (hh_h K rc sv parts fuel ta tb alpha A B (c1 K) H) H
      (product_at ta tb alpha MA MB A) (fun x y => N x y + abs_product md ta tb alpha MA MB (mid_of K ta A) x y) (truncations leaves fuel ta tb A B).
  Proof.
    intros leaves. induction fuel as [|fuel IH]; intros ta tb alpha MA MB A B H N Hf HA HB HM Ao Ai HD HBl HLv N0 HN; [lia|].
    pose proof (nc_eq K ta tb A B HM Ao Ai) as NC.
    destruct (out_ct K parts ta MA A HA) as [Co Cm]. destruct (out_ct K parts tb MB B HB) as [_ Ci].
    destruct HD as [h Lh|h cs D Lf ND IN HD].
    - (* leaf *)
      unfold block_of in HBl. cbn [rt_val] in HBl. injection HBl as Bt Bs. pose proof Lh as Lh'. unfold leaf_ok in Lh'. rewrite Bt, Bs in Lh'.
      assert (KEY : forall d es, same_kind K (h_data h) d -> leaf_ok (set_data K h d) ->
        (forall a b, (a < c_size (out_of K ta A))%nat -> (b < c_size (mid_of K tb B))%nat -> stored (set_data K h d) a b =
           cadd K (stored h a b) (cadd K (product_at ta tb alpha MA MB A (c_off (out_of K ta A) + a)%nat (c_off (mid_of K tb B) + b)%nat) (errs es (c_off (out_of K ta A) + a)%nat (c_off (mid_of K tb B) + b)%nat))) ->
        hupd (fun x y v => cadd K v (cadd K (product_at ta tb alpha MA MB A x y) (errs es x y))) (RNode h []) (with_hdata K (RNode h []) d)).
      { intros d es K1 K2 K3. unfold with_hdata. cbn [rt_val rt_children]. apply hupd_leaf; [do 6 (split; [reflexivity|]); exact K1|exact K2|].
        rewrite Bt, Bs. exact K3. }
      cbn [hh_h rt_val]. destruct (h_data h) as [|Dm|L] eqn:E; [contradiction| |].
      + destruct (hh_dense_ok K parts ta tb alpha (c1 K) MA MB A B HA HB HM Dm eq_refl Lh') as (D' & E1 & E2 & E3). rewrite E1. eexists. exists []. split; [reflexivity|].
        split; [constructor|]. split; [cbn [length]; lia|]. split; [exact I|].
        apply KEY; [exact (hh_dense_mp K ta tb alpha A B (c1 K) Dm D' E1)|unfold leaf_ok; cbn [set_data h_data h_t h_s]; rewrite Bt, Bs; exact E2|]. intros a b Ha Hb. unfold stored. cbn [set_data h_data]. rewrite E.
        rewrite E3 by assumption. unfold product_at, errors, csum, loc. cbn [lsum]. ring.
      + destruct Lh' as [WL RL]. destruct (hh_lr_ev leaves (S fuel) ta tb alpha MA MB A B L N Hf HA HB HM Ao Ai WL) as (L' & es & E1 & W & R & G & Ln & Ch & V).
        { intros a b Ha Hb. inversion HN as [x Hx|x xs Q]; subst; [|congruence]. rewrite Bt, Bs in Hx. specialize (Hx a b Ha Hb). unfold stored in Hx. rewrite E in Hx. exact Hx. }
        rewrite E1. eexists. exists es. split; [reflexivity|]. split; [exact G|]. split; [exact Ln|]. split; [exact Ch|].
        apply KEY; [exact I|unfold leaf_ok; cbn [set_data h_data h_t h_s]; rewrite Bt, Bs; split; [exact W|exact R]|]. intros a b Ha Hb. unfold stored. cbn [set_data h_data]. rewrite E.
        rewrite V by assumption. ring.
    - (* node *)
      unfold block_of in HBl. cbn [rt_val] in HBl. injection HBl as Bt Bs.
      cbn [hh_h rt_val]. rewrite D. destruct (ceqb_spec K (c1 K) (c1 K)) as [_|Q]; [|congruence].
      assert (LEAF : (h_data (hv A) <> DNone \/ h_data (hv B) <> DNone) ->
        houtcome (out_of K ta A) (mid_of K tb B) (do L <- match h_data (hv A), h_data (hv B) with
        | DNone, DNone => None
        | DDense a, DLow b => add_matrix_lrmat_product_lr K rc ta tb alpha a b (c1 K) (empty_lrm K)
        | DDense a, DDense b => add_matrix_matrix_product_lr K rc sv ta tb alpha a b (c1 K) (empty_lrm K)
        | DDense a, DNone => add_matrix_hmatrix_product_lr K rc sv ta tb alpha a B (c1 K) (empty_lrm K)
        | DLow a, DDense b => add_lrmat_matrix_product_lr K rc ta tb alpha a b (c1 K) (empty_lrm K)
        | DLow a, DLow b => add_lrmat_lrmat_product_lr K rc ta tb alpha a b (c1 K) (empty_lrm K)
        | DLow a, DNone => add_lrmat_hmatrix_product_lr K rc ta tb alpha a B (c1 K) (empty_lrm K)
        | DNone, DLow b => add_hmatrix_lrmat_product_lr K rc ta tb alpha A b (c1 K) (empty_lrm K)
        | DNone, DDense b => add_hmatrix_matrix_product_lr K rc sv ta tb alpha A b (c1 K) (empty_lrm K)
        end; add_lrmat_hmatrix K rc L (RNode h cs)) (RNode h cs) (product_at ta tb alpha MA MB A)
          (fun x y => N x y + abs_product md ta tb alpha MA MB (mid_of K ta A) x y) (2 + leaves)).
      { intros Hd. destruct (leaf_case_ev ta tb alpha MA MB A B HA HB HM (empty_lrm K) (fun _ _ => 0)) as (L' & es & E & W & R & G & Ln & Ch & V).
        - left. reflexivity.
        - intros a b _ _. rewrite lr_entry_0 by reflexivity. rewrite (md_0 _ _ MD). lra.
        - exact Hd.
        - rewrite E. rewrite <- Bt, <- Bs in W. destruct (alh_ev L' (h_t h) (h_s h) W R (RNode h cs) N) as (H' & es2 & E1 & G2 & Ln2 & Ch2 & U); cbn [rt_val]; try (apply contains_iff; lia); rewrite ?Bt, ?Bs; try assumption.
          + apply hdest_node; rewrite ?Bt, ?Bs in *; assumption.
          + cbn [rt_val] in G2. exists H', (es ++ es2). split; [exact E1|]. rewrite Bt, Bs in *. split; [apply good_app; assumption|]. split; [rewrite app_length; lia|].
            assert (VV : forall x y, in_iv x (interval (out_of K ta A)) = true -> in_iv y (interval (mid_of K tb B)) = true ->
              lr_at K L' (out_of K ta A) (mid_of K tb B) x y = cadd K (product_at ta tb alpha MA MB A x y) (errs es x y)).
            { intros x y Hx Hy. apply in_ivb in Hx, Hy. unfold lr_at. rewrite V by lia. rewrite lr_entry_0 by reflexivity.
              replace (c_off (out_of K ta A) + (x - c_off (out_of K ta A)))%nat with x by lia. replace (c_off (mid_of K tb B) + (y - c_off (mid_of K tb B)))%nat with y by lia. ring. }
            split.
            * apply chron_app.
              -- revert Ch. apply (chron_mono es _ _ _ _ G). intros x y _ _. specialize (N0 x y). lra.
              -- revert Ch2. apply (chron_mono es2 _ _ _ _ G2). intros x y Hx Hy. rewrite VV by assumption. pose proof (md_add _ _ MD (product_at ta tb alpha MA MB A x y) (errs es x y)).
                 pose proof (md_product ta tb alpha MA MB A x y). pose proof (md_errs es x y). lra.
            * revert U. apply (hupd_ext_in K parts); cbn [rt_val]; rewrite ?Bt, ?Bs; try assumption.
              -- apply hdest_node; rewrite ?Bt, ?Bs in *; assumption.
              -- intros x y v Hx Hy. rewrite VV by assumption. rewrite errs_app. ring. }
      cbn [truncations].
      destruct (h_data (hv A)) eqn:EA; destruct (h_data (hv B)) eqn:EB;
        try (apply LEAF; first [left; discriminate|right; discriminate]).
      clear LEAF. assert (Lf' : is_leaf (out_of K ta A) && is_leaf (mid_of K tb B) = false) by (rewrite <- Bt, <- Bs; exact Lf).
      assert (HC : forall c, In c cs -> bounded md N c /\ (low_leaves c <= leaves)%nat).
      { intros c Hc. split; [eapply bounded_child; eassumption|]. pose proof (low_child h cs c Hc). lia. }
      unfold product_at at 1.
      set (o := out_of K ta A) in *. set (m := mid_of K ta A) in *. change (in_of K tb B) with (mid_of K tb B). set (i := mid_of K tb B) in *.
      rewrite NC. rewrite !(kids_eq parts) by (try assumption; congruence). rewrite pairs_of_prod.
      set (gpm := gp K ta tb MA MB).
      set (cnt := fun (o' i' m' : ctree) => match (if is_N ta then sub K A o' m' else sub K A m' o'), (if is_N tb then sub K B m' i' else sub K B i' m') with
              | Some Ac, Some Bc => truncations leaves fuel ta tb Ac Bc | _, _ => 0%nat end).
      set (pa := pabs_all ta tb alpha MA MB).
      assert (PA : forall ms a b, 0 <= pa ms a b) by (intros; apply rl_pos; intros; apply pabs_pos).
      (* the inner loop *)
      assert (INNER : forall o' i' cs, In o' (ckids o) -> In i' (ckids i) -> (forall c, In c cs -> hdest c) ->
        NoDup (map block_of cs) -> incl (map block_of cs) (list_prod (ckids o) (ckids i)) -> forall ms k c N1, nth_error cs k = Some c -> block_of c = (o', i') -> incl ms (ckids m) ->
        (low_leaves c <= leaves)%nat -> (forall x y, 0 <= N1 x y) -> bounded md N1 c ->
        exists c' es, fold_o (fun m' H =>
                    match (if is_N ta then child_or_this K A o' m' else child_or_this K A m' o'),
                          (if is_N tb then child_or_this K B m' i' else child_or_this K B i' m'),
                          child_path K H o' i' with
                    | Some Ac, Some Bc, Some p =>
                        do Hc <- node_at p H;
                        do Hc' <- hh_h K rc sv parts fuel ta tb alpha Ac Bc (c1 K) Hc;
                        replace_at p Hc' H
                    | _, _, _ => Some H
                    end) ms (RNode h cs) = Some (RNode h (replace_nth k c' cs)) /\
          good o' i' es /\ (length es <= list_sum (map (cnt o' i') ms))%nat /\ chron (fun x y => N1 x y + pa ms x y) es /\
          hupd (fun a b v => cadd K v (cadd K (cmul K alpha (gpm ms a b)) (errs es a b))) c c').
      { clear cs ND IN HD HN HC HLv. intros o' i' cs Ho' Hi' HD ND IN ms. revert cs HD ND IN. induction ms as [|m' ms IHm]; intros cs HD ND IN k c N1 Hk Hb Hms Hlv N1p HN1.
        - exists c, []. split; [cbn [fold_o]; rewrite replace_self by exact Hk; reflexivity|]. split; [constructor|]. split; [cbn; lia|]. split; [exact I|].
          assert (Hc : hdest c) by (apply HD; eapply nth_error_In, Hk).
          eapply hupd_ext; [|apply hupd_refl, Hc]. intros a b v. unfold gpm, gp, errors. cbn [lsum]. ring.
        - assert (Hm' : In m' (ckids m)) by (apply Hms; left; reflexivity).
          assert (Hc : hdest c) by (apply HD; eapply nth_error_In, Hk).
          destruct (op_child K parts ta MA A o' m' HA EA Ho' Hm') as (Ac & X1 & E1 & H1 & O1 & M1 & G1).
          destruct (op_child K parts tb MB B m' i' HB EB) as (Bc & X2 & E2 & H2 & O2 & M2 & _); [rewrite <- HM; exact Hm'|exact Hi'|].
          destruct (IH ta tb alpha MA MB Ac Bc c N1) as (c1 & es1 & E3 & G & Ln & Ch & U1).
          + lia. + exact H1. + exact H2. + congruence.
          + rewrite O1, M1. rewrite (above_kid parts o o'), (above_kid parts m m'); auto.
          + rewrite M1, M2. rewrite (above_kid parts i i'), (above_kid parts m m'); auto.
          + exact Hc.
          + rewrite O1, M2. exact Hb.
          + exact Hlv. + exact N1p. + exact HN1.
          + cbn [fold_o]. rewrite E1, E2. rewrite O1, M2 in G. rewrite M1 in Ch. unfold product_at in U1. rewrite M1 in U1.
            rewrite (child_found K parts h cs) with (k := k) (c := c); rewrite ?Bt, ?Bs; try assumption.
            cbn [node_at rt_children]. rewrite Hk, E3. cbn [replace_at rt_children rt_val]. rewrite Hk.
            pose proof (hupd_block _ _ _ _ U1) as B1. pose proof (replace_blocks K cs k c c1 Hk B1) as Bl.
            assert (Lk : (k < length cs)%nat) by (apply nth_error_Some; congruence).
            destruct (IHm (replace_nth k c1 cs)) with (k := k) (c := c1) (N1 := fun x y => N1 x y + (abs_product md ta tb alpha MA MB m' x y + aerrs es1 x y)) as (c' & es2 & E4 & G' & Ln' & Ch' & U2).
            * intros x Hx. apply In_nth_error in Hx. destruct Hx as [q Hq]. rewrite nth_replace in Hq by exact Lk.
              destruct (Nat.eqb_spec q k); [injection Hq as <-; eapply hupd_hdest; eassumption|]. apply HD. eapply nth_error_In, Hq.
            * rewrite Bl. exact ND.
            * rewrite Bl. exact IN.
            * rewrite nth_replace by exact Lk. rewrite Nat.eqb_refl. reflexivity.
            * congruence.
            * intros x Hx. apply Hms. right. exact Hx.
            * rewrite (low_upd _ _ _ U1). exact Hlv.
            * intros x y. pose proof (N1p x y). pose proof (pabs_pos ta tb alpha MA MB m' x y). pose proof (aerrs_pos es1 x y). lra.
            * apply (bounded_upd N1 (fun x y => abs_product md ta tb alpha MA MB m' x y + aerrs es1 x y) _ c c1 HN1) in U1; [exact U1|]. intros x y. eapply Rle_trans; [apply (md_add _ _ MD)|]. apply Rplus_le_compat; [|apply md_errs].
              pose proof (md_product ta tb alpha MA MB Ac x y) as Q. unfold product_at in Q. rewrite M1 in Q. exact Q.
            * exists c', (es1 ++ es2). split; [rewrite E4, replace_twice; reflexivity|]. split; [apply good_app; assumption|].
              split. { rewrite app_length. cbn [map]. change (list_sum (cnt o' i' m' :: map (cnt o' i') ms)) with (cnt o' i' m' + list_sum (map (cnt o' i') ms))%nat.
                assert (cnt o' i' m' = truncations leaves fuel ta tb Ac Bc) as -> by (unfold cnt; rewrite X1, X2; reflexivity). lia. }
              split.
              -- apply chron_app.
                 ++ revert Ch. apply (chron_mono es1 o' i'); [exact G|]. intros x y _ _. unfold pa, pabs_all. cbn [lsum]. pose proof (PA ms x y) as P. unfold pa, pabs_all in P. cbn in *. lra.
                 ++ revert Ch'. apply (chron_mono es2 o' i'); [exact G'|]. intros x y _ _. unfold pa, pabs_all. cbn [lsum]. cbn. lra.
              -- eapply hupd_ext; [|eapply hupd_trans; [exact U1|exact U2]]. intros a b v. cbn beta. rewrite errs_app. unfold gpm, gp. cbn [lsum]. ring. }
      assert (MISS : forall o' i' cs, In o' (ckids o) -> In i' (ckids i) -> incl (map block_of cs) (list_prod (ckids o) (ckids i)) ->
        ~ In (o', i') (map block_of cs) -> forall ms,
        fold_o (fun m' H =>
                    match (if is_N ta then child_or_this K A o' m' else child_or_this K A m' o'),
                          (if is_N tb then child_or_this K B m' i' else child_or_this K B i' m'),
                          child_path K H o' i' with
                    | Some Ac, Some Bc, Some p =>
                        do Hc <- node_at p H;
                        do Hc' <- hh_h K rc sv parts fuel ta tb alpha Ac Bc (c1 K) Hc;
                        replace_at p Hc' H
                    | _, _, _ => Some H
                    end) ms (RNode h cs) = Some (RNode h cs)).
      { clear cs ND IN HD HN HC HLv. intros o' i' cs Ho' Hi' IN Hn. induction ms as [|m' ms IHm]; [reflexivity|]. cbn [fold_o].
        rewrite (child_missing K parts h cs); rewrite ?Bt, ?Bs; try assumption.
        destruct (if is_N ta then _ else _); [|exact IHm]. destruct (if is_N tb then _ else _); exact IHm. }
      assert (OUTER : forall ps cs, NoDup ps -> incl ps (list_prod (ckids o) (ckids i)) -> (forall c, In c cs -> hdest c) ->
        NoDup (map block_of cs) -> incl (map block_of cs) (list_prod (ckids o) (ckids i)) ->
        (forall c, In c cs -> In (block_of c) ps -> bounded md N c /\ (low_leaves c <= leaves)%nat) ->
        exists cs' es, fold_o (fun oi H =>
           fold_o (fun m' H =>
                    match (if is_N ta then child_or_this K A (fst oi) m' else child_or_this K A m' (fst oi)),
                          (if is_N tb then child_or_this K B m' (snd oi) else child_or_this K B (snd oi) m'),
                          child_path K H (fst oi) (snd oi) with
                    | Some Ac, Some Bc, Some p =>
                        do Hc <- node_at p H;
                        do Hc' <- hh_h K rc sv parts fuel ta tb alpha Ac Bc (c1 K) Hc;
                        replace_at p Hc' H
                    | _, _, _ => Some H
                    end) (ckids m) H) ps (RNode h cs) = Some (RNode h cs') /\ length cs' = length cs /\
         among ps es /\ (length es <= list_sum (map (fun oi => S (list_sum (map (cnt (fst oi) (snd oi)) (ckids m)))) ps))%nat /\ chron (fun x y => N x y + pa (ckids m) x y) es /\
         forall k c c', nth_error cs k = Some c -> nth_error cs' k = Some c' ->
           (In (block_of c) ps -> hupd (fun a b v => cadd K v (cadd K (cmul K alpha (gpm (ckids m) a b)) (errs es a b))) c c') /\ (~ In (block_of c) ps -> c' = c)).
      { clear cs ND IN HD HN HC HLv. induction ps as [|[o' i'] ps IHp]; intros cs NP IP HD ND IN HC.
        - exists cs, []. split; [reflexivity|]. split; [reflexivity|]. split; [constructor|]. split; [cbn; lia|]. split; [exact I|].
          intros k c c' H1 H2. split; [intros []|intros _; congruence].
        - inversion NP as [|? ? Np NP']; subst.
          assert (Hp : In (o', i') (list_prod (ckids o) (ckids i))) by (apply IP; left; reflexivity). pose proof Hp as Hp0. apply in_prod_iff in Hp. destruct Hp as [Ho' Hi'].
          assert (IP' : incl ps (list_prod (ckids o) (ckids i))) by (intros x Hx; apply IP; right; exact Hx).
          cbn [fold_o fst snd].
          assert (DEC : In (o', i') (map block_of cs) \/ ~ In (o', i') (map block_of cs)).
          { clear - IN Ho' Hi' Co Ci. induction cs as [|c cs IHc]; [right; intros []|]. destruct IHc as [Q|Q]; [intros x Hx; apply IN; right; exact Hx|left; right; exact Q|].
            assert (P : In (block_of c) (list_prod (ckids o) (ckids i))) by (apply IN; left; reflexivity).
            destruct (block_of c) as [bt bs] eqn:Eb. pose proof (kid_test parts o i o' i' bt bs Co Ci ltac:(apply in_prod; assumption) P) as T.
            destruct (ceq bt o' && ceq bs i').
            - left. left. rewrite Eb. apply T. reflexivity.
            - right. intros [Q1|Q1]; [rewrite Eb in Q1; apply T in Q1; discriminate|exact (Q Q1)]. }
          assert (LS : list_sum (map (fun oi => S (list_sum (map (cnt (fst oi) (snd oi)) (ckids m)))) ((o', i') :: ps)) =
             (S (list_sum (map (cnt o' i') (ckids m))) + list_sum (map (fun oi => S (list_sum (map (cnt (fst oi) (snd oi)) (ckids m)))) ps))%nat) by reflexivity.
          destruct DEC as [Q|Q].
          + apply in_map_iff in Q. destruct Q as (c & Hb & Hc). destruct (HC c Hc ltac:(left; congruence)) as [HNc HLc]. apply In_nth_error in Hc. destruct Hc as [k Hk].
            destruct (INNER o' i' cs Ho' Hi' HD ND IN (ckids m) k c N Hk Hb (incl_refl _) HLc N0 HNc) as (c1 & es1 & E1 & G1 & Ln1 & Ch1 & U1). rewrite E1.
            pose proof (hupd_block _ _ _ _ U1) as B1. pose proof (replace_blocks K cs k c c1 Hk B1) as Bl.
            assert (Lk : (k < length cs)%nat) by (apply nth_error_Some; congruence).
            destruct (IHp (replace_nth k c1 cs) NP' IP') as (cs' & es2 & E2 & L2 & G2 & Ln2 & Ch2 & V2).
            * intros x Hx. apply In_nth_error in Hx. destruct Hx as [q Hq]. rewrite nth_replace in Hq by exact Lk.
              destruct (Nat.eqb_spec q k); [injection Hq as <-; eapply hupd_hdest; [|exact U1]; apply HD; eapply nth_error_In, Hk|]. apply HD. eapply nth_error_In, Hq.
            * rewrite Bl. exact ND.
            * rewrite Bl. exact IN.
            * intros x Hx Hbx. apply In_nth_error in Hx. destruct Hx as [q Hq]. rewrite nth_replace in Hq by exact Lk.
              destruct (Nat.eqb_spec q k); [injection Hq as <-; rewrite B1, Hb in Hbx; contradiction|]. apply HC; [eapply nth_error_In, Hq|right; exact Hbx].
            * assert (G1' : among [(o', i')] es1) by (apply among_one; exact G1).
              exists cs', (es1 ++ es2). split; [exact E2|]. split; [rewrite L2; apply length_replace|].
              split; [exact (among_app [(o', i')] ps es1 es2 G1' G2)|]. split; [rewrite app_length, LS; lia|].
              split. { apply chron_app; [exact Ch1|]. pose proof (among_good _ _ _ _ Co Ci IP' G2) as Gd. revert Ch2. apply (chron_mono es2 _ _ _ _ Gd). intros x y _ _. pose proof (aerrs_pos es1 x y). lra. }
              intros q x x' Hq Hq'. specialize (V2 q). rewrite nth_replace in V2 by exact Lk. destruct (Nat.eqb_spec q k) as [Eq|Hne].
              -- rewrite Eq in *. destruct (V2 c1 x' eq_refl Hq') as [_ V3]. assert (x = c) by congruence. subst x. rewrite B1, Hb in V3. specialize (V3 Np). subst x'. split.
                 ++ intros _. revert U1. apply (hupd_ext_in K parts).
                    ** apply HD. eapply nth_error_In, Hk.
                    ** injection Hb as -> _. exact (ckids_ct parts _ _ Co Ho').
                    ** injection Hb as _ ->. exact (ckids_ct parts _ _ Ci Hi').
                    ** intros a b v Ha Hb'. rewrite errs_app. assert (errs es2 a b = c0 K) as ->; [|ring].
                       injection Hb as X1 X2. rewrite X1 in Ha. rewrite X2 in Hb'.
                       apply (among_zero o i ps es2 (o', i')); assumption.
                 ++ intros Hn. exfalso. apply Hn. left. congruence.
              -- destruct (V2 x x' Hq Hq') as [V3 V4]. split.
                 ++ intros [E|E]; [exfalso; apply Hne; apply (unique_index K cs q k x c ND Hq Hk); congruence|].
                    assert (Px : In (block_of x) (list_prod (ckids o) (ckids i))) by (apply IP', E). pose proof Px as P'. unfold block_of in P'. apply in_prod_iff in P'. destruct P' as [P3 P4].
                    generalize (V3 E). apply (hupd_ext_in K parts).
                    ** apply HD. eapply nth_error_In, Hq.
                    ** exact (ckids_ct parts _ _ Co P3).
                    ** exact (ckids_ct parts _ _ Ci P4).
                    ** intros a b v Ha Hb'. rewrite errs_app. assert (errs es1 a b = c0 K) as ->; [|ring].
                       apply (among_zero o i [(o', i')] es1 (block_of x)); try assumption.
                       { intros z [<-|[]]. exact Hp0. }
                       { intros [Q|[]]. apply Np. rewrite Q. exact E. }
                 ++ intros Hn. apply V4. intros Q. apply Hn. right. exact Q.
          + rewrite (MISS o' i' cs Ho' Hi' IN Q). destruct (IHp cs NP' IP' HD ND IN) as (cs' & es2 & E2 & L2 & G2 & Ln2 & Ch2 & V2); [intros x Hx Hbx; apply HC; [exact Hx|right; exact Hbx]|].
            exists cs', es2. split; [exact E2|]. split; [exact L2|]. split; [exact (among_app [(o', i')] ps [] es2 (Forall_nil _) G2)|]. split; [rewrite LS; lia|]. split; [exact Ch2|].
            intros q x x' Hq Hq'. destruct (V2 q x x' Hq Hq') as [V3 V4]. split.
            * intros [E|E]; [|exact (V3 E)]. exfalso. apply Q. rewrite E. apply in_map. eapply nth_error_In, Hq.
            * intros Hn. apply V4. intros R. apply Hn. right. exact R. }
      rewrite Bt, Bs in IN.
      destruct (OUTER (list_prod (ckids o) (ckids i)) cs) as (cs' & es & E & L & G & Ln & Ch & V); try assumption.
      + apply prod_nodup with parts; assumption.
      + apply incl_refl.
      + intros c Hc _. apply HC, Hc.
      + exists (RNode h cs'), es. split; [exact E|]. split; [exact (among_good _ _ _ _ Co Ci (incl_refl _) G)|]. split; [exact Ln|].
        split. { revert Ch. apply (chron_mono es o i _ _ (among_good _ _ _ _ Co Ci (incl_refl _) G)). intros x y _ _. rewrite (pabs_kids ta tb alpha MA MB m x y Cm). unfold pa. lra. }
        apply hupd_node; [exact D|].
        assert (Q : forall g (l l' : list hmat), length l' = length l -> (forall k c c', nth_error l k = Some c -> nth_error l' k = Some c' -> hupd g c c') -> Forall2 (hupd g) l l').
        { clear. intros g. induction l as [|c l IHl]; intros [|c' l'] HL HQ; cbn [length] in HL; try discriminate; constructor.
          - apply (HQ 0%nat); reflexivity.
          - apply IHl; [lia|]. intros k. apply (HQ (S k)). }
        apply Q; [exact L|]. intros k c c' Hk Hk'. destruct (V k c c' Hk Hk') as [V1 _].
        eapply hupd_ext; [|apply V1; apply IN; apply in_map; eapply nth_error_In, Hk].
        intros a b v. cbn beta. unfold gpm, gp. rewrite (csum_kids K parts m _ Cm). reflexivity.
  Qed.
End P.
