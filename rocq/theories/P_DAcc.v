(** * Property C69: the accuracy of a distributed operator.

    Vocabulary: DAccSpec.v ([dist_inputs]: how the operator is built from a generator [G] in user numbering), AccSpec.v ([accurate], [fnorm], [vnorm],
    [allowed eps tol M N f] = eps * |f| + tol * sqrt(M N)), DistSpec.v ([mul], [tmul], [holds_vec], [holds_cols]), DistLink.v ([hmat_operator]: the
    operator, [op_matrix]: the matrix it holds, in user numbering).  Exact arithmetic. *)

From Coq Require Import List Arith ZArith Bool Lia Ring Reals Lra Permutation.
From Verif Require Import ClusterModel ClusterSpec IOModel BlockModel BlockSpec P_Block Algebra BlasModel HMatModel HMatSpec HMatBuild P_HMat
  RealNum CompModel CompReal CompSpec P_Comp AccSpec AccProofs P_Acc DistModel DistSpec DistProofs DistVec DistMat DistLink P_Dist DAccSpec DAccProofs.
Import ListNotations.
Local Open Scope R_scope.

Section Main.
  Variable K : Coef.
  Variable md : car K -> R.
  Hypothesis MD : modulus K md.
  Notation C := (car K).
  Add Ring KrDA : (c_ring K).

  Variables (sy : symc) (B : bbuild) (G : nat -> nat -> C) (compress : ctree -> ctree -> lrm K) (T S : ctree) (fuel : nat).
  Variables (tp sp : partition) (ps : list (process K)) (eps tol : R).
  Hypothesis HI : dist_inputs sy B G compress T S fuel tp sp ps.
  Hypothesis Hco : compress_ok K compress.
  Hypothesis HPt : partition_ok tp (length ps).
  Hypothesis HPs : partition_ok sp (length ps).
  Hypothesis He : 0 <= eps.
  Hypothesis Ht : 0 <= tol.
  Hypothesis Hac : accurate md eps tol (cluster_order tp sp G) compress.
  Notation NR := (pa_n tp).
  Notation NC := (pa_n sp).
  Notation A := (op_matrix K tp sp sy ps).
  Notation D := (hmat_operator K tp sp sy true ps).

  Lemma inputs_ok : Forall2 (proc_ok K sp sy) (pa_parts tp) ps.
  Proof.
    destruct HI as [Esy H1 H2 H3 H4 H5 H6 H7 H8 H9 HB|Esy HG ES Esp H1 H2 H3 H4 H5 H6 H7 H8 H9 HB].
    - rewrite Esy in *. exact (proj1 (C35_from_generator K B G compress T S fuel tp sp ps (length ps) H1 H2 H3 H4 H5 H6 H7 H8 H9 Hco HPt HPs HB)).
    - assert (Esy' : sy = SyS \/ sy = SyH) by (destruct Esy as [E|[E _]]; auto). rewrite Esp. exact (proj1 (C35_from_symmetric_generator K sy B G compress T fuel tp ps Esy' HG H1 H2 H3 H4 H5 H6 H7 H8 H9 Hco HPt HB)).
  Qed.
  Lemma inputs_compat : compat K TrN sy.
  Proof. destruct HI as [E|[E|[E Q]]]; rewrite E; cbn; [exact I|left; discriminate|split; [discriminate|exact Q]]. Qed.

  (** One process. *)
  Lemma part_error : forall r os p, nth_error (pa_parts tp) r = Some os -> nth_error ps r = Some p ->
    fnorm md (snd os) NC (fun i j => csub K (proc_value K sy p (fst os + i)%nat j) (cluster_order tp sp G (fst os + i)%nat j)) <=
      allowed md eps tol (snd os) NC (fun i j => cluster_order tp sp G (fst os + i)%nat j).
  Proof.
    intros r os p E1 E2.
    assert (PO : proc_ok K sp sy os p).
    { pose proof inputs_ok as F. clear - F E1 E2. revert r E1 E2. induction F as [|x q l1 l2 Hx F IH]; intros r E1 E2; [destruct r; discriminate|].
      destruct r as [|r]; [injection E1 as <-; injection E2 as <-; exact Hx|]. exact (IH r E1 E2). }
    destruct PO as (L & Y & HL & _ & _ & _ & I1 & I2).
    assert (BI : exists Bd, build_inputs sy Bd (cluster_order tp sp G) T S /\ hbuild K sy Bd (cluster_order tp sp G) compress fuel T S = Some (pr_hmat K p)).
    { destruct HI as [Esy H1 H2 H3 H4 H5 H6 H7 H8 H9 HB|Esy HG ES Esp H1 H2 H3 H4 H5 H6 H7 H8 H9 HB].
      - exists (set_part B r). destruct (HB r p E2) as [Hb _]. split; [|exact Hb]. rewrite H8, nth_error_map in E1.
        destruct (nth_error (bb_tparts B) r) as [u|] eqn:Eu; [|discriminate]. apply in_unsymmetric; try assumption.
        unfold part_valid. cbn. rewrite Eu. right. split; [exact H6|]. exact (proj1 (H7 u (nth_error_In _ _ Eu))).
      - assert (Esy' : sy = SyS \/ sy = SyH) by (destruct Esy as [E|[E _]]; auto). exists (set_part_sym B r). destruct (HB r p E2) as [Hb _]. rewrite ES, Esp. split; [|exact Hb]. rewrite H8, nth_error_map in E1.
        destruct (nth_error (bb_tparts B) r) as [u|] eqn:Eu; [|discriminate].
        apply (in_symmetric sy (set_part_sym B r) _ T T u); try assumption; try reflexivity.
        + intros i j. apply HG.
        + right. exists r. cbn. split; [reflexivity|]. split; [reflexivity|]. split; [exact Eu|]. right. split; [exact H6|]. exact (H7 u (nth_error_In _ _ Eu)). }
    destruct BI as (Bd & BI & Hb).
    destruct (built_accurate K md MD sy Bd _ compress T S fuel (pr_hmat K p) eps tol He Ht BI Hco Hac Hb) as (L' & Y' & HL' & _ & _ & _ & Q).
    assert (EE : L' = L /\ Y' = Y) by (split; congruence). destruct EE as [-> ->].
    destruct (iv_parts _ _ I1) as [O1 S1]. destruct (iv_parts _ _ I2) as [O2 S2]. cbn [fst snd] in O2, S2. unfold block_at in Q. rewrite O1, S1, O2, S2 in Q. cbn [Nat.add] in Q.
    unfold proc_value. rewrite HL. exact Q.
  Qed.

  (** The matrix of the operator, in user numbering. *)
  Theorem C69_operator_matrix :
    fnorm md NR NC (fun a b => csub K (A a b) (G a b)) <= eps * fnorm md NR NC G + tol * sqrt (INR (NR * NC)).
  Proof.
    pose proof (po_perm _ _ HPt) as P1. pose proof (po_perm _ _ HPs) as P2.
    assert (L1 : length (pa_perm tp) = NR) by (rewrite (Permutation_length P1); apply seq_length).
    assert (L2 : length (pa_perm sp) = NC) by (rewrite (Permutation_length P2); apply seq_length).
    assert (N1 : NoDup (pa_perm tp)) by (eapply Permutation_NoDup; [exact (Permutation_sym P1)|apply seq_NoDup]).
    assert (N2 : NoDup (pa_perm sp)) by (eapply Permutation_NoDup; [exact (Permutation_sym P2)|apply seq_NoDup]).
    rewrite <- (fnorm_perm K md NR NC (pa_perm tp) (pa_perm sp) _ P1 P2). rewrite <- (fnorm_perm K md NR NC (pa_perm tp) (pa_perm sp) G P1 P2).
    rewrite (fnorm_ext K md NR NC _ (fun i j => csub K (op_value K tp sy ps i j) (cluster_order tp sp G i j))).
    2:{ intros i j Hi Hj. unfold op_matrix. rewrite (index_of_nth (pa_perm tp) i N1) by lia. rewrite (index_of_nth (pa_perm sp) j N2) by lia. reflexivity. }
    pose proof (rows_bound K md MD NC (fun i j => csub K (op_value K tp sy ps i j) (cluster_order tp sp G i j)) (cluster_order tp sp G) eps tol
      (pa_parts tp) 0%nat NR He Ht (po_tiles _ _ HPt)) as Q.
    destruct Q as [_ Q].
    - intros os Ho. destruct (In_nth_error _ _ Ho) as [r Er].
      assert (Br : (r < length ps)%nat) by (rewrite <- (po_count _ _ HPt); apply nth_error_Some; congruence).
      destruct (nth_error ps r) as [p|] eqn:Ep; [|apply nth_error_None in Ep; lia].
      rewrite (fnorm_ext K md (snd os) NC _ (fun i j => csub K (proc_value K sy p (fst os + i)%nat j) (cluster_order tp sp G (fst os + i)%nat j))).
      + exact (part_error r os p Er Ep).
      + intros i j Hi Hj. unfold op_value. rewrite (find_part K _ _ _ _ r os p _ (po_tiles _ _ HPt) Er Ep); [reflexivity|]. unfold in_iv.
        apply andb_true_iff. split; [apply Nat.leb_le|apply Nat.ltb_lt]; lia.
    - rewrite Nat.sub_0_r in Q. cbn [Nat.add] in Q. exact Q.
  Qed.

  Lemma apply_bound : forall M N (E F : nat -> nat -> C) x (y : nat -> C), (forall a, (a < M)%nat -> y a = sum N (fun b => cmul K (E a b) (x b))) ->
    vnorm md M (fun a => csub K (y a) (sum N (fun b => cmul K (F a b) (x b)))) <= fnorm md M N (fun a b => csub K (E a b) (F a b)) * vnorm md N x.
  Proof.
    intros M N E F x y Hy. eapply Rle_trans; [|apply (product_bound K md MD)]. right. unfold vnorm. f_equal. apply rsum_ext. intros a Ha.
    rewrite (Hy a Ha), <- sum_sub. f_equal; f_equal; apply sum_ext; intros b _; ring.
  Qed.
  Lemma vnorm_pos : forall n x, 0 <= vnorm md n x.
  Proof. intros. apply sqrt_pos. Qed.

  (** The products of a global vector, of several vectors, and by the transpose. *)
  Theorem C69_vector_product : forall ins outs x,
    (forall r, (r < length ps)%nat -> holds_vec (at_rank K ins r) NC x) -> (forall r, (r < length ps)%nat -> (NR <= length (at_rank K outs r))%nat) ->
    exists ys, vec_g2g K D ins outs = Some ys /\ length ys = length ps /\ forall r, (r < length ps)%nat ->
      only_first NR (at_rank K outs r) (at_rank K ys r) /\
      vnorm md NR (fun a => csub K (get (at_rank K ys r) a) (mul NC G x a)) <= (eps * fnorm md NR NC G + tol * sqrt (INR (NR * NC))) * vnorm md NC x.
  Proof.
    intros ins outs x Hi Ho. destruct (C35_hmatrix_operator K tp sp sy ps (length ps) inputs_compat HPt HPs inputs_ok) as (W & R1 & _ & _).
    pose proof (C35_vector_product_global K D A) as Q. cbv zeta in Q. rewrite W in Q. cbn [d_t d_s hmat_operator] in Q.
    destruct (Q HPt HPs R1 ins outs x Hi Ho) as (ys & E1 & E2 & E3). exists ys. split; [exact E1|]. split; [exact E2|].
    intros r Hr. destruct (E3 r Hr) as [[_ V] F]. split; [exact F|]. eapply Rle_trans; [apply (apply_bound NR NC A G x); exact V|].
    apply Rmult_le_compat_r; [apply vnorm_pos|exact C69_operator_matrix].
  Qed.
  Theorem C69_matrix_product : forall mu ins outs X, (1 <= mu)%nat ->
    (forall r, (r < length ps)%nat -> holds_cols (at_rank K ins r) NC mu X) -> (forall r, (r < length ps)%nat -> (NR * mu <= length (at_rank K outs r))%nat) ->
    exists ys, mat_g2g K D ins outs mu = Some ys /\ length ys = length ps /\ forall r, (r < length ps)%nat ->
      only_first (NR * mu) (at_rank K outs r) (at_rank K ys r) /\ forall c, (c < mu)%nat ->
      vnorm md NR (fun a => csub K (get (at_rank K ys r) (a + c * NR)) (mul NC G (fun b => X b c) a)) <=
        (eps * fnorm md NR NC G + tol * sqrt (INR (NR * NC))) * vnorm md NC (fun b => X b c).
  Proof.
    intros mu ins outs X Hmu Hi Ho. destruct (C35_hmatrix_operator K tp sp sy ps (length ps) inputs_compat HPt HPs inputs_ok) as (W & _ & R1 & _).
    pose proof (C36_matrix_product_global K D A mu) as Q. cbv zeta in Q. rewrite W in Q. cbn [d_t d_s hmat_operator] in Q.
    destruct (Q HPt HPs (R1 mu Hmu) ins outs X Hi Ho) as (ys & E1 & E2 & E3). exists ys. split; [exact E1|]. split; [exact E2|].
    intros r Hr. destruct (E3 r Hr) as [[_ V] F]. split; [exact F|]. intros c Hc.
    eapply Rle_trans; [apply (apply_bound NR NC A G (fun b => X b c)); intros a Ha; exact (V a c Ha Hc)|].
    apply Rmult_le_compat_r; [apply vnorm_pos|exact C69_operator_matrix].
  Qed.
  Theorem C69_transposed_vector_product : forall ins outs x,
    (forall r, (r < length ps)%nat -> holds_vec (at_rank K ins r) NR x) -> (forall r, (r < length ps)%nat -> (NC <= length (at_rank K outs r))%nat) ->
    exists ys, tvec_g2g K D ins outs = Some ys /\ length ys = length ps /\ forall r, (r < length ps)%nat ->
      only_first NC (at_rank K outs r) (at_rank K ys r) /\
      vnorm md NC (fun b => csub K (get (at_rank K ys r) b) (tmul NR G x b)) <= (eps * fnorm md NR NC G + tol * sqrt (INR (NR * NC))) * vnorm md NR x.
  Proof.
    intros ins outs x Hi Ho. destruct (C35_hmatrix_operator K tp sp sy ps (length ps) inputs_compat HPt HPs inputs_ok) as (W & R1 & _ & R2).
    pose proof C69_operator_matrix as OM. destruct HI as [Esy H1 H2 H3 H4 H5 H6 H7 H8 H9 HB|Esy HG ES Esp H1 H2 H3 H4 H5 H6 H7 H8 H9 HB].
    - destruct (R2 Esy) as [R3 _]. pose proof (C37_transposed_vector_product_global K D A) as Q. cbv zeta in Q. rewrite W in Q. cbn [d_t d_s d_sym hmat_operator] in Q.
      unfold sym_matrix in Q. cbn [d_sym hmat_operator] in Q. rewrite Esy in *.
      destruct (Q HPt HPs I R3 ins outs x Hi Ho) as (ys & E1 & E2 & E3). exists ys. split; [exact E1|]. split; [exact E2|].
      intros r Hr. destruct (E3 r Hr) as [[_ V] F]. split; [exact F|].
      eapply Rle_trans; [apply (apply_bound NC NR (fun b a => op_matrix K tp sp SyN ps a b) (fun b a => G a b) x); exact V|].
      apply Rmult_le_compat_r; [apply vnorm_pos|]. rewrite fnorm_swap. exact OM.
    - pose proof (C35_vector_product_global K D A) as Q. cbv zeta in Q. rewrite W in Q. cbn [d_t d_s hmat_operator] in Q.
      assert (EN : NR = NC) by (rewrite Esp; reflexivity). specialize (Q HPt HPs R1).
      unfold tvec_g2g. cbn [d_sym hmat_operator]. destruct Esy as [Esy|[Esy _]].
      + destruct (Q ins outs x) as (ys & E1 & E2 & E3); [intros r Hr; rewrite <- EN; exact (Hi r Hr)|intros r Hr; rewrite EN; exact (Ho r Hr)|].
        rewrite Esy in *. exists ys. split; [exact E1|]. split; [exact E2|]. intros r Hr. destruct (E3 r Hr) as [[_ V] F]. rewrite EN in F. split; [exact F|].
        eapply Rle_trans; [|eapply Rle_trans; [apply (apply_bound NR NC (op_matrix K tp sp SyS ps) G x); exact V|]].
        * right. rewrite EN. unfold vnorm. f_equal. apply rsum_ext. intros b Hb.
          assert (EG : tmul NC G x b = sum NC (fun a => cmul K (G b a) (x a))) by (apply sum_ext; intros a _; rewrite (HG b a); reflexivity). rewrite EG. reflexivity.
        * rewrite <- EN at 2. apply Rmult_le_compat_r; [apply vnorm_pos|exact OM].
      + rewrite Esy in *. set (Dh := hmat_operator K tp sp SyH true ps) in *.
        assert (W' : world K Dh = length ps) by exact W. rewrite W'.
        destruct (on_ranks_ok (list C) [] (length ps) (fun r => conj_copy K (nr K Dh) (at_rank K ins r)) (fun r b => holds_vec b NR (fun a => cconj K (x a)))) as (ic & -> & Lc & Hc).
        { intros r Hr. destruct (Hi r Hr) as [L V]. destruct (conj_copy_ok K (nr K Dh) (at_rank K ins r) L) as (y & E1 & E2 & E3).
          exists y. split; [exact E1|]. unfold nr in *. cbn [d_t hmat_operator Dh] in *. split; [lia|]. intros i Hi'. rewrite E3, V by exact Hi'. reflexivity. }
        destruct (Q ic outs (fun a => cconj K (x a))) as (ys & -> & E2 & E3); [intros r Hr; rewrite <- EN; exact (Hc r Hr)|intros r Hr; rewrite EN; exact (Ho r Hr)|].
        destruct (on_ranks_ok (list C) [] (length ps) (fun r => conj_buf K (nc K Dh) (at_rank K ys r))
          (fun r b => only_first NC (at_rank K outs r) b /\ forall a, (a < NC)%nat -> get b a = cconj K (get (at_rank K ys r) a))) as (zs & -> & Lz & Hz).
        { intros r Hr. destruct (E3 r Hr) as [[L V] F]. rewrite EN in L, F. destruct (conj_buf_ok K (nc K Dh) (at_rank K ys r) L) as (y & G1 & G2 & G3).
          exists y. split; [exact G1|]. split; [exact (only_first_trans K _ _ _ _ F G2)|exact G3]. }
        exists zs. split; [reflexivity|]. split; [exact Lz|]. intros r Hr. destruct (Hz r Hr) as [F1 F2]. split; [exact F1|].
        destruct (E3 r Hr) as [[_ V] _].
        eapply Rle_trans; [|eapply Rle_trans; [apply (apply_bound NR NC (op_matrix K tp sp SyH ps) G (fun a => cconj K (x a))); exact V|]].
        * right. rewrite EN. unfold vnorm. f_equal. apply rsum_ext. intros b Hb.
          assert (EG : tmul NC G x b = cconj K (sum NC (fun a => cmul K (G b a) (cconj K (x a))))).
          { rewrite conj_sum. apply sum_ext. intros a _. rewrite (cconj_mul K), (cconj_invol K), (HG b a). reflexivity. }
          change (at_rank K zs r) with (nth r zs []); rewrite EG, (F2 b Hb), <- (conj_sub K), !(md_conj _ _ MD). reflexivity.
        * assert (EV : vnorm md NC (fun a => cconj K (x a)) = vnorm md NR x).
          { rewrite EN. unfold vnorm. f_equal. apply rsum_ext. intros a _. rewrite (md_conj _ _ MD). reflexivity. }
          rewrite EV. apply Rmult_le_compat_r; [apply vnorm_pos|exact OM].
  Qed.
End Main.
Print Assumptions C69_operator_matrix.
Print Assumptions C69_vector_product.
Print Assumptions C69_matrix_product.
Print Assumptions C69_transposed_vector_product.

(** ** Examples: five processes, 23 points, ACA with full pivoting, without and with symmetry. *)
Lemma gather : forall (A : Type) (P : nat -> A -> Prop) n, (forall r, (r < n)%nat -> exists a, P r a) ->
  exists l, length l = n /\ forall r a, nth_error l r = Some a -> P r a.
Proof.
  intros A P n. induction n as [|n IH]; intros H; [exists []; split; [reflexivity|intros [|r] a E; discriminate]|].
  destruct IH as (l & L & Q); [intros r Hr; apply H; lia|]. destruct (H n ltac:(lia)) as [a Ha]. exists (l ++ [a]). split; [rewrite app_length; cbn; lia|].
  intros r b E. destruct (Nat.lt_ge_cases r n) as [Hr|Hr]; [rewrite nth_error_app1 in E by lia; exact (Q r b E)|].
  rewrite nth_error_app2 in E by lia. destruct (r - length l)%nat as [|k] eqn:Ek; [|destruct k; discriminate]. cbn in E. injection E as <-. replace r with n by lia. exact Ha.
Qed.
Lemma processes_exist : forall sy (Br : nat -> bbuild) (gen : nat -> nat -> R) compress fuel T S n eps tol, 0 <= eps -> 0 <= tol ->
  compress_ok Rc compress -> accurate (K := Rc) Rabs eps tol gen compress ->
  (forall r, (r < n)%nat -> build_inputs (K := Rc) sy (Br r) gen T S) ->
  forallb (fun r => match build_root (Br r) fuel T S with Some _ => true | None => false end) (seq 0 n) = true ->
  exists ps, length ps = n /\ all_built (K := Rc) sy Br gen compress fuel T S ps.
Proof.
  intros sy Br gen compress fuel T S n eps tol He Ht Hco Hac HI HB. apply (gather (process Rc)). intros r Hr.
  rewrite forallb_forall in HB. specialize (HB r ltac:(apply in_seq; lia)).
  assert (E : exists A, hbuild Rc sy (Br r) gen compress fuel T S = Some A).
  { unfold hbuild. destruct (build_root (Br r) fuel T S) as [b|]; [|discriminate]. eexists. reflexivity. }
  destruct E as [A E]. destruct (built_accurate Rc Rabs C67_modulus_real sy (Br r) gen compress T S fuel A eps tol He Ht (HI r Hr) Hco Hac E) as (L & Y & HL & _).
  exists (mkProcess Rc A [(L, Y)]). cbn [pr_hmat pr_threads]. split; [exact E|]. exists L, Y. split; [exact HL|]. cbn [map concat fst snd]. rewrite !app_nil_r. split; reflexivity.
Qed.
Definition user_gen (a b : nat) : R := / (1 + INR (a + b)).
Definition user_compress := full_compress Rn (overR (1 / 1000)) (1 / 10 ^ 15) (cluster_order (K := Rc) ex_part ex_part user_gen).
Lemma user_accurate : compress_ok Rc user_compress /\ accurate (K := Rc) Rabs (1 / 1000) (1 / 10 ^ 15) (cluster_order (K := Rc) ex_part ex_part user_gen) user_compress.
Proof. apply C67_full_aca_real. apply Rdiv_lt_0_compat; [lra|]. apply pow_lt. lra. Qed.

Lemma dist_unsymmetric : forall B T part n fuel gen compress eps tol, 0 <= eps -> 0 <= tol ->
  compress_ok Rc compress -> accurate (K := Rc) Rabs eps tol (cluster_order (K := Rc) part part gen) compress ->
  bb_uplo B = UpN -> partitioned T (bb_tparts B) -> bb_sparts B = bb_tparts B -> nonempty T -> (c_rank T < 0)%Z ->
  forallb (fun u => contains T u && (1 <=? c_size u)%nat) (bb_tparts B) = true -> interval T = (0%nat, pa_n part) -> pa_parts part = map interval (bb_tparts B) -> length (bb_tparts B) = n ->
  forallb (fun r => match build_root (set_part B r) fuel T T with Some _ => true | None => false end) (seq 0 n) = true ->
  exists ps, length ps = n /\ dist_inputs (K := Rc) SyN B gen compress T T fuel part part ps.
Proof.
  intros B T part n fuel gen compress eps tol He Ht Hco Hac HU HP ES HN Hr Q4 Q5 Q6 Q7 HB.
  destruct (processes_exist SyN (set_part B) (cluster_order (K := Rc) part part gen) compress fuel T T n eps tol He Ht Hco Hac) as (ps & L & AB).
  - intros r Hlt. apply in_unsymmetric; try assumption; try reflexivity; [cbn; rewrite ES; exact HP|]. unfold part_valid. cbn.
    destruct (nth_error (bb_tparts B) r) as [u|] eqn:Eu; [|apply nth_error_None in Eu; lia]. right. split; [exact Hr|].
    rewrite forallb_forall in Q4. specialize (Q4 u (nth_error_In _ _ Eu)). apply andb_true_iff in Q4. apply Q4.
  - exact HB.
  - exists ps. split; [exact L|]. apply di_unsymmetric; try assumption; try reflexivity.
    + rewrite ES. exact HP.
    + intros u Hu. rewrite forallb_forall in Q4. specialize (Q4 u Hu). apply andb_true_iff in Q4. destruct Q4 as [A1 A2]. apply Nat.leb_le in A2. split; [exact A1|lia].
Qed.
Lemma dist_symmetric : forall B T part n fuel gen compress eps tol, 0 <= eps -> 0 <= tol ->
  compress_ok Rc compress -> accurate (K := Rc) Rabs eps tol (cluster_order (K := Rc) part part gen) compress -> (forall a b, gen b a = gen a b) ->
  bb_uplo B = UpL -> bb_cons B = true -> partitioned T (bb_tparts B) -> bb_sparts B = bb_tparts B -> nonempty T -> (c_rank T < 0)%Z ->
  forallb (fun u => contains T u && (1 <=? c_size u)%nat) (bb_tparts B) = true -> interval T = (0%nat, pa_n part) -> pa_parts part = map interval (bb_tparts B) -> length (bb_tparts B) = n ->
  forallb (fun r => match build_root (set_part_sym B r) fuel T T with Some _ => true | None => false end) (seq 0 n) = true ->
  exists ps, length ps = n /\ dist_inputs (K := Rc) SyS B gen compress T T fuel part part ps.
Proof.
  intros B T part n fuel gen compress eps tol He Ht Hco Hac HG HU HC HP ES HN Hr Q4 Q5 Q6 Q7 HB.
  assert (CT : forall u, In u (bb_tparts B) -> contains T u = true).
  { intros u Hu. rewrite forallb_forall in Q4. specialize (Q4 u Hu). apply andb_true_iff in Q4. apply Q4. }
  assert (HU' : bb_uplo B <> UpN) by (rewrite HU; discriminate).
  destruct (processes_exist SyS (set_part_sym B) (cluster_order (K := Rc) part part gen) compress fuel T T n eps tol He Ht Hco Hac) as (ps & L & AB).
  - intros r Hlt. destruct (nth_error (bb_tparts B) r) as [u|] eqn:Eu; [|apply nth_error_None in Eu; lia].
    apply (in_symmetric (K := Rc) SyS (set_part_sym B r) _ T T u); try assumption; try reflexivity; [left; reflexivity|intros i j; apply HG|].
    right. exists r. cbn. split; [reflexivity|]. split; [reflexivity|]. split; [exact Eu|]. right. split; [exact Hr|]. exact (CT u (nth_error_In _ _ Eu)).
  - exact HB.
  - exists ps. split; [exact L|]. apply di_symmetric; try assumption; try reflexivity. left; reflexivity.
Qed.
Definition exN := P_Block.exB None None UpN true.
Definition exL := P_Block.exB None None UpL true.
Lemma exN_facts : bb_uplo exN = UpN /\ bb_tparts exN = ex_parts /\ bb_sparts exN = ex_parts.
Proof. unfold exN, P_Block.exB. cbn [bb_uplo bb_tparts bb_sparts]. auto. Qed.
Lemma exL_facts : bb_uplo exL = UpL /\ bb_cons exL = true /\ bb_tparts exL = ex_parts /\ bb_sparts exL = ex_parts.
Proof. unfold exL, P_Block.exB. cbn [bb_uplo bb_tparts bb_sparts bb_cons]. auto. Qed.
Lemma part_facts : pa_n ex_part = 23%nat /\ pa_parts ex_part = map interval ex_parts.
Proof. unfold ex_part. cbn [pa_n pa_parts]. auto. Qed.
Lemma ex_runs : forallb (fun r => match build_root (set_part exN r) 200 exT exT with Some _ => true | None => false end) (seq 0 5) = true /\
  forallb (fun r => match build_root (set_part_sym exL r) 200 exT exT with Some _ => true | None => false end) (seq 0 5) = true.
Proof. split; vm_compute; reflexivity. Qed.
Lemma ex_tree_facts : forallb (fun u => contains exT u && (1 <=? c_size u)%nat) ex_parts = true /\ interval exT = (0%nat, 23%nat) /\ length ex_parts = 5%nat.
Proof. repeat split; vm_compute; reflexivity. Qed.
Lemma user_sym : forall a b, user_gen b a = user_gen a b.
Proof. intros a b. unfold user_gen. rewrite Nat.add_comm. reflexivity. Qed.
Opaque exN exL exT ex_parts ex_part build_root.
Example ex_distributed_accuracy :
  partition_ok ex_part 5 /\
  (exists ps, length ps = 5%nat /\ dist_inputs (K := Rc) SyN exN user_gen user_compress exT exT 200 ex_part ex_part ps) /\
  (exists ps, length ps = 5%nat /\ dist_inputs (K := Rc) SyS exL user_gen user_compress exT exT 200 ex_part ex_part ps).
Proof.
  split; [exact ex_part_ok|]. destruct ex_hyps as (Q1 & Q2 & Q3). destruct user_accurate as [U1 U2]. destruct ex_tree_facts as (Q4 & Q5 & Q7).
  destruct exN_facts as (N1 & N2 & N3). destruct exL_facts as (L1 & L2 & L3 & L4). destruct part_facts as [P1 P2]. destruct ex_runs as [R1 R2].
  assert (E1 : 0 <= 1 / 1000) by lra. assert (E2 : 0 <= 1 / 10 ^ 15) by (apply Rlt_le, Rdiv_lt_0_compat; [lra|apply pow_lt; lra]).
  rewrite <- P1 in Q5. split.
  - rewrite <- N2 in Q1, Q4, Q7, P2, N3. exact (dist_unsymmetric exN exT ex_part 5 200 user_gen user_compress (1 / 1000) (1 / 10 ^ 15) E1 E2 U1 U2 N1 Q1 N3 Q2 Q3 Q4 Q5 P2 Q7 R1).
  - rewrite <- L3 in Q1, Q4, Q7, P2, L4. exact (dist_symmetric exL exT ex_part 5 200 user_gen user_compress (1 / 1000) (1 / 10 ^ 15) E1 E2 U1 U2 user_sym L1 L2 Q1 L4 Q2 Q3 Q4 Q5 P2 Q7 R2).
Qed.
