(** * Property C69, continued: the products of a distributed operator on the parts of the vectors held by the processes, and the transposed products of several vectors.

    Vocabulary: as in P_DAcc.v; [partition_local]: the renumbering keeps every part (DistSpec.v), [part_of o x]: the coefficients of x from [o] on. *)

From Coq Require Import List Arith ZArith Bool Lia Ring Reals Lra Permutation.
From Verif Require Import ClusterModel ClusterSpec IOModel BlockModel BlockSpec P_Block Algebra BlasModel HMatModel HMatSpec HMatBuild
  P_HMat RealNum CompModel CompReal CompSpec P_Comp AccSpec AccProofs P_Acc DistModel DistSpec DistProofs DistVec DistMat DistLink P_Dist DAccSpec DAccProofs P_DAcc.
Import ListNotations.
Local Open Scope R_scope.

Section Main.
  Variable K : Coef.
  Variable md : car K -> R.
  Hypothesis MD : modulus K md.
  Notation C := (car K).
  Add Ring KrDAL : (c_ring K).

  Variables (sy : symc) (B : bbuild) (G : nat -> nat -> C) (compress : ctree -> ctree -> lrm K) (T S : ctree) (fuel : nat).
  Variables (tp sp : partition) (ps : list (process K)) (eps tol : R).
  Hypothesis HI : dist_inputs sy B G compress T S fuel tp sp ps.
  Hypothesis Hco : compress_ok K compress.
  Hypothesis HPt : partition_ok tp (length ps).
  Hypothesis HPs : partition_ok sp (length ps).
  Hypothesis He : 0 <= eps.
  Hypothesis Ht : 0 <= tol.
  Hypothesis Hac : accurate md eps tol (cluster_order tp sp G) compress.
  Notation NR := (pa_n tp).
  Notation NC := (pa_n sp).
  Notation P := (length ps).
  Notation A := (op_matrix K tp sp sy ps).
  Notation D := (hmat_operator K tp sp sy true ps).
  Notation bound := (eps * fnorm md NR NC G + tol * sqrt (INR (NR * NC))).

  Let OM : fnorm md NR NC (fun a b => csub K (A a b) (G a b)) <= bound := C69_operator_matrix K md MD sy B G compress T S fuel tp sp ps eps tol HI Hco HPt HPs He Ht Hac.
  Let IO := inputs_ok K sy B G compress T S fuel tp sp ps HI Hco HPt HPs.
  Let IC := inputs_compat K sy B G compress T S fuel tp sp ps HI.

  Lemma vnorm_part : forall n o s x, (o + s <= n)%nat -> vnorm md s (fun i => x (o + i)%nat) <= vnorm md n x.
  Proof.
    intros n o s x H. unfold vnorm. apply sqrt_le_1_alt. replace n with (o + (s + (n - o - s)))%nat by lia. unfold rsum. rewrite !(sum_split Rc).
    assert (N : forall m f, 0 <= rsum m (fun i => md (f i) * md (f i))) by (intros; apply rsum_nonneg; intros; apply Rle_0_sqr).
    pose proof (N o x) as N1. pose proof (N (n - o - s)%nat (fun i => x (o + (s + i))%nat)) as N2. unfold rsum in N1, N2. cbn [cadd Rc] in *.
    match goal with |- ?a <= ?b + (?c + ?d) => change (0 <= b) in N1; change (0 <= d) in N2; change (c <= b + (c + d)); lra end.
  Qed.
  (** The rows [o, o + s[ of the product by A. *)
  Lemma rows_error : forall o s x (y : nat -> C), (o + s <= NR)%nat -> (forall i, (i < s)%nat -> y i = mul NC A x (o + i)%nat) ->
    vnorm md s (fun i => csub K (y i) (mul NC G x (o + i)%nat)) <= bound * vnorm md NC x.
  Proof.
    intros o s x y Hos Hy. eapply Rle_trans; [|eapply Rle_trans; [apply (vnorm_part NR o s (fun a => csub K (mul NC A x a) (mul NC G x a)) Hos)|]].
    - right. unfold vnorm. f_equal. apply rsum_ext. intros i Hi. rewrite (Hy i Hi). reflexivity.
    - eapply Rle_trans; [apply (apply_bound K md MD NR NC A G x (fun a => mul NC A x a)); intros; reflexivity|]. apply Rmult_le_compat_r; [apply sqrt_pos|exact OM].
  Qed.
  Lemma part_in : forall p m r o s, partition_ok p m -> nth_error (pa_parts p) r = Some (o, s) -> (o + s <= pa_n p)%nat.
  Proof. intros p m r o s H E. exact (proj2 (tiles_in _ _ _ _ _ _ (po_tiles _ _ H) E)). Qed.

  (** Every process gives its part of x and gets its part of the product. *)
  Theorem C69_vector_product_local : partition_local tp -> partition_local sp -> forall ins outs works x,
    (forall r o s, (r < P)%nat -> nth_error (pa_parts sp) r = Some (o, s) -> holds_vec (at_rank K ins r) s (part_of o x)) ->
    (forall r o s, (r < P)%nat -> nth_error (pa_parts tp) r = Some (o, s) -> (s <= length (at_rank K outs r))%nat) ->
    (forall r, (r < P)%nat -> (NC <= length (at_rank K works r))%nat) ->
    exists ys, vec_l2l K D ins outs works = Some ys /\ length ys = P /\ forall r o s, (r < P)%nat -> nth_error (pa_parts tp) r = Some (o, s) ->
      only_first s (at_rank K outs r) (at_rank K ys r) /\
      vnorm md s (fun i => csub K (get (at_rank K ys r) i) (part_of o (mul NC G x) i)) <= bound * vnorm md NC x.
  Proof.
    intros Lt Ls ins outs works x Hi Ho Hw. destruct (C35_hmatrix_operator K tp sp sy ps (length ps) IC HPt HPs IO) as (W & R1 & _ & _).
    pose proof (C38_vector_product_local K D A) as Q. cbv zeta in Q. rewrite W in Q. cbn [d_t d_s d_perm hmat_operator] in Q.
    destruct (Q HPt HPs (fun _ => Lt) (fun _ => Ls) R1 ins outs works x Hi Ho Hw) as (ys & E1 & E2 & E3). exists ys. split; [exact E1|]. split; [exact E2|].
    intros r o s Hr E. destruct (E3 r o s Hr E) as [F [_ V]]. split; [exact F|]. apply rows_error; [exact (part_in _ _ _ _ _ HPt E)|exact V].
  Qed.
  Theorem C69_matrix_product_local : partition_local tp -> partition_local sp -> forall mu ins outs works X, (1 <= mu)%nat ->
    (forall r o s, (r < P)%nat -> nth_error (pa_parts sp) r = Some (o, s) -> holds_cols (at_rank K ins r) s mu (fun i c => X (o + i)%nat c)) ->
    (forall r o s, (r < P)%nat -> nth_error (pa_parts tp) r = Some (o, s) -> (s * mu <= length (at_rank K outs r))%nat) ->
    (forall r, (r < P)%nat -> (NC * mu <= length (at_rank K works r))%nat) ->
    exists ys, mat_l2l K D ins outs works mu = Some ys /\ length ys = P /\ forall r o s, (r < P)%nat -> nth_error (pa_parts tp) r = Some (o, s) ->
      only_first (s * mu) (at_rank K outs r) (at_rank K ys r) /\ forall c, (c < mu)%nat ->
      vnorm md s (fun i => csub K (get (at_rank K ys r) (i + c * s)) (part_of o (mul NC G (fun b => X b c)) i)) <= bound * vnorm md NC (fun b => X b c).
  Proof.
    intros Lt Ls mu ins outs works X Hmu Hi Ho Hw. destruct (C35_hmatrix_operator K tp sp sy ps (length ps) IC HPt HPs IO) as (W & _ & R1 & _).
    pose proof (C46_matrix_product_local K D A mu) as Q. cbv zeta in Q. rewrite W in Q. cbn [d_t d_s d_perm hmat_operator] in Q.
    destruct (Q HPt HPs (fun _ => Lt) (fun _ => Ls) (R1 mu Hmu) ins outs works X Hi Ho Hw) as (ys & E1 & E2 & E3). exists ys. split; [exact E1|]. split; [exact E2|].
    intros r o s Hr E. destruct (E3 r o s Hr E) as [F [_ V]]. split; [exact F|]. intros c Hc.
    apply rows_error; [exact (part_in _ _ _ _ _ HPt E)|]. intros i Hi'. exact (V i c Hi' Hc).
  Qed.

  (** ** Transposed products *)
  (** By a matrix that is symmetric, or Hermitian, the product by G^T is the product by G, or its conjugate. *)
  Lemma cols_error : forall o s x (y : nat -> C), (o + s <= NC)%nat -> (forall i, (i < s)%nat -> y i = tmul NR A x (o + i)%nat) ->
    vnorm md s (fun i => csub K (y i) (tmul NR G x (o + i)%nat)) <= bound * vnorm md NR x.
  Proof.
    intros o s x y Hos Hy. eapply Rle_trans; [|eapply Rle_trans; [apply (vnorm_part NC o s (fun b => csub K (tmul NR A x b) (tmul NR G x b)) Hos)|]].
    - right. unfold vnorm. f_equal. apply rsum_ext. intros i Hi. rewrite (Hy i Hi). reflexivity.
    - eapply Rle_trans; [apply (apply_bound K md MD NC NR (fun b a => A a b) (fun b a => G a b) x (fun b => tmul NR A x b)); intros; reflexivity|].
      apply Rmult_le_compat_r; [apply sqrt_pos|]. rewrite fnorm_swap. exact OM.
  Qed.

  Lemma inputs_cases : sy = SyN \/ (sy = SyS /\ sp = tp /\ forall a b, G b a = G a b) \/ (sy = SyH /\ sp = tp /\ forall a b, G b a = cconj K (G a b)).
  Proof.
    destruct HI as [Esy H1 H2 H3 H4 H5 H6 H7 H8 H9 HB|Esy HG ES Esp H1 H2 H3 H4 H5 H6 H7 H8 H9 HB]; [left; exact Esy|right].
    destruct Esy as [E|[E Q]]; [left|right]; (split; [exact E|split; [exact Esp|]]); intros a b; rewrite (HG a b), E; reflexivity.
  Qed.
  Lemma sym_conv : NR = NC -> (forall a b, G b a = G a b) -> forall o s x (y : nat -> C),
    vnorm md s (fun i => csub K (y i) (tmul NR G x (o + i)%nat)) = vnorm md s (fun i => csub K (y i) (mul NC G x (o + i)%nat)).
  Proof.
    intros EN HG o s x y. rewrite EN. unfold vnorm. f_equal. apply rsum_ext. intros i Hi.
    assert (EG : tmul NC G x (o + i)%nat = mul NC G x (o + i)%nat) by (apply sum_ext; intros a _; rewrite (HG (o + i)%nat a); reflexivity). rewrite EG. reflexivity.
  Qed.
  Lemma herm_conv : NR = NC -> (forall a b, G b a = cconj K (G a b)) -> forall o s x (y y' : nat -> C), (forall i, (i < s)%nat -> y i = cconj K (y' i)) ->
    vnorm md s (fun i => csub K (y i) (tmul NR G x (o + i)%nat)) = vnorm md s (fun i => csub K (y' i) (mul NC G (fun a => cconj K (x a)) (o + i)%nat)).
  Proof.
    intros EN HG o s x y y' Hy. rewrite EN. unfold vnorm. f_equal. apply rsum_ext. intros i Hi.
    assert (EG : tmul NC G x (o + i)%nat = cconj K (mul NC G (fun a => cconj K (x a)) (o + i)%nat)).
    { unfold mul, tmul. rewrite conj_sum. apply sum_ext. intros a _. rewrite (cconj_mul K), (cconj_invol K), (HG (o + i)%nat a). reflexivity. }
    rewrite EG, (Hy i Hi), <- (conj_sub K), !(md_conj _ _ MD). reflexivity.
  Qed.
  Lemma vnorm_conj : NR = NC -> forall x, vnorm md NC (fun a => cconj K (x a)) = vnorm md NR x.
  Proof. intros EN x. rewrite EN. unfold vnorm. f_equal. apply rsum_ext. intros a _. rewrite (md_conj _ _ MD). reflexivity. Qed.
  Lemma world_D : world K D = P.
  Proof. exact (proj1 (C35_hmatrix_operator K tp sp sy ps (length ps) IC HPt HPs IO)). Qed.
  Lemma idx_lt : forall a c n mu, (a < n)%nat -> (c < mu)%nat -> (a + c * n < n * mu)%nat.
  Proof. intros. nia. Qed.
  Lemma conj_cols : forall n mu b (X : nat -> nat -> C), holds_cols b n mu X -> exists y, conj_copy K (n * mu) b = Some y /\ holds_cols y n mu (fun a c => cconj K (X a c)).
  Proof.
    intros n mu b X [L V]. destruct (conj_copy_ok K (n * mu) b L) as (y & E1 & E2 & E3). exists y. split; [exact E1|]. split; [lia|].
    intros a c Ha Hc. rewrite E3 by (apply idx_lt; assumption). rewrite V by assumption. reflexivity.
  Qed.

  Theorem C69_transposed_matrix_product : forall mu ins outs X, (1 <= mu)%nat ->
    (forall r, (r < P)%nat -> holds_cols (at_rank K ins r) NR mu X) -> (forall r, (r < P)%nat -> (NC * mu <= length (at_rank K outs r))%nat) ->
    exists ys, tmat_g2g K D ins outs mu = Some ys /\ length ys = P /\ forall r, (r < P)%nat ->
      only_first (NC * mu) (at_rank K outs r) (at_rank K ys r) /\ forall c, (c < mu)%nat ->
      vnorm md NC (fun b => csub K (get (at_rank K ys r) (b + c * NC)) (tmul NR G (fun a => X a c) b)) <= bound * vnorm md NR (fun a => X a c).
  Proof.
    intros mu ins outs X Hmu Hi Ho. destruct inputs_cases as [Esy|[(Esy & Esp & HG)|(Esy & Esp & HG)]].
    - destruct (C35_hmatrix_operator K tp sp sy ps (length ps) IC HPt HPs IO) as (W & _ & _ & R2). destruct (R2 Esy) as [_ R3].
      pose proof (C46_transposed_matrix_product_global K D A mu) as Q. cbv zeta in Q. rewrite W in Q. unfold sym_matrix in Q. cbn [d_t d_s d_sym hmat_operator] in Q.
      assert (Q' := Q HPt HPs). clear Q.
      destruct (fun H1 H2 => Q' H1 H2 ins outs X Hi Ho) as (ys & E1 & E2 & E3); [rewrite Esy; exact I|destruct sy; try discriminate Esy; right; exact (R3 mu Hmu)|].
      exists ys. split; [exact E1|]. split; [exact E2|]. intros r Hr. destruct (E3 r Hr) as [F [_ V]]. split; [exact F|]. intros c Hc.
      apply (cols_error 0 NC (fun a => X a c) (fun b => get (at_rank K ys r) (b + c * NC))); [lia|]. intros b Hb. exact (V b c Hb Hc).
    - assert (EN : NR = NC) by (rewrite Esp; reflexivity).
      assert (ET : tmat_g2g K D ins outs mu = mat_g2g K D ins outs mu) by (unfold tmat_g2g; cbn [d_sym hmat_operator]; rewrite Esy; reflexivity).
      destruct (C69_matrix_product K md MD sy B G compress T S fuel tp sp ps eps tol HI Hco HPt HPs He Ht Hac mu ins outs X Hmu) as (ys & E1 & E2 & E3).
      { intros r Hr. rewrite <- EN. exact (Hi r Hr). }
      { intros r Hr. rewrite EN. exact (Ho r Hr). }
      exists ys. split; [rewrite ET; exact E1|]. split; [exact E2|]. intros r Hr. destruct (E3 r Hr) as [F V]. rewrite EN in F. split; [exact F|]. intros c Hc.
      pose proof (sym_conv EN HG 0%nat NC (fun a => X a c) (fun b => get (at_rank K ys r) (b + c * NC))) as SC. cbn [Nat.add] in SC. rewrite SC.
      specialize (V c Hc). rewrite <- EN in *. exact V.
    - assert (EN : NR = NC) by (rewrite Esp; reflexivity).
      destruct (on_ranks_ok (list C) [] P (fun r => conj_copy K (NR * mu) (at_rank K ins r)) (fun r b => holds_cols b NR mu (fun a c => cconj K (X a c)))) as (ic & I1 & I2 & I3).
      { intros r Hr. apply conj_cols. exact (Hi r Hr). }
      destruct (C69_matrix_product K md MD sy B G compress T S fuel tp sp ps eps tol HI Hco HPt HPs He Ht Hac mu ic outs (fun a c => cconj K (X a c)) Hmu) as (ys & E1 & E2 & E3).
      { intros r Hr. rewrite <- EN. exact (I3 r Hr). }
      { intros r Hr. rewrite EN. exact (Ho r Hr). }
      destruct (on_ranks_ok (list C) [] P (fun r => conj_buf K (mu * NC) (at_rank K ys r))
        (fun r b => only_first (NC * mu) (at_rank K outs r) b /\ forall p, (p < NC * mu)%nat -> get b p = cconj K (get (at_rank K ys r) p))) as (zs & Z1 & Z2 & Z3).
      { intros r Hr. destruct (E3 r Hr) as [F _]. rewrite EN in F. rewrite (Nat.mul_comm mu NC). destruct (DistVec.conj_buf_ok K (NC * mu) (at_rank K ys r)) as (y & G1 & G2 & G3).
        { destruct F as [F _]. rewrite F. exact (Ho r Hr). }
        exists y. split; [exact G1|]. split; [exact (only_first_trans K _ _ _ _ F G2)|exact G3]. }
      exists zs. split.
      { unfold tmat_g2g. cbn [d_sym hmat_operator]. rewrite world_D. unfold nr, nc. cbn [d_t d_s hmat_operator]. rewrite I1, E1, Z1, Esy. reflexivity. }
      split; [exact Z2|]. intros r Hr. destruct (Z3 r Hr) as [F1 F2]. split; [exact F1|]. intros c Hc. destruct (E3 r Hr) as [_ V]. specialize (V c Hc).
      pose proof (herm_conv EN HG 0%nat NC (fun a => X a c) (fun b => get (at_rank K zs r) (b + c * NC)) (fun b => get (at_rank K ys r) (b + c * NC))) as HC. cbn [Nat.add] in HC. rewrite HC.
      + rewrite <- (vnorm_conj EN (fun a => X a c)). rewrite EN in V |- *. exact V.
      + intros b Hb. apply F2. apply idx_lt; assumption.
  Qed.
  Lemma size_of : forall p m r o s, partition_ok p m -> nth_error (pa_parts p) r = Some (o, s) -> part_size p r = Some s.
  Proof. intros p m r o s _ E. exact (proj1 (part_size_ok p r o s E)). Qed.
  Theorem C69_transposed_vector_product_local : partition_local tp -> partition_local sp -> forall ins outs works x,
    (forall r o s, (r < P)%nat -> nth_error (pa_parts tp) r = Some (o, s) -> holds_vec (at_rank K ins r) s (part_of o x)) ->
    (forall r o s, (r < P)%nat -> nth_error (pa_parts sp) r = Some (o, s) -> (s <= length (at_rank K outs r))%nat) ->
    (forall r o s, (r < P)%nat -> nth_error (pa_parts sp) r = Some (o, s) -> (NC + P * s <= length (at_rank K works r))%nat) ->
    exists ys, tvec_l2l K D ins outs works = Some ys /\ length ys = P /\ forall r o s, (r < P)%nat -> nth_error (pa_parts sp) r = Some (o, s) ->
      only_first s (at_rank K outs r) (at_rank K ys r) /\
      vnorm md s (fun i => csub K (get (at_rank K ys r) i) (part_of o (tmul NR G x) i)) <= bound * vnorm md NR x.
  Proof.
    intros Lt Ls ins outs works x Hi Ho Hw.
    assert (Hw' : forall r, (r < P)%nat -> (NC <= length (at_rank K works r))%nat).
    { intros r Hr. destruct (part_nth sp P HPs r Hr) as (o & s & E & _). specialize (Hw r o s Hr E). lia. }
    destruct inputs_cases as [Esy|[(Esy & Esp & HG)|(Esy & Esp & HG)]].
    - destruct (C35_hmatrix_operator K tp sp sy ps (length ps) IC HPt HPs IO) as (W & _ & _ & R2). destruct (R2 Esy) as [R3 _].
      pose proof (C37_transposed_vector_product_local K D A) as Q. cbv zeta in Q. rewrite W in Q. unfold sym_matrix in Q. cbn [d_t d_s d_sym d_perm hmat_operator] in Q.
      assert (Q' := Q HPt HPs (fun _ => Lt) (fun _ => Ls)). clear Q.
      destruct (fun H1 H2 H3 => Q' H1 H2 H3 ins outs works x Hi Ho Hw) as (ys & E1 & E2 & E3);
        [rewrite Esy; exact I|rewrite Esy; intros [H|H]; discriminate|destruct sy; try discriminate Esy; exact R3|].
      exists ys. split; [exact E1|]. split; [exact E2|]. intros r o s Hr E. destruct (E3 r o s Hr E) as [F [_ V]]. split; [exact F|].
      apply (cols_error o s x (fun b => get (at_rank K ys r) b)); [exact (part_in _ _ _ _ _ HPs E)|exact V].
    - assert (EN : NR = NC) by (rewrite Esp; reflexivity).
      assert (ET : tvec_l2l K D ins outs works = vec_l2l K D ins outs works) by (unfold tvec_l2l; cbn [d_sym hmat_operator]; rewrite Esy; reflexivity).
      destruct (C69_vector_product_local Lt Ls ins outs works x) as (ys & E1 & E2 & E3); [rewrite Esp; exact Hi|rewrite <- Esp; exact Ho|exact Hw'|].
      exists ys. split; [rewrite ET; exact E1|]. split; [exact E2|]. intros r o s Hr E. destruct (E3 r o s Hr) as [F V]; [rewrite <- Esp; exact E|]. split; [exact F|].
      pose proof (sym_conv EN HG o s x (fun b => get (at_rank K ys r) b)) as SC. unfold part_of in *. rewrite SC. rewrite EN in V |- *. exact V.
    - assert (EN : NR = NC) by (rewrite Esp; reflexivity).
      destruct (on_ranks_ok (list C) [] P (fun r => do s <- part_size tp r; conj_copy K s (at_rank K ins r))
        (fun r b => forall o s, nth_error (pa_parts tp) r = Some (o, s) -> holds_vec b s (part_of o (fun a => cconj K (x a))))) as (ic & I1 & I2 & I3).
      { intros r Hr. destruct (part_nth tp P HPt r Hr) as (o & s & E & _). rewrite (size_of tp P r o s HPt E). destruct (Hi r o s Hr E) as [L V].
        destruct (conj_copy_ok K s (at_rank K ins r) L) as (y & G1 & G2 & G3). exists y. split; [exact G1|]. intros o' s' E'. rewrite E in E'. injection E' as <- <-.
        split; [lia|]. intros i Hi'. rewrite G3, V by exact Hi'. reflexivity. }
      destruct (C69_vector_product_local Lt Ls ic outs works (fun a => cconj K (x a))) as (ys & E1 & E2 & E3); [rewrite Esp; intros r o s Hr E; exact (I3 r Hr o s E)|rewrite <- Esp; exact Ho|exact Hw'|].
      destruct (on_ranks_ok (list C) [] P (fun r => do s <- part_size sp r; conj_buf K s (at_rank K ys r))
        (fun r b => forall o s, nth_error (pa_parts sp) r = Some (o, s) -> only_first s (at_rank K outs r) b /\ forall p, (p < s)%nat -> get b p = cconj K (get (at_rank K ys r) p))) as (zs & Z1 & Z2 & Z3).
      { intros r Hr. destruct (part_nth sp P HPs r Hr) as (o & s & E & _). rewrite (size_of sp P r o s HPs E). destruct (E3 r o s Hr) as [F _]; [rewrite <- Esp; exact E|].
        destruct (DistVec.conj_buf_ok K s (at_rank K ys r)) as (y & G1 & G2 & G3); [destruct F as [F _]; rewrite F; exact (Ho r o s Hr E)|].
        exists y. split; [exact G1|]. intros o' s' E'. rewrite E in E'. injection E' as <- <-. split; [exact (only_first_trans K _ _ _ _ F G2)|exact G3]. }
      exists zs. split.
      { unfold tvec_l2l. cbn [d_sym hmat_operator]. rewrite world_D. cbn [d_t d_s hmat_operator]. rewrite I1, E1, Z1, Esy. reflexivity. }
      split; [exact Z2|]. intros r o s Hr E. destruct (Z3 r Hr o s E) as [F1 F2]. split; [exact F1|]. destruct (E3 r o s Hr) as [_ V]; [rewrite <- Esp; exact E|].
      pose proof (herm_conv EN HG o s x (fun b => get (at_rank K zs r) b) (fun b => get (at_rank K ys r) b) F2) as HC. unfold part_of in *. rewrite HC.
      rewrite <- (vnorm_conj EN x). exact V.
  Qed.
  Theorem C69_transposed_matrix_product_local : partition_local tp -> partition_local sp -> forall mu ins outs works X, (1 <= mu)%nat ->
    (forall r o s, (r < P)%nat -> nth_error (pa_parts tp) r = Some (o, s) -> holds_cols (at_rank K ins r) s mu (fun i c => X (o + i)%nat c)) ->
    (forall r o s, (r < P)%nat -> nth_error (pa_parts sp) r = Some (o, s) -> (s * mu <= length (at_rank K outs r))%nat) ->
    (forall r o s, (r < P)%nat -> nth_error (pa_parts sp) r = Some (o, s) -> (NC * mu + P * (s * mu) <= length (at_rank K works r))%nat) ->
    exists ys, tmat_l2l K D ins outs works mu = Some ys /\ length ys = P /\ forall r o s, (r < P)%nat -> nth_error (pa_parts sp) r = Some (o, s) ->
      only_first (s * mu) (at_rank K outs r) (at_rank K ys r) /\ forall c, (c < mu)%nat ->
      vnorm md s (fun i => csub K (get (at_rank K ys r) (i + c * s)) (part_of o (tmul NR G (fun a => X a c)) i)) <= bound * vnorm md NR (fun a => X a c).
  Proof.
    intros Lt Ls mu ins outs works X Hmu Hi Ho Hw.
    assert (Hw' : forall r, (r < P)%nat -> (NC * mu <= length (at_rank K works r))%nat).
    { intros r Hr. destruct (part_nth sp P HPs r Hr) as (o & s & E & _). specialize (Hw r o s Hr E). lia. }
    destruct inputs_cases as [Esy|[(Esy & Esp & HG)|(Esy & Esp & HG)]].
    - destruct (C35_hmatrix_operator K tp sp sy ps (length ps) IC HPt HPs IO) as (W & _ & _ & R2). destruct (R2 Esy) as [_ R3].
      pose proof (C46_transposed_matrix_product_local K D A mu) as Q. cbv zeta in Q. rewrite W in Q. unfold sym_matrix in Q. cbn [d_t d_s d_sym d_perm hmat_operator] in Q.
      assert (Q' := Q HPt HPs (fun _ => Lt) (fun _ => Ls)). clear Q.
      destruct (fun H1 H2 H3 => Q' H1 H2 H3 ins outs works X Hi Ho Hw) as (ys & E1 & E2 & E3);
        [rewrite Esy; exact I|rewrite Esy; intros [H|H]; discriminate|destruct sy; try discriminate Esy; right; exact (R3 mu Hmu)|].
      exists ys. split; [exact E1|]. split; [exact E2|]. intros r o s Hr E. destruct (E3 r o s Hr E) as [F [_ V]]. split; [exact F|]. intros c Hc.
      apply (cols_error o s (fun a => X a c) (fun i => get (at_rank K ys r) (i + c * s))); [exact (part_in _ _ _ _ _ HPs E)|]. intros i Hi'. exact (V i c Hi' Hc).
    - assert (EN : NR = NC) by (rewrite Esp; reflexivity).
      assert (ET : tmat_l2l K D ins outs works mu = mat_l2l K D ins outs works mu) by (unfold tmat_l2l; cbn [d_sym hmat_operator]; rewrite Esy; reflexivity).
      destruct (C69_matrix_product_local Lt Ls mu ins outs works X Hmu) as (ys & E1 & E2 & E3); [rewrite Esp; exact Hi|rewrite <- Esp; exact Ho|exact Hw'|].
      exists ys. split; [rewrite ET; exact E1|]. split; [exact E2|]. intros r o s Hr E. destruct (E3 r o s Hr) as [F V]; [rewrite <- Esp; exact E|]. split; [exact F|]. intros c Hc. specialize (V c Hc).
      pose proof (sym_conv EN HG o s (fun a => X a c) (fun i => get (at_rank K ys r) (i + c * s))) as SC. unfold part_of in *. rewrite SC. rewrite EN in V |- *. exact V.
    - assert (EN : NR = NC) by (rewrite Esp; reflexivity).
      destruct (on_ranks_ok (list C) [] P (fun r => do s <- part_size tp r; conj_copy K (s * mu) (at_rank K ins r))
        (fun r b => forall o s, nth_error (pa_parts tp) r = Some (o, s) -> holds_cols b s mu (fun i c => cconj K (X (o + i)%nat c)))) as (ic & I1 & I2 & I3).
      { intros r Hr. destruct (part_nth tp P HPt r Hr) as (o & s & E & _). rewrite (size_of tp P r o s HPt E). destruct (conj_cols s mu _ _ (Hi r o s Hr E)) as (y & G1 & G2).
        exists y. split; [exact G1|]. intros o' s' E'. rewrite E in E'. injection E' as <- <-. exact G2. }
      destruct (C69_matrix_product_local Lt Ls mu ic outs works (fun a c => cconj K (X a c)) Hmu) as (ys & E1 & E2 & E3);
        [rewrite Esp; intros r o s Hr E; exact (I3 r Hr o s E)|rewrite <- Esp; exact Ho|exact Hw'|].
      destruct (on_ranks_ok (list C) [] P (fun r => do s <- part_size sp r; conj_buf K (s * mu) (at_rank K ys r))
        (fun r b => forall o s, nth_error (pa_parts sp) r = Some (o, s) -> only_first (s * mu) (at_rank K outs r) b /\ forall p, (p < s * mu)%nat -> get b p = cconj K (get (at_rank K ys r) p))) as (zs & Z1 & Z2 & Z3).
      { intros r Hr. destruct (part_nth sp P HPs r Hr) as (o & s & E & _). rewrite (size_of sp P r o s HPs E). destruct (E3 r o s Hr) as [F _]; [rewrite <- Esp; exact E|].
        destruct (DistVec.conj_buf_ok K (s * mu) (at_rank K ys r)) as (y & G1 & G2 & G3); [destruct F as [F _]; rewrite F; exact (Ho r o s Hr E)|].
        exists y. split; [exact G1|]. intros o' s' E'. rewrite E in E'. injection E' as <- <-. split; [exact (only_first_trans K _ _ _ _ F G2)|exact G3]. }
      exists zs. split.
      { unfold tmat_l2l. cbn [d_sym hmat_operator]. rewrite world_D. cbn [d_t d_s hmat_operator]. rewrite I1, E1, Z1, Esy. reflexivity. }
      split; [exact Z2|]. intros r o s Hr E. destruct (Z3 r Hr o s E) as [F1 F2]. split; [exact F1|]. intros c Hc. destruct (E3 r o s Hr) as [_ V]; [rewrite <- Esp; exact E|]. specialize (V c Hc).
      pose proof (herm_conv EN HG o s (fun a => X a c) (fun i => get (at_rank K zs r) (i + c * s)) (fun i => get (at_rank K ys r) (i + c * s))) as HC. unfold part_of in *. rewrite HC.
      + rewrite <- (vnorm_conj EN (fun a => X a c)). exact V.
      + intros i Hi'. apply F2. apply idx_lt; assumption.
  Qed.
End Main.
Print Assumptions C69_vector_product_local.
Print Assumptions C69_matrix_product_local.
Print Assumptions C69_transposed_matrix_product.
Print Assumptions C69_transposed_vector_product_local.
Print Assumptions C69_transposed_matrix_product_local.

(** ** Example: the five processes of P_DAcc.v with a renumbering that keeps the parts. *)
Lemma loc_parts : map interval ex_parts = [(0, 5); (5, 6); (11, 4); (15, 4); (19, 4)]%nat.
Proof. vm_compute. reflexivity. Qed.
Definition loc_part : partition := mkPartition 23 [4; 3; 2; 1; 0; 10; 9; 8; 7; 6; 5; 14; 13; 12; 11; 15; 16; 17; 18; 22; 19; 20; 21]%nat [(0, 5); (5, 6); (11, 4); (15, 4); (19, 4)]%nat true.
Definition loc_compress := full_compress Rn (overR (1 / 1000)) (1 / 10 ^ 15) (cluster_order (K := Rc) loc_part loc_part user_gen).
Lemma loc_part_ok : partition_ok loc_part 5 /\ partition_local loc_part.
Proof.
  assert (R : forall l : list nat, Permutation (rev l) l) by (intros l; apply Permutation_sym, Permutation_rev).
  assert (L : partition_local loc_part).
  { intros os H. cbn [pa_parts loc_part In] in H. destruct H as [<-|[<-|[<-|[<-|[<-|[]]]]]]; cbn [fst snd pa_perm loc_part].
    - exact (R (seq 0 5)).
    - exact (R (seq 5 6)).
    - exact (R (seq 11 4)).
    - apply Permutation_refl.
    - exact (Permutation_app_comm (seq 22 1) (seq 19 3)). }
  split; [|exact L]. split; [|reflexivity|cbn; tauto]. cbn [pa_perm pa_n loc_part].
  change (seq 0 23) with (seq 0 5 ++ seq 5 6 ++ seq 11 4 ++ seq 15 4 ++ seq 19 4).
  pose proof (L _ (or_introl eq_refl)) as L1. pose proof (L _ (or_intror (or_introl eq_refl))) as L2. pose proof (L _ (or_intror (or_intror (or_introl eq_refl)))) as L3.
  pose proof (L _ (or_intror (or_intror (or_intror (or_introl eq_refl))))) as L4. pose proof (L _ (or_intror (or_intror (or_intror (or_intror (or_introl eq_refl)))))) as L5.
  exact (Permutation_app L1 (Permutation_app L2 (Permutation_app L3 (Permutation_app L4 L5)))).
Qed.
Example C69_local_hyps : partition_ok loc_part 5 /\ partition_local loc_part /\
  compress_ok Rc loc_compress /\ accurate (K := Rc) Rabs (1 / 1000) (1 / 10 ^ 15) (cluster_order (K := Rc) loc_part loc_part user_gen) loc_compress /\
  (exists ps, length ps = 5%nat /\ dist_inputs (K := Rc) SyN exN user_gen loc_compress exT exT 200 loc_part loc_part ps) /\
  (exists ps, length ps = 5%nat /\ dist_inputs (K := Rc) SyS exL user_gen loc_compress exT exT 200 loc_part loc_part ps).
Proof.
  destruct loc_part_ok as [O1 O2]. split; [exact O1|]. split; [exact O2|].
  assert (U : compress_ok Rc loc_compress /\ accurate (K := Rc) Rabs (1 / 1000) (1 / 10 ^ 15) (cluster_order (K := Rc) loc_part loc_part user_gen) loc_compress).
  { apply C67_full_aca_real. apply Rdiv_lt_0_compat; [lra|]. apply pow_lt. lra. }
  destruct U as [U1 U2]. split; [exact U1|]. split; [exact U2|].
  destruct ex_hyps as (Q1 & Q2 & Q3). destruct ex_tree_facts as (Q4 & Q5 & Q7).
  destruct exN_facts as (N1 & N2 & N3). destruct exL_facts as (L1 & L2 & L3 & L4). destruct ex_runs as [R1 R2].
  assert (P1 : pa_n loc_part = 23%nat) by reflexivity. assert (P2 : pa_parts loc_part = map interval ex_parts) by (symmetry; exact loc_parts).
  assert (E1 : 0 <= 1 / 1000) by lra. assert (E2 : 0 <= 1 / 10 ^ 15) by (apply Rlt_le, Rdiv_lt_0_compat; [lra|apply pow_lt; lra]).
  rewrite <- P1 in Q5. split.
  - rewrite <- N2 in Q1, Q4, Q7, P2, N3. exact (dist_unsymmetric exN exT loc_part 5 200 user_gen loc_compress (1 / 1000) (1 / 10 ^ 15) E1 E2 U1 U2 N1 Q1 N3 Q2 Q3 Q4 Q5 P2 Q7 R1).
  - rewrite <- L3 in Q1, Q4, Q7, P2, L4. exact (dist_symmetric exL exT loc_part 5 200 user_gen loc_compress (1 / 1000) (1 / 10 ^ 15) E1 E2 U1 U2 user_sym L1 L2 Q1 L4 Q2 Q3 Q4 Q5 P2 Q7 R2).
Qed.
