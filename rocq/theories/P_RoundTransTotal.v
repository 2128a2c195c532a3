(** * Property C90, continued: the whole error of the product by the transpose, compression and rounding together.

    Vocabulary: P_RoundTrans.v; DAccSpec.v ([dist_inputs]: as in C69), AccSpec.v ([accurate], [fnorm], [vnorm]: as in C67).  Real coefficients; the compression itself is
    exact arithmetic. *)

From Coq Require Import List Arith ZArith Bool Lia Ring Reals Lra Permutation.
From Verif Require Import ClusterModel ClusterSpec IOModel BlockModel BlockSpec P_Block Algebra BlasModel HMatModel HMatSpec HMatBuild P_HMat
  RealNum CompModel CompReal CompSpec P_Comp AccSpec AccProofs P_Acc DistModel DistSpec DistProofs DistVec DistMat DistLink P_Dist DAccSpec DAccProofs P_DAcc
  RoundModel RoundSpec RoundProofs RoundLoops RoundRef P_Round P_RoundTotal RoundDistModel RoundDistProofs P_RoundDist P_RoundDistTotal RoundTransModel P_RoundTrans.
Import ListNotations.
Local Open Scope R_scope.

(** The vector of every process is at most (eps ||G||_F + tol sqrt(NR NC)) ||x|| (compression) plus ((1+u)^(N+P) - 1) times the norm of |A~|^T |x| (rounding) away from the
    product by the transpose of the user's matrix G. *)
Theorem C90_total_error :
  forall B (G : nat -> nat -> car Rc) compress T S fuel tp sp (ps : list (process Rc)) eps tol u BL red N,
    dist_inputs (K := Rc) SyN B (G : nat -> nat -> car Rc) compress T S fuel tp sp ps -> compress_ok Rc compress ->
    partition_ok tp (length ps) -> partition_ok sp (length ps) -> 0 <= eps -> 0 <= tol ->
    accurate (K := Rc) Rabs eps tol (cluster_order tp sp G) compress -> accurate_blas u BL -> accurate_sum u red ->
    (forall p L Y i, In p ps -> hleaves Rc (pr_hmat Rc p) = Some (L, Y) -> (1 + 2 * length (pr_threads Rc p) + row_cost TrT L Y i <= N)%nat) ->
    forall x ins outs,
      (forall r, (r < length ps)%nat -> holds_vec (K := Rc) (at_rank Rc ins r) (pa_n tp) x) -> (forall r, (r < length ps)%nat -> (pa_n sp <= length (at_rank Rc outs r))%nat) ->
      exists ys, r_tvec_g2g red (r_hmat_operator BL tp sp SyN true ps) ins outs = Some ys /\ length ys = length ps /\
        forall r, (r < length ps)%nat -> only_first (K := Rc) (pa_n sp) (at_rank Rc outs r) (at_rank Rc ys r) /\
          vnorm (K := Rc) Rabs (pa_n sp) (fun b => get (K := Rc) (at_rank Rc ys r) b - rsum (pa_n tp) (fun a => G a b * x a))
          <= (eps * fnorm (K := Rc) Rabs (pa_n tp) (pa_n sp) G + tol * sqrt (INR (pa_n tp * pa_n sp))) * vnorm (K := Rc) Rabs (pa_n tp) x
             + gam u (N + length ps) * vnorm (K := Rc) Rabs (pa_n sp) (fun b => rsum (pa_n tp) (fun a => op_abs tp sp ps a b * Rabs (x a))).
Proof.
  intros B G compress T S fuel tp sp ps eps tol u BL red N HI Hco HPt HPs He Ht Hac HBL Hred HN x ins outs Hi Ho.
  pose proof (inputs_ok Rc SyN B G compress T S fuel tp sp ps HI Hco HPt HPs) as HP.
  destruct (C90_every_process u BL red tp sp ps N HBL Hred HPt HPs HP HN x ins outs Hi Ho) as (ys & E1 & E2 & E3).
  exists ys. split; [exact E1|]. split; [exact E2|]. intros r Hr. destruct (E3 r Hr) as [F Q]. split; [exact F|].
  set (A := op_matrix Rc tp sp SyN ps) in *.
  eapply Rle_trans; [apply (vnorm_triangle (pa_n sp) (fun b => tmul (K := Rc) (pa_n tp) A x b - rsum (pa_n tp) (fun a => G a b * x a))
    (fun b => get (K := Rc) (at_rank Rc ys r) b - tmul (K := Rc) (pa_n tp) A x b)); intros b _; ring|].
  apply Rplus_le_compat.
  - eapply Rle_trans; [exact (apply_bound Rc Rabs C67_modulus_real (pa_n sp) (pa_n tp) (fun b a => A a b) (fun b a => G a b) x (tmul (K := Rc) (pa_n tp) A x) (fun b _ => eq_refl))|].
    apply Rmult_le_compat_r; [apply sqrt_pos|]. rewrite fnorm_swap.
    exact (C69_operator_matrix Rc Rabs C67_modulus_real SyN B G compress T S fuel tp sp ps eps tol HI Hco HPt HPs He Ht Hac).
  - apply vnorm_le; [apply gam_pos; exact (ab_u u BL HBL)|]. intros b Hb. eapply Rle_trans; [exact (Q b Hb)|].
    apply Rmult_le_compat_l; [apply gam_pos; exact (ab_u u BL HBL)|]. apply Rle_abs.
Qed.
Print Assumptions C90_total_error.

(** Such an N exists. *)
Theorem C90_number_of_roundings : forall (ps : list (process Rc)), exists N,
  forall p L Y i, In p ps -> hleaves Rc (pr_hmat Rc p) = Some (L, Y) -> (1 + 2 * length (pr_threads Rc p) + row_cost TrT L Y i <= N)%nat.
Proof.
  assert (Q : forall (f : hinfo Rc -> nat) (c : hinfo Rc -> bool) l, (list_sum (map (fun h => if c h then f h else 0) l) <= list_sum (map f l))%nat).
  { intros f c l. induction l as [|h l IH]; [apply le_n|]. cbn [map list_sum fold_right]. unfold list_sum in *. cbn [fold_right]. destruct (c h); lia. }
  induction ps as [|q ps IH]; [exists 0%nat; intros p L Y i []|]. destruct IH as (N & IH).
  destruct (hleaves Rc (pr_hmat Rc q)) as [[L0 Y0]|] eqn:E0.
  - exists (N + (1 + 2 * length (pr_threads Rc q) + (list_sum (map (fun h => leaf_cost (c_size (h_t h)) h) L0) + list_sum (map (fun h => leaf_cost (c_size (h_s h)) h) Y0))))%nat.
    intros p L Y i [<-|Hp] E.
    + rewrite E0 in E. injection E as <- <-. unfold row_cost, in_cl, out_cl. cbn [is_N].
      pose proof (Q (fun h => leaf_cost (c_size (h_t h)) h) (fun h => in_iv i (interval (h_s h))) L0).
      pose proof (Q (fun h => leaf_cost (c_size (h_s h)) h) (fun h => in_iv i (interval (h_t h))) Y0). lia.
    + specialize (IH p L Y i Hp E). lia.
  - exists N. intros p L Y i [<-|Hp] E; [congruence|exact (IH p L Y i Hp E)].
Qed.
Print Assumptions C90_number_of_roundings.

(** With symmetric storage the product by the transpose is the product itself: the same vector on every process, within the bound of C89, of the transpose of G too. *)
Theorem C90_symmetric_total_error :
  forall B (G : nat -> nat -> car Rc) compress T S fuel tp sp (ps : list (process Rc)) eps tol u BL red N,
    dist_inputs (K := Rc) SyS B (G : nat -> nat -> car Rc) compress T S fuel tp sp ps -> compress_ok Rc compress -> (forall a b, G b a = G a b) -> pa_n tp = pa_n sp ->
    partition_ok tp (length ps) -> partition_ok sp (length ps) -> 0 <= eps -> 0 <= tol ->
    accurate (K := Rc) Rabs eps tol (cluster_order tp sp G) compress -> accurate_blas u BL ->
    (forall p L Y i, In p ps -> hleaves Rc (pr_hmat Rc p) = Some (L, Y) -> (1 + 2 * length (pr_threads Rc p) + row_cost TrN L Y i <= N)%nat) ->
    forall x ins outs,
      (forall r, (r < length ps)%nat -> holds_vec (K := Rc) (at_rank Rc ins r) (pa_n tp) x) -> (forall r, (r < length ps)%nat -> (pa_n sp <= length (at_rank Rc outs r))%nat) ->
      exists ys w, r_tvec_g2g red (r_hmat_operator BL tp sp SyS true ps) ins outs = Some ys /\ length ys = length ps /\
        (forall r, (r < length ps)%nat -> only_first (K := Rc) (pa_n sp) (at_rank Rc outs r) (at_rank Rc ys r) /\ holds_vec (K := Rc) (at_rank Rc ys r) (pa_n sp) w) /\
        vnorm (K := Rc) Rabs (pa_n sp) (fun b => w b - rsum (pa_n tp) (fun a => G a b * x a))
        <= (eps * fnorm (K := Rc) Rabs (pa_n tp) (pa_n sp) G + tol * sqrt (INR (pa_n tp * pa_n sp))) * vnorm (K := Rc) Rabs (pa_n tp) x
           + gam u N * vnorm (K := Rc) Rabs (pa_n sp) (fun b => rsum (pa_n tp) (fun a => op_abs tp sp ps b a * Rabs (x a))).
Proof.
  intros B G compress T S fuel tp sp ps eps tol u BL red N HI Hco HG EN HPt HPs He Ht Hac HBL HN x ins outs Hi Ho.
  rewrite EN in Hi. rewrite <- EN in Ho.
  destruct (C89_total_error SyS B G compress T S fuel tp sp ps eps tol u BL N HI Hco HPt HPs He Ht Hac HBL HN x ins outs Hi Ho) as (ys & w & E1 & E2 & E3 & E4).
  exists ys, w. split; [exact E1|]. split; [exact E2|]. rewrite EN in E3, E4 |- *. split; [exact E3|].
  assert (X : vnorm (K := Rc) Rabs (pa_n sp) (fun b => w b - rsum (pa_n sp) (fun a => G a b * x a)) = vnorm (K := Rc) Rabs (pa_n sp) (fun a => w a - rsum (pa_n sp) (fun b => G a b * x b))).
  { unfold vnorm. f_equal. apply rsum_ext. intros b _.
    assert (EG : rsum (pa_n sp) (fun a => G a b * x a) = rsum (pa_n sp) (fun a => G b a * x a)) by (apply rsum_ext; intros a _; rewrite (HG b a); reflexivity). rewrite EG. reflexivity. }
  rewrite X. exact E4.
Qed.
Print Assumptions C90_symmetric_total_error.

(** ** Example: the five processes and 23 points of C69 (without symmetry, ACA), every operation returning twice the exact result (u = 1), the even and the odd processes
    summing the contributions in different orders. *)
Example ex_C90_total : exists ps ys N, length ps = 5%nat /\ dist_inputs (K := Rc) SyN P_DAcc.exN user_gen user_compress exT exT 200 P_Dist.ex_part P_Dist.ex_part ps /\
  r_tvec_g2g ex_red (r_hmat_operator (ref_blas dbl) P_Dist.ex_part P_Dist.ex_part SyN true ps) (repeat (repeat 1 23) 5) (repeat (repeat 0 23) 5) = Some ys /\ length ys = 5%nat /\
  vnorm (K := Rc) Rabs 23 (fun b => get (K := Rc) (at_rank Rc ys 3) b - rsum 23 (fun a => user_gen a b * 1))
  <= (1 / 1000 * fnorm (K := Rc) Rabs 23 23 user_gen + 1 / 10 ^ 15 * sqrt (INR (23 * 23))) * vnorm (K := Rc) Rabs 23 (fun _ => 1)
     + gam 1 (N + 5) * vnorm (K := Rc) Rabs 23 (fun b => rsum 23 (fun a => op_abs P_Dist.ex_part P_Dist.ex_part ps a b * Rabs 1)).
Proof.
  destruct ex_distributed_accuracy as (HP & (ps & L & HI) & _). destruct user_accurate as [U1 U2]. destruct part_facts as [P1 _].
  destruct (C90_number_of_roundings ps) as [N HN]. rewrite <- L in HP.
  assert (E1 : 0 <= 1 / 1000) by lra. assert (E2 : 0 <= 1 / 10 ^ 15) by (apply Rlt_le, Rdiv_lt_0_compat; [lra|apply pow_lt; lra]).
  destruct (C90_total_error P_DAcc.exN user_gen user_compress exT exT 200 P_Dist.ex_part P_Dist.ex_part ps (1 / 1000) (1 / 10 ^ 15) 1 (ref_blas dbl) ex_red N
    HI U1 HP HP E1 E2 U2 (C86_reference_blas 1 dbl Rle_0_1 dbl_ok) ex_red_ok HN (fun _ => 1) (repeat (repeat 1 23) 5) (repeat (repeat 0 23) 5)) as (ys & F1 & F2 & F3).
  - intros r Hr. rewrite L in Hr. rewrite P1. assert (Er : at_rank Rc (repeat (repeat 1 23) 5) r = repeat 1 23) by (unfold at_rank; do 5 (destruct r as [|r]; [reflexivity|]); lia).
    rewrite Er. split; [rewrite repeat_length; apply le_n|]. intros i Hi. unfold get. do 23 (destruct i as [|i]; [reflexivity|]). lia.
  - intros r Hr. rewrite L in Hr. rewrite P1. assert (Er : at_rank Rc (repeat (repeat 0 23) 5) r = repeat 0 23) by (unfold at_rank; do 5 (destruct r as [|r]; [reflexivity|]); lia).
    rewrite Er, repeat_length. apply le_n.
  - rewrite L in F2, F3. rewrite P1 in F3. destruct (F3 3%nat ltac:(lia)) as [_ F4]. exists ps, ys, N. split; [exact L|]. split; [exact HI|]. split; [exact F1|]. split; [exact F2|]. exact F4.
Qed.
