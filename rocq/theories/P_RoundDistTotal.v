(** * Property C89: the whole error of the distributed product of a vector, compression and rounding together.

    Vocabulary: DAccSpec.v ([dist_inputs]: as in C69), AccSpec.v ([accurate], [fnorm], [vnorm]: as in C67), RoundDistModel.v ([r_hmat_operator]), RoundSpec.v
    ([accurate_blas], [gam], [row_cost]), P_RoundDist.v ([op_abs]: as in C88).  Real coefficients; the compression itself is exact arithmetic. *)

From Coq Require Import List Arith ZArith Bool Lia Ring Reals Lra Permutation.
From Verif Require Import ClusterModel ClusterSpec IOModel BlockModel BlockSpec P_Block Algebra BlasModel HMatModel HMatSpec HMatBuild P_HMat
  RealNum CompModel CompReal CompSpec P_Comp AccSpec AccProofs P_Acc DistModel DistSpec DistProofs DistVec DistMat DistLink P_Dist DAccSpec DAccProofs P_DAcc
  RoundModel RoundSpec RoundProofs RoundLoops RoundRef P_Round P_RoundTotal RoundDistModel RoundDistProofs P_RoundDist.
Import ListNotations.
Local Open Scope R_scope.

(** C89.  For every number of processes, threads and schedule, the vector that all processes get is at most (eps ||G||_F + tol sqrt(NR NC)) ||x|| (compression) plus
    ((1+u)^N - 1) times the norm of |A~| |x| (rounding) away from the product of the user's matrix G by x. *)
Theorem C89_total_error :
  forall sy B (G : nat -> nat -> car Rc) compress T S fuel tp sp (ps : list (process Rc)) eps tol u BL N,
    dist_inputs (K := Rc) sy B (G : nat -> nat -> car Rc) compress T S fuel tp sp ps -> compress_ok Rc compress ->
    partition_ok tp (length ps) -> partition_ok sp (length ps) -> 0 <= eps -> 0 <= tol ->
    accurate (K := Rc) Rabs eps tol (cluster_order tp sp G) compress -> accurate_blas u BL ->
    (forall p L Y i, In p ps -> hleaves Rc (pr_hmat Rc p) = Some (L, Y) -> (1 + 2 * length (pr_threads Rc p) + row_cost TrN L Y i <= N)%nat) ->
    forall x ins outs,
      (forall r, (r < length ps)%nat -> holds_vec (K := Rc) (at_rank Rc ins r) (pa_n sp) x) -> (forall r, (r < length ps)%nat -> (pa_n tp <= length (at_rank Rc outs r))%nat) ->
      exists ys w, vec_g2g Rc (r_hmat_operator BL tp sp sy true ps) ins outs = Some ys /\ length ys = length ps /\
        (forall r, (r < length ps)%nat -> only_first (K := Rc) (pa_n tp) (at_rank Rc outs r) (at_rank Rc ys r) /\ holds_vec (K := Rc) (at_rank Rc ys r) (pa_n tp) w) /\
        vnorm (K := Rc) Rabs (pa_n tp) (fun a => w a - rsum (pa_n sp) (fun b => G a b * x b))
        <= (eps * fnorm (K := Rc) Rabs (pa_n tp) (pa_n sp) G + tol * sqrt (INR (pa_n tp * pa_n sp))) * vnorm (K := Rc) Rabs (pa_n sp) x
           + gam u N * vnorm (K := Rc) Rabs (pa_n tp) (fun a => rsum (pa_n sp) (fun b => op_abs tp sp ps a b * Rabs (x b))).
Proof.
  intros sy B G compress T S fuel tp sp ps eps tol u BL N HI Hco HPt HPs He Ht Hac HBL HN x ins outs Hi Ho.
  pose proof (inputs_ok Rc sy B G compress T S fuel tp sp ps HI Hco HPt HPs) as HP.
  pose proof (inputs_compat Rc sy B G compress T S fuel tp sp ps HI) as Hc.
  destruct (C88_every_process u BL tp sp sy ps N HBL Hc HPt HPs HP HN x ins outs Hi Ho) as (ys & w & E1 & E2 & E3 & E4).
  exists ys, w. split; [exact E1|]. split; [exact E2|]. split; [exact E4|].
  set (A := op_matrix Rc tp sp sy ps) in *.
  eapply Rle_trans; [apply (vnorm_triangle (pa_n tp) (fun a => mul (K := Rc) (pa_n sp) A x a - rsum (pa_n sp) (fun b => G a b * x b)) (fun a => w a - mul (K := Rc) (pa_n sp) A x a)); intros a _; ring|].
  apply Rplus_le_compat.
  - eapply Rle_trans; [exact (apply_bound Rc Rabs C67_modulus_real (pa_n tp) (pa_n sp) A G x (mul (K := Rc) (pa_n sp) A x) (fun a _ => eq_refl))|].
    apply Rmult_le_compat_r; [apply sqrt_pos|]. exact (C69_operator_matrix Rc Rabs C67_modulus_real sy B G compress T S fuel tp sp ps eps tol HI Hco HPt HPs He Ht Hac).
  - apply vnorm_le; [apply gam_pos; exact (ab_u u BL HBL)|]. intros a Ha. eapply Rle_trans; [exact (E3 a Ha)|].
    apply Rmult_le_compat_l; [apply gam_pos; exact (ab_u u BL HBL)|]. apply Rle_abs.
Qed.
Print Assumptions C89_total_error.

(** Such an N exists: no row costs more than all the leaves of the process. *)
Theorem C89_number_of_roundings : forall (ps : list (process Rc)), exists N,
  forall p L Y i, In p ps -> hleaves Rc (pr_hmat Rc p) = Some (L, Y) -> (1 + 2 * length (pr_threads Rc p) + row_cost TrN L Y i <= N)%nat.
Proof.
  assert (Q : forall (f : hinfo Rc -> nat) (c : hinfo Rc -> bool) l, (list_sum (map (fun h => if c h then f h else 0) l) <= list_sum (map f l))%nat).
  { intros f c l. induction l as [|h l IH]; [apply le_n|]. cbn [map list_sum fold_right]. unfold list_sum in *. cbn [fold_right]. destruct (c h); lia. }
  induction ps as [|q ps IH]; [exists 0%nat; intros p L Y i []|]. destruct IH as (N & IH).
  destruct (hleaves Rc (pr_hmat Rc q)) as [[L0 Y0]|] eqn:E0.
  - exists (N + (1 + 2 * length (pr_threads Rc q) + (list_sum (map (fun h => leaf_cost (c_size (h_s h)) h) L0) + list_sum (map (fun h => leaf_cost (c_size (h_t h)) h) Y0))))%nat.
    intros p L Y i [<-|Hp] E.
    + rewrite E0 in E. injection E as <- <-. unfold row_cost, in_cl, out_cl. cbn [is_N].
      pose proof (Q (fun h => leaf_cost (c_size (h_s h)) h) (fun h => in_iv i (interval (h_t h))) L0).
      pose proof (Q (fun h => leaf_cost (c_size (h_t h)) h) (fun h => in_iv i (interval (h_s h))) Y0). lia.
    + specialize (IH p L Y i Hp E). lia.
  - exists N. intros p L Y i [<-|Hp] E; [congruence|exact (IH p L Y i Hp E)].
Qed.
Print Assumptions C89_number_of_roundings.

(** ** Example: the five processes and 23 points of C69 (symmetric storage, ACA), every operation returning twice the exact result (u = 1). *)
Example ex_C89 : exists ps ys w N, length ps = 5%nat /\ dist_inputs (K := Rc) SyS P_DAcc.exL user_gen user_compress exT exT 200 P_Dist.ex_part P_Dist.ex_part ps /\
  vec_g2g Rc (r_hmat_operator (ref_blas dbl) P_Dist.ex_part P_Dist.ex_part SyS true ps) (repeat (repeat 1 23) 5) (repeat (repeat 0 23) 5) = Some ys /\ length ys = 5%nat /\
  vnorm (K := Rc) Rabs 23 (fun a => w a - rsum 23 (fun b => user_gen a b * 1))
  <= (1 / 1000 * fnorm (K := Rc) Rabs 23 23 user_gen + 1 / 10 ^ 15 * sqrt (INR (23 * 23))) * vnorm (K := Rc) Rabs 23 (fun _ => 1)
     + gam 1 N * vnorm (K := Rc) Rabs 23 (fun a => rsum 23 (fun b => op_abs P_Dist.ex_part P_Dist.ex_part ps a b * Rabs 1)).
Proof.
  destruct ex_distributed_accuracy as (HP & _ & ps & L & HI). destruct user_accurate as [U1 U2]. destruct part_facts as [P1 _].
  destruct (C89_number_of_roundings ps) as [N HN]. rewrite <- L in HP.
  assert (E1 : 0 <= 1 / 1000) by lra. assert (E2 : 0 <= 1 / 10 ^ 15) by (apply Rlt_le, Rdiv_lt_0_compat; [lra|apply pow_lt; lra]).
  destruct (C89_total_error SyS P_DAcc.exL user_gen user_compress exT exT 200 P_Dist.ex_part P_Dist.ex_part ps (1 / 1000) (1 / 10 ^ 15) 1 (ref_blas dbl) N
    HI U1 HP HP E1 E2 U2 (C86_reference_blas 1 dbl Rle_0_1 dbl_ok) HN (fun _ => 1) (repeat (repeat 1 23) 5) (repeat (repeat 0 23) 5)) as (ys & w & F1 & F2 & _ & F4).
  - intros r Hr. rewrite L in Hr. rewrite P1. assert (Er : at_rank Rc (repeat (repeat 1 23) 5) r = repeat 1 23) by (unfold at_rank; do 5 (destruct r as [|r]; [reflexivity|]); lia).
    rewrite Er. split; [rewrite repeat_length; apply le_n|]. intros i Hi. unfold get. do 23 (destruct i as [|i]; [reflexivity|]). lia.
  - intros r Hr. rewrite L in Hr. rewrite P1. assert (Er : at_rank Rc (repeat (repeat 0 23) 5) r = repeat 0 23) by (unfold at_rank; do 5 (destruct r as [|r]; [reflexivity|]); lia).
    rewrite Er, repeat_length. apply le_n.
  - rewrite L in F2. rewrite P1 in F4. exists ps, ys, w, N. split; [exact L|]. split; [exact HI|]. split; [exact F1|]. split; [exact F2|]. exact F4.
Qed.
