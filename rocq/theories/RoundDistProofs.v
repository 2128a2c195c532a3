(** * Proofs about the rounded distributed product. *)

From Coq Require Import List Arith Bool Lia Ring Permutation Reals Lra.
From Verif Require Import ClusterModel ClusterSpec ClusterMore IOModel BlockModel BlockSpec Algebra BlasModel BlasProofs
  HMatModel HMatSpec HMatTop DistModel DistSpec DistProofs DistVec DistLink RealNum CompReal RoundModel RoundSpec RoundProofs RoundLoops RoundDistModel.
Import ListNotations.

(** The communications do not compute: whatever each process computes for its rows is what every process gets. *)
Section Any.
  Variable K : Coef.
  Notation buf := (list (car K)).
  Variable D : dop K.
  Notation P := (world K D).
  Notation T := (d_t K D).
  Notation S := (d_s K D).
  Notation NR := (pa_n (d_t K D)).
  Notation NC := (pa_n (d_s K D)).
  Notation ui p := (user_index (d_perm K D) p).
  Hypothesis HT : partition_ok T P.
  Hypothesis HS : partition_ok S P.

  Theorem vec_g2g_any : forall (R : nat -> car K -> Prop) x ins outs,
    (forall r o s inp, nth_error (pa_parts T) r = Some (o, s) -> NC <= length inp -> (forall j, j < NC -> get inp j = x (ui S j)) ->
      exists y, int_vec_g2l K D r inp (vec0 K s) = Some y /\ length y = s /\ forall i, i < s -> R (ui T (o + i)) (get y i)) ->
    (forall r, r < P -> holds_vec (at_rank K ins r) NC x) -> (forall r, r < P -> NR <= length (at_rank K outs r)) ->
    exists ys w, vec_g2g K D ins outs = Some ys /\ length ys = P /\ (forall a, a < NR -> R a (w a)) /\
      forall r, r < P -> only_first NR (at_rank K outs r) (at_rank K ys r) /\ holds_vec (at_rank K ys r) NR w.
  Proof.
    intros R x ins outs HL Hin Hout. unfold vec_g2g.
    destruct (on_ranks_ok buf [] P (fun r => do s <- part_size T r;
        do input <- (if d_perm K D then to_part K S (at_rank K ins r) (vec0 K (nc K D)) else Some (at_rank K ins r));
        int_vec_g2l K D r input (vec0 K s))
      (fun r b => forall o s, nth_error (pa_parts T) r = Some (o, s) -> length b = s /\ forall i, i < s -> R (ui T (o + i)) (get b i)))
      as (locs & -> & HLen & Hlocs).
    { intros r Hr. destruct (part_nth T P HT r Hr) as (o & s & E & _). destruct (part_size_ok T r o s E) as [-> _].
      destruct (Hin r Hr) as [Hi1 Hi2].
      destruct (input_ok K D S P (at_rank K ins r) (nc K D) HS eq_refl Hi1) as (inp & -> & L & G).
      destruct (HL r o s inp E L) as (y & -> & L1 & V).
      { intros j Hj. rewrite (G j Hj). apply Hi2. apply (user_index_lt S P HS). exact Hj. }
      exists y. split; [reflexivity|]. intros o' s' E'. rewrite E in E'. injection E' as <- <-. split; assumption. }
    rewrite (part_counts_ok T P HT 1).
    set (ag := fun recv => allgatherv K P (map (fun os => (snd os * 1)) (pa_parts T)) (prefix_sums 0 (map (fun os => (snd os * 1)) (pa_parts T))) locs recv).
    assert (HAG : forall recv, NR <= length recv -> exists b, ag recv = Some b /\ only_first NR recv b /\
       forall i, i < NR -> exists r o s, nth_error (pa_parts T) r = Some (o, s) /\ o <= i < o + s /\ r < P /\ get b i = get (at_rank K locs r) (i - o)).
    { intros recv Hr. destruct (allgatherv_ok K T P 1 locs recv HT) as (b & E1 & E2 & E3).
      - intros r o s E. assert (Hr' : r < P) by (rewrite <- (po_count _ _ HT); apply nth_error_Some; congruence).
        destruct (Hlocs r Hr' o s E) as [L _]. unfold at_rank. rewrite L. lia.
      - lia.
      - exists b. split; [exact E1|]. rewrite Nat.mul_1_r in E2. split; [exact E2|]. intros i Hi.
        destruct (part_find T P HT i Hi) as (r & o & s & Hr' & E & B0). exists r, o, s. split; [exact E|]. split; [exact B0|]. split; [exact Hr'|].
        specialize (E3 r o s E (i - o) ltac:(lia)). rewrite Nat.mul_1_r in E3. replace (o + (i - o)) with i in E3 by lia. exact E3. }
    destruct (HAG (vec0 K NR)) as (b0 & A0 & [A1 _] & A2); [rewrite length_vec0; lia|]. rewrite length_vec0 in A1.
    assert (HAG' : forall recv, NR <= length recv -> exists b, ag recv = Some b /\ only_first NR recv b /\ forall i, i < NR -> get b i = get b0 i).
    { intros recv Hr. destruct (allgatherv_ok K T P 1 locs recv HT) as (b & E1 & E2 & E3).
      - intros r o s E. assert (Hr' : r < P) by (rewrite <- (po_count _ _ HT); apply nth_error_Some; congruence).
        destruct (Hlocs r Hr' o s E) as [L _]. unfold at_rank. rewrite L. lia.
      - lia.
      - exists b. split; [exact E1|]. rewrite Nat.mul_1_r in E2. split; [exact E2|]. intros i Hi.
        destruct (A2 i Hi) as (r & o & s & E & B0 & Hr' & ->). specialize (E3 r o s E (i - o) ltac:(lia)). rewrite Nat.mul_1_r in E3. replace (o + (i - o)) with i in E3 by lia. exact E3. }
    assert (V0 : forall i, i < NR -> R (ui T i) (get b0 i)).
    { intros i Hi. destruct (A2 i Hi) as (r & o & s & E & B0 & Hr' & ->). destruct (Hlocs r Hr' o s E) as [_ V]. specialize (V (i - o) ltac:(lia)).
      replace (o + (i - o)) with i in V by lia. exact V. }
    destruct (d_perm K D) eqn:Ep.
    - destruct (to_user_ok K T P b0 (vec0 K NR) HT) as (w & W1 & [W2 _] & W3); [lia|rewrite length_vec0; lia|].
      destruct (on_ranks_ok buf [] P (fun r => do b <- ag (vec0 K (nr K D)); to_user K T b (at_rank K outs r))
        (fun r b => only_first NR (at_rank K outs r) b /\ holds_vec b NR (get w))) as (ys & E1 & E2 & E3).
      + intros r Hr. specialize (Hout r Hr). unfold nr. rewrite A0.
        destruct (to_user_ok K T P b0 (at_rank K outs r) HT) as (y & F1 & F2 & F3); [lia|exact Hout|].
        exists y. split; [exact F1|]. split; [exact F2|]. destruct F2 as [F2 _]. split; [lia|]. intros a Ha.
        destruct (user_index_surj T P HT true a Ha) as (i & Hi & <-). rewrite F3, W3 by exact Hi. reflexivity.
      + exists ys, (get w). split; [exact E1|]. split; [exact E2|]. split; [|exact E3].
        intros a Ha. destruct (user_index_surj T P HT true a Ha) as (i & Hi & <-). rewrite W3 by exact Hi. exact (V0 i Hi).
    - destruct (on_ranks_ok buf [] P (fun r => ag (at_rank K outs r))
        (fun r b => only_first NR (at_rank K outs r) b /\ holds_vec b NR (get b0))) as (ys & E1 & E2 & E3).
      + intros r Hr. destruct (HAG' (at_rank K outs r) (Hout r Hr)) as (b & F1 & F2 & F3). exists b. split; [exact F1|]. split; [exact F2|]. split; [destruct F2; specialize (Hout r Hr); lia|exact F3].
      + exists ys, (get b0). split; [exact E1|]. split; [exact E2|]. split; [|exact E3]. exact V0.
  Qed.
End Any.
