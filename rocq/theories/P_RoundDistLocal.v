(** * Properties C88 and C89 for the product between local vectors.

    Vocabulary: DistModel.v ([vec_l2l]), DistSpec.v ([partition_local]: the renumbering keeps every part; [part_of]), otherwise as in P_RoundDist.v and P_RoundDistTotal.v. *)

From Coq Require Import List Arith ZArith Bool Lia Ring Reals Lra Permutation.
From Verif Require Import ClusterModel ClusterSpec IOModel BlockModel BlockSpec P_Block Algebra BlasModel BlasProofs HMatModel HMatSpec HMatBuild P_HMat
  RealNum CompModel CompReal CompSpec P_Comp AccSpec AccProofs P_Acc DistModel DistSpec DistProofs DistVec DistMat DistLink P_Dist DAccSpec DAccProofs P_DAcc P_DAccLocal
  RoundModel RoundSpec RoundProofs RoundLoops RoundRef P_Round P_RoundTotal RoundDistModel RoundDistProofs P_RoundDist P_RoundDistTotal.
Import ListNotations.

Section Any.
  Variable K : Coef.
  Notation buf := (list (car K)).
  Variable D : dop K.
  Notation P := (world K D).
  Notation T := (d_t K D).
  Notation S := (d_s K D).
  Notation NC := (pa_n (d_s K D)).
  Hypothesis HT : partition_ok T P.
  Hypothesis HS : partition_ok S P.
  Hypothesis Hp : d_perm K D = true.
  Hypothesis HTl : partition_local T.
  Hypothesis HSl : partition_local S.

  Lemma vec_l2l_any : forall (R : nat -> car K -> Prop) x ins outs works,
    (forall r o s inp, nth_error (pa_parts T) r = Some (o, s) -> NC <= length inp -> (forall j, j < NC -> get inp j = x (user_index true S j)) ->
      exists y, int_vec_g2l K D r inp (vec0 K s) = Some y /\ length y = s /\ forall i, i < s -> R (user_index true T (o + i)) (get y i)) ->
    (forall r o s, r < P -> nth_error (pa_parts S) r = Some (o, s) -> holds_vec (at_rank K ins r) s (part_of o x)) ->
    (forall r o s, r < P -> nth_error (pa_parts T) r = Some (o, s) -> s <= length (at_rank K outs r)) ->
    (forall r, r < P -> NC <= length (at_rank K works r)) ->
    exists ys, vec_l2l K D ins outs works = Some ys /\ length ys = P /\
      forall r o s, r < P -> nth_error (pa_parts T) r = Some (o, s) ->
        only_first s (at_rank K outs r) (at_rank K ys r) /\ forall i, i < s -> R (o + i) (get (at_rank K ys r) i).
  Proof.
    intros R x ins outs works HL Hin Hout Hw. unfold vec_l2l. rewrite Hp.
    destruct (on_ranks_ok buf [] P (fun r => do s <- part_size S r; to_part_local K S r (at_rank K ins r) (vec0 K s))
      (fun r b => forall o s, nth_error (pa_parts S) r = Some (o, s) -> holds_vec b s (fun i => x (user_index true S (o + i))))) as (ip & -> & Lip & Hip).
    { intros r Hr. destruct (part_nth S P HS r Hr) as (o & s & E & _). destruct (part_size_ok S r o s E) as [-> _].
      destruct (local_input K D S x r o s (at_rank K ins r) HS (fun _ => HSl) E (Hin r o s Hr E)) as [H1 _]. destruct (H1 Hp) as (y & E1 & E2). rewrite Hp in E2.
      exists y. split; [exact E1|]. intros o' s' E'. rewrite E in E'. injection E' as <- <-. exact E2. }
    destruct (on_ranks_ok buf [] P (fun r => do s <- part_size T r; Some (vec0 K s))
      (fun r b => forall o s, nth_error (pa_parts T) r = Some (o, s) -> b = vec0 K s)) as (op & -> & Lop & Hop).
    { intros r Hr. destruct (part_nth T P HT r Hr) as (o & s & E & _). destruct (part_size_ok T r o s E) as [-> _]. eexists. split; [reflexivity|].
      intros o' s' E'. rewrite E in E'. injection E' as <- <-. reflexivity. }
    unfold int_vec_l2l.
    destruct (l2g_source_ok K D HS 1 ip works (fun j => x (user_index true S j))) as (bs & -> & Lb & Hb).
    { intros r o s Hr E. destruct (Hip r Hr o s E) as [L V]. rewrite !Nat.mul_1_r. split; [exact L|]. intros k Hk. apply V. exact Hk. }
    { intros r Hr. rewrite Nat.mul_1_r. apply Hw. exact Hr. }
    destruct (on_ranks_ok buf [] P (fun r => int_vec_g2l K D r (at_rank K bs r) (at_rank K op r))
      (fun r b => forall o s, nth_error (pa_parts T) r = Some (o, s) -> length b = s /\ forall i, i < s -> R (user_index true T (o + i)) (get b i))) as (os & -> & Los & Hos).
    { intros r Hr. destruct (part_nth T P HT r Hr) as (o & s & E & _). destruct (Hb r Hr) as [L V]. rewrite Nat.mul_1_r in L, V.
      unfold at_rank at 2. rewrite (Hop r Hr o s E). destruct (HL r o s (at_rank K bs r) E L V) as (y & E1 & E2 & E3). exists y. split; [exact E1|].
      intros o' s' E'. rewrite E in E'. injection E' as <- <-. split; assumption. }
    destruct (on_ranks_ok buf [] P (fun r => to_user_local K T r (at_rank K os r) (at_rank K outs r))
      (fun r b => forall o s, nth_error (pa_parts T) r = Some (o, s) -> only_first s (at_rank K outs r) b /\ forall i, i < s -> R (o + i) (get b i))) as (ys & E1 & E2 & E3).
    { intros r Hr. destruct (part_nth T P HT r Hr) as (o & s & E & _). destruct (Hos r Hr o s E) as [L V].
      destruct (to_user_local_ok K T P r o s HT HTl E (at_rank K os r) (at_rank K outs r)) as (b & G1 & G2 & G3); [unfold at_rank; rewrite L; apply le_n|exact (Hout r o s Hr E)|].
      exists b. split; [exact G1|]. intros o' s' E'. rewrite E in E'. injection E' as <- <-. split; [exact G2|]. intros a Ha.
      destruct (local_surj T P r o s HT HTl E a Ha) as (i & Hi & Ei). specialize (G3 i Hi). specialize (V i Hi). rewrite Ei in G3, V.
      replace (o + a - o) with a in G3 by lia. rewrite G3. exact V. }
    exists ys. split; [exact E1|]. split; [exact E2|]. intros r o s Hr E. exact (E3 r Hr o s E).
  Qed.
End Any.

Local Open Scope R_scope.

(** C88, local vectors.  Every process gives its part of x and gets its part of A x, each coefficient up to ((1+u)^N - 1) (|A| |x|). *)
Theorem C88_local_vectors :
  forall u B tp sp sy (ps : list (process Rc)) N, accurate_blas u B -> compat Rc TrN sy ->
    partition_ok tp (length ps) -> partition_ok sp (length ps) -> partition_local tp -> partition_local sp -> Forall2 (proc_ok Rc sp sy) (pa_parts tp) ps ->
    (forall p L Y i, In p ps -> hleaves Rc (pr_hmat Rc p) = Some (L, Y) -> (1 + 2 * length (pr_threads Rc p) + row_cost TrN L Y i <= N)%nat) ->
    forall x ins outs works,
      (forall r o s, (r < length ps)%nat -> nth_error (pa_parts sp) r = Some (o, s) -> holds_vec (K := Rc) (at_rank Rc ins r) s (part_of o x)) ->
      (forall r o s, (r < length ps)%nat -> nth_error (pa_parts tp) r = Some (o, s) -> (s <= length (at_rank Rc outs r))%nat) ->
      (forall r, (r < length ps)%nat -> (pa_n sp <= length (at_rank Rc works r))%nat) ->
      exists ys, vec_l2l Rc (r_hmat_operator B tp sp sy true ps) ins outs works = Some ys /\ length ys = length ps /\
        forall r o s, (r < length ps)%nat -> nth_error (pa_parts tp) r = Some (o, s) ->
          only_first (K := Rc) s (at_rank Rc outs r) (at_rank Rc ys r) /\
          forall i, (i < s)%nat -> Rabs (get (K := Rc) (at_rank Rc ys r) i - mul (K := Rc) (pa_n sp) (op_matrix Rc tp sp sy ps) x (o + i)) <=
            gam u N * rsum (pa_n sp) (fun b => op_abs tp sp ps (o + i) b * Rabs (x b)).
Proof.
  intros u B tp sp sy ps N HB Hsy HT HS HTl HSl HP HN x ins outs works Hin Hout Hw.
  pose proof (rop_length B tp sp sy ps HP) as HW.
  destruct (vec_l2l_any Rc (r_hmat_operator B tp sp sy true ps)) with (R := fun a z => near u N z (mul (K := Rc) (pa_n sp) (op_matrix Rc tp sp sy ps) x a) (rsum (pa_n sp) (fun b => op_abs tp sp ps a b * Rabs (x b))))
    (x := x) (ins := ins) (outs := outs) (works := works) as (ys & E1 & E2 & E3); rewrite ?HW; try assumption; try reflexivity.
  - intros r o s inp E Hl Hx. exact (local_round u B tp sp sy ps N HB Hsy HT HS HP HN x r o s inp E Hl Hx).
  - rewrite HW in E2, E3. exists ys. split; [exact E1|]. split; [exact E2|]. intros r o s Hr E. destruct (E3 r o s Hr E) as [F G]. split; [exact F|].
    intros i Hi. exact (proj1 (G i Hi)).
Qed.
Print Assumptions C88_local_vectors.

(** C89, local vectors. *)
Theorem C89_local_vectors :
  forall sy B (G : nat -> nat -> car Rc) compress T S fuel tp sp (ps : list (process Rc)) eps tol u BL N,
    dist_inputs (K := Rc) sy B G compress T S fuel tp sp ps -> compress_ok Rc compress ->
    partition_ok tp (length ps) -> partition_ok sp (length ps) -> partition_local tp -> partition_local sp -> 0 <= eps -> 0 <= tol ->
    accurate (K := Rc) Rabs eps tol (cluster_order tp sp G) compress -> accurate_blas u BL ->
    (forall p L Y i, In p ps -> hleaves Rc (pr_hmat Rc p) = Some (L, Y) -> (1 + 2 * length (pr_threads Rc p) + row_cost TrN L Y i <= N)%nat) ->
    forall x ins outs works,
      (forall r o s, (r < length ps)%nat -> nth_error (pa_parts sp) r = Some (o, s) -> holds_vec (K := Rc) (at_rank Rc ins r) s (part_of o x)) ->
      (forall r o s, (r < length ps)%nat -> nth_error (pa_parts tp) r = Some (o, s) -> (s <= length (at_rank Rc outs r))%nat) ->
      (forall r, (r < length ps)%nat -> (pa_n sp <= length (at_rank Rc works r))%nat) ->
      exists ys, vec_l2l Rc (r_hmat_operator BL tp sp sy true ps) ins outs works = Some ys /\ length ys = length ps /\
        forall r o s, (r < length ps)%nat -> nth_error (pa_parts tp) r = Some (o, s) ->
          only_first (K := Rc) s (at_rank Rc outs r) (at_rank Rc ys r) /\
          vnorm (K := Rc) Rabs s (fun i => get (K := Rc) (at_rank Rc ys r) i - rsum (pa_n sp) (fun b => G (o + i)%nat b * x b))
          <= (eps * fnorm (K := Rc) Rabs (pa_n tp) (pa_n sp) G + tol * sqrt (INR (pa_n tp * pa_n sp))) * vnorm (K := Rc) Rabs (pa_n sp) x
             + gam u N * vnorm (K := Rc) Rabs s (fun i => rsum (pa_n sp) (fun b => op_abs tp sp ps (o + i)%nat b * Rabs (x b))).
Proof.
  intros sy B G compress T S fuel tp sp ps eps tol u BL N HI Hco HPt HPs HTl HSl He Ht Hac HBL HN x ins outs works Hin Hout Hw.
  pose proof (inputs_ok Rc sy B G compress T S fuel tp sp ps HI Hco HPt HPs) as HP.
  pose proof (inputs_compat Rc sy B G compress T S fuel tp sp ps HI) as Hc.
  destruct (C88_local_vectors u BL tp sp sy ps N HBL Hc HPt HPs HTl HSl HP HN x ins outs works Hin Hout Hw) as (ys & E1 & E2 & E3).
  exists ys. split; [exact E1|]. split; [exact E2|]. intros r o s Hr E. destruct (E3 r o s Hr E) as [F Q]. split; [exact F|].
  assert (Hos : (o + s <= pa_n tp)%nat) by (exact (proj2 (tiles_in _ _ _ _ _ _ (po_tiles _ _ HPt) E))).
  set (A := op_matrix Rc tp sp sy ps) in *.
  eapply Rle_trans; [apply (vnorm_triangle s (fun i => mul (K := Rc) (pa_n sp) A x (o + i)%nat - rsum (pa_n sp) (fun b => G (o + i)%nat b * x b))
    (fun i => get (K := Rc) (at_rank Rc ys r) i - mul (K := Rc) (pa_n sp) A x (o + i)%nat)); intros a _; ring|].
  apply Rplus_le_compat.
  - exact (rows_error Rc Rabs C67_modulus_real sy B G compress T S fuel tp sp ps eps tol HI Hco HPt HPs He Ht Hac o s x (fun i => mul (K := Rc) (pa_n sp) A x (o + i)%nat) Hos (fun i _ => eq_refl)).
  - apply vnorm_le; [apply gam_pos; exact (ab_u u BL HBL)|]. intros i Hi. eapply Rle_trans; [exact (Q i Hi)|].
    apply Rmult_le_compat_l; [apply gam_pos; exact (ab_u u BL HBL)|]. apply Rle_abs.
Qed.
Print Assumptions C89_local_vectors.

(** ** The hypotheses hold for the five processes of P_DAccLocal.v. *)
Example ex_C89_local : exists ps N, length ps = 5%nat /\ dist_inputs (K := Rc) SyS P_DAcc.exL user_gen loc_compress exT exT 200 loc_part loc_part ps /\
  partition_ok loc_part (length ps) /\ partition_local loc_part /\
  (forall p L Y i, In p ps -> hleaves Rc (pr_hmat Rc p) = Some (L, Y) -> (1 + 2 * length (pr_threads Rc p) + row_cost TrN L Y i <= N)%nat).
Proof.
  destruct C69_local_hyps as (H1 & H2 & _ & _ & _ & ps & L & HI). destruct (C89_number_of_roundings ps) as [N HN]. exists ps, N.
  split; [exact L|]. split; [exact HI|]. rewrite L. auto.
Qed.
