(** * Property C90: rounding errors of the distributed product by the transpose.

    Vocabulary: RoundTransModel.v ([r_tvec_g2g], [accurate_sum], [stree]), DistSpec.v ([partition_ok], [holds_vec], [only_first], [tmul]), DistLink.v ([process], [proc_ok],
    [op_matrix]: as in C41), RoundDistModel.v ([r_hmat_operator]), RoundSpec.v ([accurate_blas], [gam], [row_cost]: as in C86), P_RoundDist.v ([op_abs]: as in C88).
    Real coefficients. *)

From Coq Require Import List Arith ZArith Bool Lia Ring Reals Lra Permutation.
From Verif Require Import ClusterModel ClusterSpec ClusterProofs ClusterMore IOModel BlockModel BlockSpec Algebra BlasModel BlasProofs HMatModel HMatSpec HMatTop
  DistModel DistSpec DistProofs DistVec DistMat DistLink RealNum CompReal RoundModel RoundSpec RoundProofs RoundLoops RoundRef P_Round RoundDistModel RoundDistProofs P_RoundDist RoundTransModel.
Import ListNotations.
Local Open Scope R_scope.

(** ** Sums *)
Lemma lsum_abs : forall A (l : list A) (f : A -> R), Rabs (lsum (K := Rc) l f) <= lsum (K := Rc) l (fun a => Rabs (f a)).
Proof.
  intros A l f. induction l as [|a l IH]; cbn [lsum]; [change (Rabs 0 <= 0); rewrite Rabs_R0; lra|].
  change (Rabs (f a + lsum (K := Rc) l f) <= Rabs (f a) + lsum (K := Rc) l (fun b => Rabs (f b))). pose proof (Rabs_triang (f a) (lsum (K := Rc) l f)) as Q.
  eapply Rle_trans; [exact Q|]. apply Rplus_le_compat_l. exact IH.
Qed.
Lemma lsum_near : forall u, 0 <= u -> forall (l : list nat) N (z S A : nat -> R), (forall r, In r l -> near u N (z r) (S r) (A r)) ->
  near u N (lsum (K := Rc) l z) (lsum (K := Rc) l S) (lsum (K := Rc) l A) /\ lsum (K := Rc) l (fun r => Rabs (z r)) <= (1 + u) ^ N * lsum (K := Rc) l A.
Proof.
  intros u Hu l N z S A. induction l as [|r l IH]; intros H; cbn [lsum].
  - unfold near. change (c0 Rc) with 0. split; [split; [rewrite Rminus_0_r, Rabs_R0; lra|rewrite Rabs_R0; lra]|lra].
  - destruct IH as [I1 I2]; [intros q Hq; apply H; right; exact Hq|]. specialize (H r (or_introl eq_refl)). split.
    + exact (near_plus u N _ _ _ _ _ _ H I1).
    + pose proof (near_abs u N _ _ _ H) as Q.
      change (Rabs (z r) + lsum (K := Rc) l (fun r0 => Rabs (z r0)) <= (1 + u) ^ N * (A r + lsum (K := Rc) l A)). lra.
Qed.
Lemma red_near : forall u red, 0 <= u -> accurate_sum u red -> forall r i P N (z S A : nat -> R), (forall q, (q < P)%nat -> near u N (z q) (S q) (A q)) ->
  near u (N + P) (red r i (map z (seq 0 P))) (lsum (K := Rc) (seq 0 P) S) (lsum (K := Rc) (seq 0 P) A).
Proof.
  intros u red Hu Hred r i P N z S A H.
  destruct (lsum_near u Hu (seq 0 P) N z S A) as [[I1 I3] I2]; [intros q Hq; apply in_seq in Hq; apply H; lia|]. split; [|exact I3].
  specialize (Hred r i (map z (seq 0 P))). rewrite map_length, seq_length in Hred. rewrite !lsum_map in Hred.
  set (T := lsum (K := Rc) (seq 0 P) (fun a => Rabs (z a))) in *. set (Z := lsum (K := Rc) (seq 0 P) z) in *.
  change (lsum (K := Rc) (seq 0 P) (fun a => z a)) with Z in Hred.
  set (X := lsum (K := Rc) (seq 0 P) S) in *. set (Y := lsum (K := Rc) (seq 0 P) A) in *. set (y := red r i (map z (seq 0 P))) in *.
  replace (y - X) with ((y - Z) + (Z - X)) by ring. pose proof (Rabs_triang (y - Z) (Z - X)) as Q.
  assert (G : gam u P * T <= gam u P * ((1 + u) ^ N * Y)) by (apply Rmult_le_compat_l; [apply gam_pos; exact Hu|exact I2]).
  assert (E : gam u (N + P) = gam u P * (1 + u) ^ N + gam u N) by (unfold gam; rewrite pow_add; ring).
  rewrite E. lra.
Qed.

(** MPI_Allreduce as every process sees it *)
Lemma r_allreduce_ok : forall red n (bs : list vec) r, (r < length bs)%nat -> (forall b, In b bs -> (n <= length b)%nat) ->
  exists y, r_allreduce red n bs r = Some y /\ only_first (K := Rc) n (at_rank Rc bs r) y /\
    forall i, (i < n)%nat -> get (K := Rc) y i = red r i (map (fun b => get (K := Rc) b i) bs).
Proof.
  intros red n bs r Hr Hb. unfold r_allreduce.
  assert (E : forallb (fun b : vec => (n <=? length b)%nat) bs = true) by (apply forallb_forall; intros b Q; apply Nat.leb_le; exact (Hb b Q)).
  rewrite E. destruct (head_get n (fun i => red r i (map (fun b => get (K := Rc) b i) bs)) (at_rank Rc bs r)) as (F1 & F2 & F3); [apply Hb; apply nth_In; exact Hr|].
  eexists. split; [reflexivity|]. split; [split; [exact F1|exact F3]|exact F2].
Qed.

Section Proofs.
  Variables (u : R) (B : blas) (red : nat -> nat -> list R -> R) (tp sp : partition) (ps : list (process Rc)) (N : nat).
  Hypothesis HB : accurate_blas u B.
  Hypothesis Hred : accurate_sum u red.
  Hypothesis HT : partition_ok tp (length ps).
  Hypothesis HS : partition_ok sp (length ps).
  Hypothesis HP : Forall2 (proc_ok Rc sp SyN) (pa_parts tp) ps.
  Hypothesis HN : forall p L Y i, In p ps -> hleaves Rc (pr_hmat Rc p) = Some (L, Y) -> (1 + 2 * length (pr_threads Rc p) + row_cost TrT L Y i <= N)%nat.
  Notation D := (r_hmat_operator B tp sp SyN true ps).
  Notation M i j := (op_matrix Rc tp sp SyN ps (user_index true tp i) (user_index true sp j)).
  Notation MA i j := (op_abs tp sp ps (user_index true tp i) (user_index true sp j)).

  Lemma local_tround : forall r o s (inp out : vec), nth_error (pa_parts tp) r = Some (o, s) -> (s <= length inp)%nat -> (pa_n sp <= length out)%nat ->
    exists y, (do b <- fill0 Rc (pa_n sp) out; fold_opt Rc (fun v b => vl_tvec Rc v (c1 Rc) inp (c1 Rc) b) (ops_of Rc D r) b) = Some y /\ only_first (K := Rc) (pa_n sp) out y /\
      forall j, (j < pa_n sp)%nat -> near u N (get (K := Rc) y j) (rsum s (fun i => M (o + i)%nat j * get (K := Rc) inp i)) (rsum s (fun i => MA (o + i)%nat j * Rabs (get (K := Rc) inp i))).
  Proof.
    intros r o s inp out E Hi Ho. destruct (rop_at B tp sp SyN ps HP r (o, s) E) as (p & Ep & (L & Y & HL & W & P1 & P2 & I1 & I2) & Hop).
    rewrite Hop. destruct (fill0_ok Rc (pa_n sp) out Ho) as (y0 & -> & F0 & Z0).
    cbn [fold_opt]. unfold vlop_of. cbn [vl_tvec]. unfold lo_add_tvec. cbn [lo_s lo_t lo_suse lo_tuse lo_vec lo_vecs r_local_hmatrix fst snd].
    assert (S1 : c_off (h_t (rt_val (pr_hmat Rc p))) = o /\ c_size (h_t (rt_val (pr_hmat Rc p))) = s) by (unfold interval in I1; injection I1 as A1 A2; split; assumption).
    assert (S2 : c_off (h_s (rt_val (pr_hmat Rc p))) = 0%nat /\ c_size (h_s (rt_val (pr_hmat Rc p))) = pa_n sp) by (unfold interval in I2; injection I2 as A1 A2; split; assumption).
    destruct S1 as [O1 S1], S2 as [O2 S2].
    destruct (omp_round u B HB (rt_val (pr_hmat Rc p)) L Y SyN W TrT I (pr_hmat Rc p) (pr_threads Rc p) (c1 Rc) (c1 Rc) inp y0 eq_refl P1 P2) as (y' & R1 & R2 & R3 & R4).
    { unfold in_cl. cbn [is_N]. rewrite S1. exact Hi. } { unfold out_cl. cbn [is_N]. rewrite S2. destruct F0 as [F0 _]. rewrite F0. exact Ho. }
    unfold in_cl, out_cl in R3, R4. cbn [is_N] in R3, R4. rewrite S2 in R3, R4. rewrite O2 in R3.
    destruct (write_at_0 Rc y0 0%nat (fun w => lo_dispatch Rc (r_local_hmatrix B (pr_threads Rc p) (pr_hmat Rc p) (o, s) (0%nat, pa_n sp) SyN)
      (r_omp_vec B (pr_threads Rc p) TrT (c1 Rc) (pr_hmat Rc p) inp (c1 Rc) w) (r_omp_vec B (pr_threads Rc p) TrT (c1 Rc) (pr_hmat Rc p) inp (c1 Rc) w) (Some w)) y')
      as (y & G1 & G2 & _ & G4); [lia|cbn [skipn]; rewrite (dispatch_sy SyN I) by reflexivity; exact R1|rewrite R2; lia|].
    rewrite G1. exists y. split; [reflexivity|]. split.
    - apply (only_first_trans _ _ _ _ _ F0). split; [exact G2|]. intros q Hq. rewrite <- (R4 q Hq). exact (G4 q).
    - intros j Hj. pose proof (G4 j) as G5. cbn [Nat.add] in G5. rewrite G5. specialize (R3 j Hj).
      assert (HNp := HN p L Y (0 + j) (nth_error_In _ _ Ep) HL). rewrite Nat.add_assoc in R3.
      apply (near_mono u (ab_u u B HB) _ N) in R3; [|exact HNp].
      assert (Ent : forall i, (i < s)%nat -> M (o + i)%nat j = value L Y SyN (o + i) j /\ MA (o + i)%nat j = abs_value L Y (o + i) j).
      { intros i Hi'. apply (entries tp sp SyN ps HT HS r (o, s) p (o + i) j L Y E Ep); [|exact Hj|exact HL].
        unfold in_iv; cbn [fst snd]; apply andb_true_iff; split; [apply Nat.leb_le|apply Nat.ltb_lt]; lia. }
      assert (X1 : exact_row (rt_val (pr_hmat Rc p)) (value L Y SyN) TrT (c1 Rc) (c1 Rc) inp y0 j = rsum s (fun i => M (o + i)%nat j * get (K := Rc) inp i)).
      { unfold exact_row, in_cl, out_cl. cbn [is_N]. rewrite O1, O2, S1, (Z0 j Hj). cbn [c0 c1 Rc car]. rewrite Rmult_0_r, Rplus_0_l, Rmult_1_l.
        apply rsum_ext. intros i Hi'. cbn [op_fun Nat.add]. rewrite (proj1 (Ent i Hi')). reflexivity. }
      assert (X2 : abs_row (rt_val (pr_hmat Rc p)) (abs_value L Y) TrT (c1 Rc) (c1 Rc) inp y0 j = rsum s (fun i => MA (o + i)%nat j * Rabs (get (K := Rc) inp i))).
      { unfold abs_row, in_cl, out_cl. cbn [is_N]. rewrite O1, O2, S1, (Z0 j Hj). cbn [c0 c1 Rc car]. rewrite Rabs_R0, Rabs_R1, Rmult_0_r, Rplus_0_l, Rmult_1_l.
        apply rsum_ext. intros i Hi'. cbn [op_fun Nat.add]. rewrite (proj2 (Ent i Hi')). reflexivity. }
      rewrite X1, X2 in R3. exact R3.
  Qed.

  (** the sums over the processes are sums over all the rows *)
  Lemma ranks_sum : forall f : nat -> R, lsum (K := Rc) (seq 0 (length ps)) (fun r => rsum (snd (nth r (pa_parts tp) (0, 0)%nat)) (fun i => f (fst (nth r (pa_parts tp) (0, 0)%nat) + i)%nat)) =
    rsum (pa_n tp) f.
  Proof.
    intros f. rewrite <- (po_count _ _ HT).
    transitivity (lsum (K := Rc) (pa_parts tp) (fun os => rsum (snd os) (fun i => f (fst os + i)%nat))).
    - symmetry. exact (lsum_nth Rc (nat * nat) (0, 0)%nat (pa_parts tp) (fun os => rsum (snd os) (fun i => f (fst os + i)%nat))).
    - transitivity (rsum (pa_n tp - 0) (fun i => f (0 + i)%nat)); [exact (tiles_sum Rc _ _ _ f (po_tiles _ _ HT))|]. rewrite Nat.sub_0_r. reflexivity.
  Qed.

  Lemma r_l2g : forall x ins outs,
    (forall r o s, (r < length ps)%nat -> nth_error (pa_parts tp) r = Some (o, s) -> holds_vec (K := Rc) (at_rank Rc ins r) s (fun i => x (user_index true tp (o + i)%nat))) ->
    (forall r, (r < length ps)%nat -> (pa_n sp <= length (at_rank Rc outs r))%nat) ->
    exists ys, r_int_tvec_l2g red D ins outs = Some ys /\ length ys = length ps /\
      forall r, (r < length ps)%nat -> only_first (K := Rc) (pa_n sp) (at_rank Rc outs r) (at_rank Rc ys r) /\
        forall j, (j < pa_n sp)%nat -> near u (N + length ps) (get (K := Rc) (at_rank Rc ys r) j)
          (tmul (K := Rc) (pa_n tp) (op_matrix Rc tp sp SyN ps) x (user_index true sp j))
          (rsum (pa_n tp) (fun a => op_abs tp sp ps a (user_index true sp j) * Rabs (x a))).
  Proof.
    intros x ins outs Hin Hout. unfold r_int_tvec_l2g. rewrite (rop_length B tp sp SyN ps HP). unfold nc. cbn [d_s r_hmat_operator].
    set (So := fun j r => rsum (snd (nth r (pa_parts tp) (0, 0)%nat)) (fun i => (fun a => M a j * x (user_index true tp a)) (fst (nth r (pa_parts tp) (0, 0)%nat) + i)%nat)).
    set (Ao := fun j r => rsum (snd (nth r (pa_parts tp) (0, 0)%nat)) (fun i => (fun a => MA a j * Rabs (x (user_index true tp a))) (fst (nth r (pa_parts tp) (0, 0)%nat) + i)%nat)).
    destruct (on_ranks_ok vec [] (length ps) (fun r => do o <- fill0 Rc (pa_n sp) (at_rank Rc outs r);
        fold_opt Rc (fun v b => vl_tvec Rc v (c1 Rc) (at_rank Rc ins r) (c1 Rc) b) (ops_of Rc D r) o)
      (fun r b => only_first (K := Rc) (pa_n sp) (at_rank Rc outs r) b /\ forall j, (j < pa_n sp)%nat -> near u N (get (K := Rc) b j) (So j r) (Ao j r)))
      as (parts & Eparts & HL & Hparts).
    { intros r Hr. destruct (part_nth tp _ HT r Hr) as (o & s & E & _). destruct (Hin r o s Hr E) as [L V].
      destruct (local_tround r o s (at_rank Rc ins r) (at_rank Rc outs r) E L (Hout r Hr)) as (y & E1 & F & G).
      exists y. split; [exact E1|]. split; [exact F|]. intros j Hj. specialize (G j Hj). unfold So, Ao. rewrite (nth_error_nth _ _ (0, 0)%nat E). cbn [fst snd].
      assert (X1 : rsum s (fun i => M (o + i)%nat j * get (K := Rc) (at_rank Rc ins r) i) = rsum s (fun i => M (o + i)%nat j * x (user_index true tp (o + i)%nat)))
        by (apply rsum_ext; intros i Hi; rewrite (V i Hi); reflexivity).
      assert (X2 : rsum s (fun i => MA (o + i)%nat j * Rabs (get (K := Rc) (at_rank Rc ins r) i)) = rsum s (fun i => MA (o + i)%nat j * Rabs (x (user_index true tp (o + i)%nat))))
        by (apply rsum_ext; intros i Hi; rewrite (V i Hi); reflexivity).
      rewrite X1, X2 in G. exact G. }
    rewrite Eparts.
    apply (on_ranks_ok vec [] (length ps) _ (fun r b => only_first (K := Rc) (pa_n sp) (at_rank Rc outs r) b /\
      forall j, (j < pa_n sp)%nat -> near u (N + length ps) (get (K := Rc) b j) (tmul (K := Rc) (pa_n tp) (op_matrix Rc tp sp SyN ps) x (user_index true sp j))
        (rsum (pa_n tp) (fun a => op_abs tp sp ps a (user_index true sp j) * Rabs (x a))))).
    intros r Hr. destruct (r_allreduce_ok red (pa_n sp) parts r) as (b & E1 & F & V); [lia| |].
    { intros b Hb. destruct (In_nth _ _ [] Hb) as (r' & Hr' & <-). rewrite HL in Hr'. destruct (Hparts r' Hr') as [[F1 _] _]. rewrite F1. apply Hout. exact Hr'. }
    exists b. split; [exact E1|]. destruct (Hparts r Hr) as [F0 _]. split; [exact (only_first_trans _ _ _ _ _ F0 F)|].
    intros j Hj. rewrite V by exact Hj.
    assert (EM : map (fun b0 => get (K := Rc) b0 j) parts = map (fun q => get (K := Rc) (nth q parts []) j) (seq 0 (length ps))).
    { rewrite <- HL. apply nth_ext with (d := get (K := Rc) [] j) (d' := get (K := Rc) (nth 0%nat parts []) j); [rewrite !map_length, seq_length; reflexivity|].
      intros n Hn. rewrite map_length in Hn. rewrite (map_nth (fun b0 => get (K := Rc) b0 j)), (map_nth (fun q => get (K := Rc) (nth q parts []) j)).
      rewrite seq_nth by exact Hn. reflexivity. }
    rewrite EM. pose proof (red_near u red (ab_u u B HB) Hred r j (length ps) N (fun q => get (K := Rc) (nth q parts []) j) (So j) (Ao j)
      (fun q Hq => proj2 (Hparts q Hq) j Hj)) as Q.
    assert (Y1 : lsum (K := Rc) (seq 0 (length ps)) (So j) = tmul (K := Rc) (pa_n tp) (op_matrix Rc tp sp SyN ps) x (user_index true sp j)).
    { unfold So. etransitivity; [exact (ranks_sum (fun a => M a j * x (user_index true tp a)))|].
      exact (sum_user Rc tp (length ps) true (fun a => op_matrix Rc tp sp SyN ps a (user_index true sp j) * x a) HT). }
    assert (Y2 : lsum (K := Rc) (seq 0 (length ps)) (Ao j) = rsum (pa_n tp) (fun a => op_abs tp sp ps a (user_index true sp j) * Rabs (x a))).
    { unfold Ao. etransitivity; [exact (ranks_sum (fun a => MA a j * Rabs (x (user_index true tp a))))|].
      exact (sum_user Rc tp (length ps) true (fun a => op_abs tp sp ps a (user_index true sp j) * Rabs (x a)) HT). }
    rewrite Y1, Y2 in Q. exact Q.
  Qed.
End Proofs.

(** C90.  For every number of processes, every distribution of the leaves over the threads of each of them, every order of their critical sections and every sum over the
    processes whose error is at most one rounding per process, all processes get A^T x up to ((1+u)^(N+P) - 1) (|A|^T |x|): N counts the roundings inside one process, P is the
    number of processes.  The memory behind the outputs is unchanged.  The order of the sum may differ between the processes and between the coefficients. *)
Theorem C90_every_process :
  forall u B red tp sp (ps : list (process Rc)) N, accurate_blas u B -> accurate_sum u red ->
    partition_ok tp (length ps) -> partition_ok sp (length ps) -> Forall2 (proc_ok Rc sp SyN) (pa_parts tp) ps ->
    (forall p L Y i, In p ps -> hleaves Rc (pr_hmat Rc p) = Some (L, Y) -> (1 + 2 * length (pr_threads Rc p) + row_cost TrT L Y i <= N)%nat) ->
    forall x ins outs,
      (forall r, (r < length ps)%nat -> holds_vec (K := Rc) (at_rank Rc ins r) (pa_n tp) x) -> (forall r, (r < length ps)%nat -> (pa_n sp <= length (at_rank Rc outs r))%nat) ->
      exists ys, r_tvec_g2g red (r_hmat_operator B tp sp SyN true ps) ins outs = Some ys /\ length ys = length ps /\
        forall r, (r < length ps)%nat -> only_first (K := Rc) (pa_n sp) (at_rank Rc outs r) (at_rank Rc ys r) /\
          forall b, (b < pa_n sp)%nat ->
            Rabs (get (K := Rc) (at_rank Rc ys r) b - tmul (K := Rc) (pa_n tp) (op_matrix Rc tp sp SyN ps) x b)
            <= gam u (N + length ps) * rsum (pa_n tp) (fun a => op_abs tp sp ps a b * Rabs (x a)).
Proof.
  intros u B red tp sp ps N HB Hred HT HS HP HN x ins outs Hin Hout. unfold r_tvec_g2g. rewrite (rop_length B tp sp SyN ps HP). unfold nc, nr. cbn [d_sym d_perm d_t d_s r_hmat_operator].
  destruct (on_ranks_ok vec [] (length ps) (fun r =>
          do input <- to_part Rc tp (at_rank Rc ins r) (vec0 Rc (pa_n tp));
          do o <- part_off tp r;
          ptr Rc input o)
    (fun r b => forall o s, nth_error (pa_parts tp) r = Some (o, s) -> holds_vec (K := Rc) b s (fun i => x (user_index true tp (o + i)%nat))))
    as (inputs & E0 & HL & Hinp).
  { intros r Hr. destruct (part_nth tp _ HT r Hr) as (o & s & E & Hos). destruct (Hin r Hr) as [L V].
    destruct (input_ok Rc (r_hmat_operator B tp sp SyN true ps) tp (length ps) (at_rank Rc ins r) (pa_n tp) HT eq_refl L) as (inp & EI & L' & G).
    cbn [d_perm r_hmat_operator] in EI, G. rewrite EI. destruct (part_size_ok tp r o s E) as [_ ->].
    unfold ptr. destruct (Nat.leb_spec o (length inp)); [|lia]. eexists. split; [reflexivity|].
    intros o' s' E'. rewrite E in E'. injection E' as <- <-. split; [rewrite skipn_length; lia|].
    intros i Hi. rewrite get_skipn, G by lia. apply V. apply (user_index_lt tp _ HT). lia. }
  rewrite E0.
  destruct (r_l2g u B red tp sp ps N HB Hred HT HS HP HN x inputs (map (fun _ => vec0 Rc (pa_n sp)) (seq 0 (length ps)))) as (ys & E1 & HLy & Hys).
  { intros r o s Hr E. exact (Hinp r Hr o s E). }
  { intros r Hr. unfold at_rank. rewrite nth_indep with (d' := vec0 Rc (pa_n sp)) by (rewrite map_length, seq_length; exact Hr).
    rewrite (map_nth (fun _ => vec0 Rc (pa_n sp)) (seq 0 (length ps)) 0%nat r), length_vec0. apply Nat.le_refl. }
  rewrite E1.
  apply (on_ranks_ok vec [] (length ps) _ (fun r y => only_first (K := Rc) (pa_n sp) (at_rank Rc outs r) y /\
    forall b, (b < pa_n sp)%nat -> Rabs (get (K := Rc) y b - tmul (K := Rc) (pa_n tp) (op_matrix Rc tp sp SyN ps) x b)
      <= gam u (N + length ps) * rsum (pa_n tp) (fun a => op_abs tp sp ps a b * Rabs (x a)))).
  intros r Hr. destruct (Hys r Hr) as [[Ly _] Vy]. specialize (Hout r Hr).
  assert (Lv : length (at_rank Rc (map (fun _ : nat => vec0 Rc (pa_n sp)) (seq 0 (length ps))) r) = pa_n sp).
  { unfold at_rank. rewrite nth_indep with (d' := vec0 Rc (pa_n sp)) by (rewrite map_length, seq_length; exact Hr).
    rewrite (map_nth (fun _ => vec0 Rc (pa_n sp)) (seq 0 (length ps)) 0%nat r), length_vec0. reflexivity. }
  destruct (to_user_ok Rc sp (length ps) (at_rank Rc ys r) (at_rank Rc outs r) HS) as (y & F1 & F2 & F3); [lia|exact Hout|].
  exists y. split; [exact F1|]. split; [exact F2|]. intros b Hb.
  destruct (user_index_surj sp _ HS true b Hb) as (j & Hj & <-). rewrite F3 by exact Hj. exact (proj1 (Vy j Hj)).
Qed.
Print Assumptions C90_every_process.

(** The sum in any order, each addition rounded with a relative error u, is such a sum. *)
Theorem C90_any_order : forall u add, 0 <= u -> (forall a b, Rabs (add a b - (a + b)) <= u * Rabs (a + b)) ->
  forall (tree : nat -> nat -> nat -> stree), (forall r i n, (0 < n)%nat -> Permutation (sleaves (tree r i n)) (seq 0 n)) ->
    accurate_sum u (fun r i l => match l with [] => 0 | _ => seval add l (tree r i (length l)) end).
Proof.
  intros u add Hu Hadd tree Ht r i l.
  assert (Q : forall t, exists k, (k + 1 <= length (sleaves t))%nat /\
    near u k (seval add l t) (lsum (K := Rc) (sleaves t) (fun q => nth q l 0)) (lsum (K := Rc) (sleaves t) (fun q => Rabs (nth q l 0)))).
  { induction t as [q|a IHa b IHb].
    - exists 0%nat. split; [apply le_n|]. cbn [sleaves seval lsum]. change (c0 Rc) with 0. unfold near. rewrite gam_0.
      change (Rabs (nth q l 0 - (nth q l 0 + 0)) <= 0 * (Rabs (nth q l 0) + 0) /\ Rabs (nth q l 0 + 0) <= Rabs (nth q l 0) + 0).
      rewrite !Rplus_0_r. replace (nth q l 0 - nth q l 0) with 0 by ring. rewrite Rabs_R0. lra.
    - destruct IHa as (ka & La & Na), IHb as (kb & Lb & Nb). exists (Nat.max ka kb + 1)%nat. cbn [sleaves seval]. rewrite app_length. split; [lia|].
      apply (near_mono u Hu _ (Nat.max ka kb)) in Na; [|lia]. apply (near_mono u Hu _ (Nat.max ka kb)) in Nb; [|lia].
      rewrite !lsum_app. change (cadd Rc) with Rplus. pose proof (near_plus u _ _ _ _ _ _ _ Na Nb) as [P1 P2]. split; [|exact P2].
      set (S := lsum (K := Rc) (sleaves a) (fun q => nth q l 0) + lsum (K := Rc) (sleaves b) (fun q => nth q l 0)) in *.
      set (A := lsum (K := Rc) (sleaves a) (fun q => Rabs (nth q l 0)) + lsum (K := Rc) (sleaves b) (fun q => Rabs (nth q l 0))) in *.
      set (m := Nat.max ka kb) in *. set (va := seval add l a) in *. set (vb := seval add l b) in *.
      pose proof (Hadd va vb) as H1. pose proof (near_abs u m (va + vb) S A (conj P1 P2)) as H2.
      replace (add va vb - S) with ((add va vb - (va + vb)) + (va + vb - S)) by ring.
      pose proof (Rabs_triang (add va vb - (va + vb)) (va + vb - S)) as H3.
      assert (E : gam u (m + 1) = gam u m + u * (1 + u) ^ m) by (unfold gam; rewrite pow_add; cbn [pow]; ring).
      rewrite E. assert (H4 : u * Rabs (va + vb) <= u * ((1 + u) ^ m * A)) by (apply Rmult_le_compat_l; assumption). lra. }
  assert (LS : forall f : R -> R, lsum (K := Rc) l f = lsum (K := Rc) (seq 0 (length l)) (fun q => f (nth q l 0))) by (intros f; exact (lsum_nth Rc R 0 l f)).
  destruct l as [|z l'] eqn:El; [unfold lsum; cbn [length]; change (c0 Rc) with 0; replace (0 - 0) with 0 by ring; rewrite Rabs_R0, gam_0; lra|].
  rewrite <- El in *. specialize (Ht r i (length l)). assert (Hl : (0 < length l)%nat) by (rewrite El; cbn; lia). specialize (Ht Hl).
  destruct (Q (tree r i (length l))) as (k & Lk & N1 & N2). rewrite (Permutation_length Ht), seq_length in Lk.
  rewrite (lsum_perm Rc _ _ _ _ Ht) in N1, N2. rewrite (lsum_perm Rc _ _ _ (fun q => Rabs (nth q l 0)) Ht) in N1, N2.
  rewrite <- (LS (fun z => z)) in N1. rewrite <- (LS Rabs) in N1. rewrite <- (LS Rabs) in N2.
  eapply Rle_trans; [exact N1|]. apply Rmult_le_compat_r; [|apply gam_mono; [exact Hu|lia]].
  pose proof (Rabs_pos (lsum (K := Rc) (seq 0 (length l)) (fun q => nth q l 0))). lra.
Qed.
Print Assumptions C90_any_order.

(** The hypotheses hold for the sums ((0 + 1) + 2) + ... and 0 + (1 + (2 + ...)). *)
Fixpoint comb (n : nat) : stree := match n with O => SLeaf 0 | S O => SLeaf 0 | S k => SNode (comb k) (SLeaf k) end.
Fixpoint comb_right (k n : nat) : stree := match n with O => SLeaf k | S O => SLeaf k | S m => SNode (SLeaf k) (comb_right (S k) m) end.
Lemma comb_leaves : forall n, (0 < n)%nat -> Permutation (sleaves (comb n)) (seq 0 n).
Proof.
  induction n as [|[|n] IH]; intros H; [lia|apply Permutation_refl|]. change (sleaves (comb (S (S n)))) with (sleaves (comb (S n)) ++ [S n]).
  rewrite (seq_S (S n) 0). apply Permutation_app; [apply IH; lia|apply Permutation_refl].
Qed.
Lemma comb_right_leaves : forall n k, (0 < n)%nat -> sleaves (comb_right k n) = seq k n.
Proof.
  induction n as [|[|n] IH]; intros k H; [lia|reflexivity|]. change (sleaves (comb_right k (S (S n)))) with (k :: sleaves (comb_right (S k) (S n))).
  rewrite IH by lia. reflexivity.
Qed.
(** the even processes sum one way, the odd ones the other *)
Definition ex_tree (r i n : nat) : stree := if Nat.even r then comb n else comb_right 0 n.
Definition ex_red (r i : nat) (l : list R) : R := match l with [] => 0 | _ => seval (fun a b => dbl (a + b)) l (ex_tree r i (length l)) end.
Example ex_red_ok : accurate_sum 1 ex_red.
Proof.
  apply (C90_any_order 1 (fun a b => dbl (a + b)) Rle_0_1 (fun a b => dbl_ok (a + b)) ex_tree). intros r i n Hn. unfold ex_tree.
  destruct (Nat.even r); [apply comb_leaves; exact Hn|rewrite comb_right_leaves by exact Hn; apply Permutation_refl].
Qed.
(** With three processes the two orders give different results: 12 and 14. *)
Example ex_red_differs : ex_red 0 0 [1; 1; 2] <> ex_red 1 0 [1; 1; 2].
Proof. unfold ex_red, ex_tree. cbn. unfold dbl. lra. Qed.

(** ** Two processes with one row each, rows and columns numbered the other way round by the user. *)
Definition ex2_leaf (o : nat) (a b : R) : hinfo Rc := mkHinfo Rc (ex_ct o 1) (ex_ct 0 2) SyN UpN (DDense (mkMat (K := Rc) 1 2 [a; b])) SyN UpN.
Definition ex2_proc (o : nat) (a b : R) : process Rc := mkProcess Rc (RNode (ex2_leaf o a b) []) [([], []); ([ex2_leaf o a b], [])].
Definition ex2_part : partition := mkPartition 2 [1%nat; 0%nat] [(0%nat, 1%nat); (1%nat, 1%nat)] true.
Definition ex2_procs : list (process Rc) := [ex2_proc 0 1 2; ex2_proc 1 3 4].
Example ex2_part_ok : partition_ok ex2_part (length ex2_procs).
Proof. constructor; cbn; [apply perm_swap|reflexivity|repeat split; reflexivity]. Qed.
Example ex2_wf : forall o a b, (o < 2)%nat -> well_formed (ex2_leaf o a b) [ex2_leaf o a b] [] SyN.
Proof.
  intros o a b Ho. constructor.
  - intros h [<-|[]]. (split; [|tauto]); (split; [cbn; lia|]); (split; [cbn; lia|]); cbn. split; [repeat split; reflexivity|]. split; [intros Q; exfalso; apply Q; reflexivity|discriminate].
  - intros h [<-|[]]. destruct o as [|[|o]]; [split; reflexivity|split; reflexivity|lia].
  - intros h [].
  - intros Q. exfalso. apply Q. reflexivity.
  - intros i j Hi Hj. destruct o as [|[|o]]; [| |lia]; cbn in Hi, Hj; (destruct i as [|[|i]]; [| |try discriminate Hi]); (destruct j as [|[|j]]; [| |try discriminate Hj]);
      first [discriminate Hi|discriminate Hj|reflexivity].
Qed.
Example ex2_procs_ok : Forall2 (proc_ok Rc ex2_part SyN) (pa_parts ex2_part) ex2_procs.
Proof.
  constructor; [|constructor; [|constructor]].
  - exists [ex2_leaf 0 1 2], []. split; [reflexivity|]. split; [apply (ex2_wf 0 1 2); lia|]. repeat split; apply Permutation_refl.
  - exists [ex2_leaf 1 3 4], []. split; [reflexivity|]. split; [apply (ex2_wf 1 3 4); lia|]. repeat split; apply Permutation_refl.
Qed.
Example ex2_cost : forall p L Y i, In p ex2_procs -> hleaves Rc (pr_hmat Rc p) = Some (L, Y) -> (1 + 2 * length (pr_threads Rc p) + row_cost TrT L Y i <= 20)%nat.
Proof.
  intros p L Y i [<-|[<-|[]]] E; [change (Some ([ex2_leaf 0 1 2], @nil (hinfo Rc)) = Some (L, Y)) in E|change (Some ([ex2_leaf 1 3 4], @nil (hinfo Rc)) = Some (L, Y)) in E];
    injection E as <- <-; destruct i as [|[|i]]; cbn; lia.
Qed.
Example ex_C90 : exists ys, r_tvec_g2g ex_red (r_hmat_operator (ref_blas dbl) ex2_part ex2_part SyN true ex2_procs) [[1; 1]; [1; 1]] [[0; 0]; [0; 0]] = Some ys /\ length ys = 2%nat /\
  forall r, (r < 2)%nat -> Rabs (get (K := Rc) (at_rank Rc ys r) 0 - 6) <= gam 1 22 * 6 /\ Rabs (get (K := Rc) (at_rank Rc ys r) 1 - 4) <= gam 1 22 * 4.
Proof.
  destruct (C90_every_process 1 (ref_blas dbl) ex_red ex2_part ex2_part ex2_procs 20 (C86_reference_blas 1 dbl Rle_0_1 dbl_ok) ex_red_ok ex2_part_ok ex2_part_ok ex2_procs_ok ex2_cost
    (get (K := Rc) [1; 1]) [[1; 1]; [1; 1]] [[0; 0]; [0; 0]]) as (ys & E1 & E2 & E3).
  - intros [|[|r]] Hr; [| |cbn in Hr; lia]; (split; [cbn; lia|intros; reflexivity]).
  - intros [|[|r]] Hr; [| |cbn in Hr; lia]; cbn; lia.
  - exists ys. split; [exact E1|]. split; [exact E2|]. intros r Hr. destruct (E3 r Hr) as [_ Q]. pose proof (Q 0%nat ltac:(cbn; lia)) as Q0. pose proof (Q 1%nat ltac:(cbn; lia)) as Q1.
    change (20 + length ex2_procs)%nat with 22%nat in Q0, Q1.
    assert (X : forall b, (b < 2)%nat -> tmul (K := Rc) (pa_n ex2_part) (op_matrix Rc ex2_part ex2_part SyN ex2_procs) (get (K := Rc) [1; 1]) b = 6 - 2 * INR b /\
      rsum (pa_n ex2_part) (fun a => op_abs ex2_part ex2_part ex2_procs a b * Rabs (get (K := Rc) [1; 1] a)) = 6 - 2 * INR b).
    { assert (A : forall z, 0 <= z -> Rabs z = z) by (intros z Hz; apply Rabs_pos_eq; exact Hz).
      intros [|[|b]] Hb; [| |lia]; (split; [unfold tmul; cbn; lra|unfold rsum; cbn; unfold leaf_abs; cbn; rewrite !A by lra; lra]). }
    destruct (X 0%nat ltac:(lia)) as [A0 B0]. destruct (X 1%nat ltac:(lia)) as [A1 B1]. rewrite A0, B0 in Q0. rewrite A1, B1 in Q1. cbn [INR] in Q0, Q1.
    replace (6 - 2 * 0) with 6 in Q0 by ring. replace (6 - 2 * 1) with 4 in Q1 by ring. split; assumption.
Qed.
