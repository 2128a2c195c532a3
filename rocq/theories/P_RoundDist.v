(** * Property C88: rounding errors of the distributed product of a vector.

    Vocabulary: DistModel.v ([vec_g2g]), DistSpec.v ([partition_ok], [holds_vec], [only_first], [mul]), DistLink.v ([process], [proc_ok], [op_matrix], [index_of]: as in C41);
    RoundDistModel.v ([r_hmat_operator]); RoundSpec.v ([accurate_blas], [gam], [abs_value], [row_cost]: as in C86).  Real coefficients. *)

From Coq Require Import List Arith ZArith Bool Lia Ring Reals Lra Permutation.
From Verif Require Import ClusterModel ClusterSpec ClusterProofs ClusterMore IOModel BlockModel BlockSpec Algebra BlasModel BlasProofs HMatModel HMatSpec HMatTop
  DistModel DistSpec DistProofs DistVec DistLink RealNum CompReal RoundModel RoundSpec RoundProofs RoundLoops RoundRef P_Round RoundDistModel RoundDistProofs.
Import ListNotations.
Local Open Scope R_scope.

(** Entry (a,b), user numbering, of the matrix of absolute values: that of the process that holds row a. *)
Definition op_abs (tp sp : partition) (ps : list (process Rc)) (a b : nat) : R :=
  let i := index_of a (pa_perm tp) in let j := index_of b (pa_perm sp) in
  match find (fun rp => in_iv i (fst rp)) (combine (pa_parts tp) ps) with
  | Some (_, p) => match hleaves Rc (pr_hmat Rc p) with Some (L, Y) => abs_value L Y i j | None => 0 end
  | None => 0
  end.

Section Proofs.
  Variables (u : R) (B : blas) (tp sp : partition) (sy : symc) (ps : list (process Rc)) (N : nat).
  Hypothesis HB : accurate_blas u B.
  Hypothesis Hsy : compat Rc TrN sy.
  Hypothesis HT : partition_ok tp (length ps).
  Hypothesis HS : partition_ok sp (length ps).
  Hypothesis HP : Forall2 (proc_ok Rc sp sy) (pa_parts tp) ps.
  Hypothesis HN : forall p L Y i, In p ps -> hleaves Rc (pr_hmat Rc p) = Some (L, Y) -> (1 + 2 * length (pr_threads Rc p) + row_cost TrN L Y i <= N)%nat.
  Notation D := (r_hmat_operator B tp sp sy true ps).

  Lemma rop_length : world Rc D = length ps.
  Proof. unfold world, r_hmat_operator. cbn [d_ops]. rewrite map_length, combine_length. pose proof (Forall2_len _ _ _ _ _ HP). lia. Qed.

  Lemma rop_at : forall r os, nth_error (pa_parts tp) r = Some os ->
    exists p, nth_error ps r = Some p /\ proc_ok Rc sp sy os p /\
      ops_of Rc D r = [vlop_of Rc (r_local_hmatrix B (pr_threads Rc p) (pr_hmat Rc p) os (0%nat, pa_n sp) sy)].
  Proof.
    intros r os. unfold ops_of, r_hmat_operator. cbn [d_ops]. clear HN HS. revert r.
    assert (Q : forall l1 l2, Forall2 (proc_ok Rc sp sy) l1 l2 -> forall r, nth_error l1 r = Some os ->
      exists p, nth_error l2 r = Some p /\ proc_ok Rc sp sy os p /\
        nth r (map (fun rp => [vlop_of Rc (r_local_hmatrix B (pr_threads Rc (snd rp)) (pr_hmat Rc (snd rp)) (fst rp) (0%nat, pa_n sp) sy)]) (combine l1 l2)) [] =
        [vlop_of Rc (r_local_hmatrix B (pr_threads Rc p) (pr_hmat Rc p) os (0%nat, pa_n sp) sy)]).
    { intros l1 l2 F. induction F as [|x p l1 l2 Hx F IH]; intros r E; [destruct r; discriminate|].
      destruct r as [|r]; [injection E as <-; exists p; split; [reflexivity|]; split; [exact Hx|reflexivity]|]. cbn [combine map nth nth_error]. exact (IH r E). }
    intros r E. exact (Q _ _ HP r E).
  Qed.

  Lemma dispatch_sy : forall A (n : A) (o : lop Rc), lo_sym Rc o = sy -> forall d, lo_dispatch Rc o n n d = n.
  Proof. intros A n o E d. unfold lo_dispatch. rewrite E. clear - Hsy. destruct sy; try reflexivity. destruct Hsy. Qed.

  Lemma entries : forall r os p i j L Y, nth_error (pa_parts tp) r = Some os -> nth_error ps r = Some p -> in_iv i os = true -> (j < pa_n sp)%nat ->
    hleaves Rc (pr_hmat Rc p) = Some (L, Y) ->
    op_matrix Rc tp sp sy ps (user_index true tp i) (user_index true sp j) = value L Y sy i j /\
    op_abs tp sp ps (user_index true tp i) (user_index true sp j) = abs_value L Y i j.
  Proof.
    intros r os p i j L Y E1 E2 Hi Hj HL. unfold op_matrix, op_abs, op_value, user_index. cbv zeta.
    assert (Bi : (i < pa_n tp)%nat).
    { destruct os as [o s]. pose proof (nth_error_In _ _ E1) as Q. pose proof (tiles_In _ _ _ _ _ (po_tiles _ _ HT) Q) as R.
      unfold in_iv in Hi. cbn [fst snd] in Hi. apply andb_true_iff in Hi. destruct Hi as [_ Hi]. apply Nat.ltb_lt in Hi. lia. }
    assert (L1 : length (pa_perm tp) = pa_n tp) by (rewrite (Permutation_length (po_perm _ _ HT)); apply seq_length).
    assert (L2 : length (pa_perm sp) = pa_n sp) by (rewrite (Permutation_length (po_perm _ _ HS)); apply seq_length).
    rewrite (index_of_nth (pa_perm tp) i) by (first [lia|eapply Permutation_NoDup; [exact (Permutation_sym (po_perm _ _ HT))|apply seq_NoDup]]).
    rewrite (index_of_nth (pa_perm sp) j) by (first [lia|eapply Permutation_NoDup; [exact (Permutation_sym (po_perm _ _ HS))|apply seq_NoDup]]).
    rewrite (find_part _ _ _ _ _ _ _ _ _ (po_tiles _ _ HT) E1 E2 Hi). unfold proc_value. rewrite HL. split; reflexivity.
  Qed.

  Lemma rsum_user : forall f, rsum (pa_n sp) (fun j => f (user_index true sp j)) = rsum (pa_n sp) f.
  Proof. intros f. exact (sum_user Rc sp (length ps) true f HS). Qed.

  Lemma local_round : forall x r o s inp, nth_error (pa_parts tp) r = Some (o, s) -> (pa_n sp <= length inp)%nat ->
    (forall j, (j < pa_n sp)%nat -> get (K := Rc) inp j = x (user_index true sp j)) ->
    exists y, int_vec_g2l Rc D r inp (vec0 Rc s) = Some y /\ length y = s /\
      forall i, (i < s)%nat -> near u N (get (K := Rc) y i) (mul (K := Rc) (pa_n sp) (op_matrix Rc tp sp sy ps) x (user_index true tp (o + i)))
        (rsum (pa_n sp) (fun b => op_abs tp sp ps (user_index true tp (o + i)) b * Rabs (x b))).
  Proof.
    intros x r o s inp E Hl Hx. destruct (rop_at r (o, s) E) as (p & Ep & (L & Y & HL & W & P1 & P2 & I1 & I2) & Ho).
    unfold int_vec_g2l. rewrite Ho. cbn [d_t r_hmat_operator]. destruct (part_size_ok tp r o s E) as [-> _].
    destruct (fill0_ok Rc s (vec0 Rc s)) as (y0 & -> & [F1 _] & Z0); [rewrite length_vec0; lia|]. rewrite length_vec0 in F1.
    cbn [fold_opt]. unfold vlop_of. cbn [vl_vec]. unfold lo_add_vec. cbn [lo_s lo_t lo_suse lo_tuse lo_vec lo_vecs r_local_hmatrix fst snd].
    unfold ptr. cbn [Nat.leb skipn]. rewrite dispatch_sy by reflexivity.
    assert (S1 : c_off (h_t (rt_val (pr_hmat Rc p))) = o /\ c_size (h_t (rt_val (pr_hmat Rc p))) = s) by (unfold interval in I1; injection I1 as A1 A2; split; assumption).
    assert (S2 : c_off (h_s (rt_val (pr_hmat Rc p))) = 0%nat /\ c_size (h_s (rt_val (pr_hmat Rc p))) = pa_n sp) by (unfold interval in I2; injection I2 as A1 A2; split; assumption).
    destruct S1 as [O1 S1], S2 as [O2 S2].
    destruct (omp_round u B HB (rt_val (pr_hmat Rc p)) L Y sy W TrN Hsy (pr_hmat Rc p) (pr_threads Rc p) (c1 Rc) (c1 Rc) inp y0 eq_refl P1 P2) as (y' & R1 & R2 & R3 & _).
    { unfold in_cl. cbn [is_N]. rewrite S2. exact Hl. } { unfold out_cl. cbn [is_N]. rewrite S1, F1. apply le_n. }
    exists y'. split; [rewrite R1; reflexivity|]. split; [congruence|]. intros i Hi.
    unfold in_cl, out_cl in R3. cbn [is_N] in R3. rewrite S1, O1 in R3. specialize (R3 i Hi).
    assert (HNp := HN p L Y (o + i) (nth_error_In _ _ Ep) HL). rewrite Nat.add_assoc in R3.
    apply (near_mono u (ab_u u B HB) _ N) in R3; [|exact HNp].
    assert (Iv : in_iv (o + i) (o, s) = true) by (unfold in_iv; cbn [fst snd]; apply andb_true_iff; split; [apply Nat.leb_le|apply Nat.ltb_lt]; lia).
    assert (X1 : exact_row (rt_val (pr_hmat Rc p)) (value L Y sy) TrN (c1 Rc) (c1 Rc) inp y0 i = mul (K := Rc) (pa_n sp) (op_matrix Rc tp sp sy ps) x (user_index true tp (o + i))).
    { unfold exact_row, mul, in_cl, out_cl. cbn [is_N]. rewrite O1, O2, S2, (Z0 i Hi). cbn [c0 c1 Rc car].
      rewrite Rmult_0_r, Rplus_0_l, Rmult_1_l. transitivity (rsum (pa_n sp) (fun j => op_matrix Rc tp sp sy ps (user_index true tp (o + i)) (user_index true sp j) * x (user_index true sp j))).
      - apply rsum_ext. intros j Hj. cbn [op_fun Nat.add]. rewrite (Hx j Hj). destruct (entries r (o, s) p (o + i) j L Y E Ep Iv Hj HL) as [-> _]. reflexivity.
      - exact (rsum_user (fun b => op_matrix Rc tp sp sy ps (user_index true tp (o + i)) b * x b)). }
    assert (X2 : abs_row (rt_val (pr_hmat Rc p)) (abs_value L Y) TrN (c1 Rc) (c1 Rc) inp y0 i = rsum (pa_n sp) (fun b => op_abs tp sp ps (user_index true tp (o + i)) b * Rabs (x b))).
    { unfold abs_row, in_cl, out_cl. cbn [is_N]. rewrite O1, O2, S2, (Z0 i Hi). cbn [c0 c1 Rc car].
      rewrite Rabs_R0, Rabs_R1, Rmult_0_r, Rplus_0_l, Rmult_1_l. transitivity (rsum (pa_n sp) (fun j => op_abs tp sp ps (user_index true tp (o + i)) (user_index true sp j) * Rabs (x (user_index true sp j)))).
      - apply rsum_ext. intros j Hj. cbn [op_fun Nat.add]. rewrite (Hx j Hj). destruct (entries r (o, s) p (o + i) j L Y E Ep Iv Hj HL) as [_ ->]. reflexivity.
      - exact (rsum_user (fun b => op_abs tp sp ps (user_index true tp (o + i)) b * Rabs (x b))). }
    rewrite X1, X2 in R3. exact R3.
  Qed.
End Proofs.

(** C88.  For every number of processes, every distribution of the leaves over the threads of each of them and every order of their critical sections, all processes get the
    same vector, each coefficient of which is that of A x up to ((1+u)^N - 1) (|A| |x|), for any N at least one plus two per thread plus the roundings of the leaves of each
    row.  The memory behind the outputs is unchanged. *)
Theorem C88_every_process :
  forall u B tp sp sy (ps : list (process Rc)) N, accurate_blas u B -> compat Rc TrN sy ->
    partition_ok tp (length ps) -> partition_ok sp (length ps) -> Forall2 (proc_ok Rc sp sy) (pa_parts tp) ps ->
    (forall p L Y i, In p ps -> hleaves Rc (pr_hmat Rc p) = Some (L, Y) -> (1 + 2 * length (pr_threads Rc p) + row_cost TrN L Y i <= N)%nat) ->
    forall x ins outs,
      (forall r, (r < length ps)%nat -> holds_vec (K := Rc) (at_rank Rc ins r) (pa_n sp) x) -> (forall r, (r < length ps)%nat -> (pa_n tp <= length (at_rank Rc outs r))%nat) ->
      exists ys w, vec_g2g Rc (r_hmat_operator B tp sp sy true ps) ins outs = Some ys /\ length ys = length ps /\
        (forall a, (a < pa_n tp)%nat ->
          Rabs (w a - mul (K := Rc) (pa_n sp) (op_matrix Rc tp sp sy ps) x a) <= gam u N * rsum (pa_n sp) (fun b => op_abs tp sp ps a b * Rabs (x b))) /\
        forall r, (r < length ps)%nat -> only_first (K := Rc) (pa_n tp) (at_rank Rc outs r) (at_rank Rc ys r) /\ holds_vec (K := Rc) (at_rank Rc ys r) (pa_n tp) w.
Proof.
  intros u B tp sp sy ps N HB Hsy HT HS HP HN x ins outs Hin Hout.
  pose proof (rop_length B tp sp sy ps HP) as HW.
  destruct (vec_g2g_any Rc (r_hmat_operator B tp sp sy true ps)) with (R := fun a z => near u N z (mul (K := Rc) (pa_n sp) (op_matrix Rc tp sp sy ps) x a) (rsum (pa_n sp) (fun b => op_abs tp sp ps a b * Rabs (x b))))
    (x := x) (ins := ins) (outs := outs) as (ys & w & E1 & E2 & E3 & E4).
  - rewrite HW. exact HT.
  - rewrite HW. exact HS.
  - intros r o s inp E Hl Hx. exact (local_round u B tp sp sy ps N HB Hsy HT HS HP HN x r o s inp E Hl Hx).
  - rewrite HW. exact Hin.
  - rewrite HW. exact Hout.
  - rewrite HW in E2, E4. exists ys, w. split; [exact E1|]. split; [exact E2|]. split; [|exact E4]. intros a Ha. exact (proj1 (E3 a Ha)).
Qed.
Print Assumptions C88_every_process.

(** Two runs of the same operator, with any distributions of the leaves over the threads and any schedules, differ at most by twice the bound. *)
Theorem C88_two_runs :
  forall u B tp sp sy (ps1 ps2 : list (process Rc)) N, accurate_blas u B -> compat Rc TrN sy ->
    map (fun p => pr_hmat Rc p) ps1 = map (fun p => pr_hmat Rc p) ps2 ->
    partition_ok tp (length ps1) -> partition_ok sp (length ps1) ->
    Forall2 (proc_ok Rc sp sy) (pa_parts tp) ps1 -> Forall2 (proc_ok Rc sp sy) (pa_parts tp) ps2 ->
    (forall p L Y i, In p (ps1 ++ ps2) -> hleaves Rc (pr_hmat Rc p) = Some (L, Y) -> (1 + 2 * length (pr_threads Rc p) + row_cost TrN L Y i <= N)%nat) ->
    forall x ins outs ys1 ys2,
      (forall r, (r < length ps1)%nat -> holds_vec (K := Rc) (at_rank Rc ins r) (pa_n sp) x) -> (forall r, (r < length ps1)%nat -> (pa_n tp <= length (at_rank Rc outs r))%nat) ->
      vec_g2g Rc (r_hmat_operator B tp sp sy true ps1) ins outs = Some ys1 -> vec_g2g Rc (r_hmat_operator B tp sp sy true ps2) ins outs = Some ys2 ->
      forall r a, (r < length ps1)%nat -> (a < pa_n tp)%nat ->
        Rabs (get (K := Rc) (at_rank Rc ys1 r) a - get (K := Rc) (at_rank Rc ys2 r) a) <= 2 * gam u N * rsum (pa_n sp) (fun b => op_abs tp sp ps1 a b * Rabs (x b)).
Proof.
  intros u B tp sp sy ps1 ps2 N HB Hsy EM HT HS HP1 HP2 HN x ins outs ys1 ys2 Hin Hout R1 R2 r a Hr Ha.
  assert (EL : length ps2 = length ps1) by (pose proof (f_equal (@length _) EM) as Q; rewrite !map_length in Q; congruence).
  assert (EF : forall l (q1 q2 : list (process Rc)), map (fun p => pr_hmat Rc p) q1 = map (fun p => pr_hmat Rc p) q2 -> forall i,
    match find (fun rp => in_iv i (fst rp)) (combine l q1), find (fun rp => in_iv i (fst rp)) (combine l q2) with
    | Some (_, p1), Some (_, p2) => pr_hmat Rc p1 = pr_hmat Rc p2 | None, None => True | _, _ => False end).
  { induction l as [|os l IH]; intros [|p1 q1] [|p2 q2] Q i; try discriminate Q; cbn [combine find]; try exact I. cbn [map] in Q. injection Q as Qp Qq.
    cbn [fst]. destruct (in_iv i os); [exact Qp|exact (IH q1 q2 Qq i)]. }
  assert (EV : forall a b, op_matrix Rc tp sp sy ps2 a b = op_matrix Rc tp sp sy ps1 a b /\ op_abs tp sp ps2 a b = op_abs tp sp ps1 a b).
  { intros a' b'. unfold op_matrix, op_value, op_abs. cbv zeta. specialize (EF (pa_parts tp) ps1 ps2 EM (index_of a' (pa_perm tp))).
    destruct (find _ (combine (pa_parts tp) ps1)) as [[? p1]|], (find _ (combine (pa_parts tp) ps2)) as [[? p2]|]; try contradiction; [|split; reflexivity].
    unfold proc_value. rewrite EF. split; reflexivity. }
  destruct (C88_every_process u B tp sp sy ps1 N HB Hsy HT HS HP1) with (x := x) (ins := ins) (outs := outs) as (z1 & w1 & E1 & _ & E2 & E3); [intros; eapply HN; [apply in_or_app; left|]; eassumption|exact Hin|exact Hout|].
  destruct (C88_every_process u B tp sp sy ps2 N HB Hsy) with (x := x) (ins := ins) (outs := outs) as (z2 & w2 & F1 & _ & F2 & F3);
    [rewrite EL; exact HT|rewrite EL; exact HS|exact HP2|intros; eapply HN; [apply in_or_app; right|]; eassumption|rewrite EL; exact Hin|rewrite EL; exact Hout|].
  rewrite R1 in E1. injection E1 as <-. rewrite R2 in F1. injection F1 as <-. rewrite EL in F3.
  destruct (E3 r Hr) as [_ [_ G1]]. destruct (F3 r Hr) as [_ [_ G2]]. rewrite (G1 a Ha), (G2 a Ha). specialize (E2 a Ha). specialize (F2 a Ha).
  assert (M1 : mul (K := Rc) (pa_n sp) (op_matrix Rc tp sp sy ps2) x a = mul (K := Rc) (pa_n sp) (op_matrix Rc tp sp sy ps1) x a).
  { unfold mul. change (rsum (pa_n sp) (fun b => op_matrix Rc tp sp sy ps2 a b * x b) = rsum (pa_n sp) (fun b => op_matrix Rc tp sp sy ps1 a b * x b)). apply rsum_ext. intros b _. rewrite (proj1 (EV a b)). reflexivity. }
  assert (M2 : rsum (pa_n sp) (fun b => op_abs tp sp ps2 a b * Rabs (x b)) = rsum (pa_n sp) (fun b => op_abs tp sp ps1 a b * Rabs (x b))).
  { apply rsum_ext. intros b _. rewrite (proj2 (EV a b)). reflexivity. }
  rewrite M1, M2 in F2. set (S := mul (K := Rc) (pa_n sp) (op_matrix Rc tp sp sy ps1) x a) in *.
  pose proof (Rabs_triang (w1 a - S) (- (w2 a - S))) as Q. rewrite Rabs_Ropp in Q. replace (w1 a - S + - (w2 a - S)) with (w1 a - w2 a) in Q by ring. lra.
Qed.
Print Assumptions C88_two_runs.

(** *** The matrix of P_Round.v on one process with two threads, its rows and columns numbered the other way round by the user. *)
Definition ex_part : partition := mkPartition 2 [1%nat; 0%nat] [(0%nat, 2%nat)] true.
Definition ex_procs : list (process Rc) := [mkProcess Rc exR exT1].
Example ex_part_ok : partition_ok ex_part (length ex_procs).
Proof. constructor; cbn; [apply perm_swap|reflexivity|split; reflexivity]. Qed.
Example ex_procs_ok : Forall2 (proc_ok Rc ex_part SyS) (pa_parts ex_part) ex_procs.
Proof.
  constructor; [|constructor]. destruct (exT_perm exT1 (or_introl eq_refl)) as [P1 P2]. exists exL, [ex_lr].
  split; [exact exR_leaves|]. split; [exact exR_well_formed|]. split; [exact P1|]. split; [exact P2|]. split; reflexivity.
Qed.
Example ex_cost : forall p L Y i, In p ex_procs -> hleaves Rc (pr_hmat Rc p) = Some (L, Y) -> (1 + 2 * length (pr_threads Rc p) + row_cost TrN L Y i <= 29)%nat.
Proof.
  intros p L Y i [<-|[]] E. change (hleaves Rc exR = Some (L, Y)) in E. rewrite exR_leaves in E. injection E as <- <-.
  destruct i as [|[|i]]; cbn; lia.
Qed.
Example ex_C88 : exists ys w, vec_g2g Rc (r_hmat_operator (ref_blas dbl) ex_part ex_part SyS true ex_procs) [[1; 1]] [[0; 0]] = Some ys /\ length ys = 1%nat /\
  forall a, (a < 2)%nat -> Rabs (w a - 0) <= gam 1 29 * 2.
Proof.
  destruct (C88_every_process 1 (ref_blas dbl) ex_part ex_part SyS ex_procs 29 (C86_reference_blas 1 dbl Rle_0_1 dbl_ok) (ex_one TrN) ex_part_ok ex_part_ok ex_procs_ok ex_cost
    (get (K := Rc) [1; 1]) [[1; 1]] [[0; 0]]) as (ys & w & E1 & E2 & E3 & _).
  - intros [|r] Hr; [|cbn in Hr; lia]. split; [cbn; lia|intros; reflexivity].
  - intros [|r] Hr; [cbn; lia|cbn in Hr; lia].
  - exists ys, w. split; [exact E1|]. split; [exact E2|]. intros a Ha. specialize (E3 a Ha).
    assert (X1 : mul (K := Rc) (pa_n ex_part) (op_matrix Rc ex_part ex_part SyS ex_procs) (get (K := Rc) [1; 1]) a = 0).
    { destruct a as [|[|a]]; [| |lia]; unfold mul; cbn; unfold rsum; cbn; lra. }
    assert (X2 : rsum (pa_n ex_part) (fun b => op_abs ex_part ex_part ex_procs a b * Rabs (get (K := Rc) [1; 1] b)) = 2).
    { destruct a as [|[|a]]; [| |lia]; unfold rsum; cbn; unfold leaf_abs, rsum; cbn; rewrite ?Rabs_R0, ?Rabs_R1; replace (Rabs (-1)) with 1 by (unfold Rabs; destruct (Rcase_abs (-1)); lra); lra. }
    rewrite X1, X2 in E3. exact E3.
Qed.
