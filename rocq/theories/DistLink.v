(** * From a generator and two cluster trees to a distributed operator. *)

From Coq Require Import List Arith ZArith Bool Lia Ring Permutation.
From Verif Require Import ClusterModel ClusterSpec ClusterProofs ClusterMore ClusterFinal ClusterDepth IOModel IOSpec IOProofs BlockModel BlockSpec BlockProofs
  BlockFinal BlockSym BlockLink P_Cluster P_Block Algebra BlasModel BlasProofs HMatModel HMatSpec HMatProofs HMatLoops HMatProducts HMatBuild HMatTop P_HMat
  DistModel DistSpec DistProofs DistVec DistMat DistLocal.
Import ListNotations.

(** ** The partition of a cluster tree *)
Lemma parts_of_map : forall (l : list ctree), parts_of (map (fun u => Some (ct_info u)) l) = Some (map interval l).
Proof. induction l as [|u l IH]; [reflexivity|]. cbn [map parts_of]. rewrite IH. reflexivity. Qed.

Section Tree.
  Variables (sorter : cinfo -> list nat -> list nat) (strat : strategy) (P : bparams) (fuel : nat) (s : bstate) (t : ctree) (loc : bool).
  Hypothesis Hs : sorter_ok sorter.
  Hypothesis Hnc : 1 <= bp_nc P.
  Hypothesis Hsp : 1 <= bp_sp P.
  Hypothesis Hlog : bp_given P = None -> bp_nc P <= bp_sp P -> 1 <= bp_logdepth P /\ bp_nc P ^ bp_logdepth P <= bp_sp P.
  Hypothesis Hg : forall part, bp_given P = Some part -> part <> [] /\ tiles 0 (bp_n P) part /\ forall os, In os part -> 0 < snd os.
  Hypothesis H : cluster_tree sorter strat P fuel = Some (s, t, loc).
  Hypothesis He : st_errors s = 0.
  Notation parts := (level (part_depth P) t).

  Lemma tree_root : interval t = (0, bp_n P).
  Proof.
    destruct (final_nodes sorter strat P Hs fuel s t loc (fun part Q => proj1 (proj2 (Hg part Q))) H) as [Hr _].
    unfold interval. rewrite Hr. reflexivity.
  Qed.
  Lemma tree_contains : forall u, In u parts -> contains t u = true.
  Proof.
    intros u Hu. destruct (final_nodes sorter strat P Hs fuel s t loc (fun part Q => proj1 (proj2 (Hg part Q))) H) as [_ N].
    destruct (final_depth_ok _ _ _ _ _ _ _ H) as [_ Hdep].
    unfold contains. assert (Q : c_off t <= c_off u /\ c_off u + c_size u <= c_off t + c_size t); [|apply andb_true_iff; rewrite !Nat.leb_le; unfold c_off, c_size in *; lia].
    apply (node_sub t (S (ci_depth (ct_info t))) (fun u Hu => conj (proj1 (N u Hu)) (Hdep u Hu)) (le_n _) t u (In_nodes_root t)).
    apply filter_In in Hu. apply Hu.
  Qed.
  Lemma tree_tiles : tiles 0 (bp_n P) (map interval parts).
  Proof.
    destruct (built_partitioned sorter strat P fuel s t loc Hs Hnc Hsp Hlog Hg H He) as (A & _ & R & _).
    destruct (pt_above _ _ A t (In_nodes_root t) R) as (_ & _ & _ & T). rewrite tree_root in T. cbn [fst snd] in T.
    rewrite filter_id in T; [exact T|]. exact tree_contains.
  Qed.
  Lemma tree_partition : exists p, partition_from_cluster s t loc = Some p /\ partition_ok p (length parts) /\
    pa_n p = bp_n P /\ pa_perm p = st_perm s /\ pa_parts p = map interval parts /\ pa_local p = loc.
  Proof.
    destruct (built_partitioned sorter strat P fuel s t loc Hs Hnc Hsp Hlog Hg H He) as (_ & _ & _ & E).
    unfold partition_from_cluster. rewrite E, parts_of_map. eexists. split; [reflexivity|]. cbn [pa_n pa_perm pa_parts pa_local].
    assert (En : ci_size (ct_info t) = bp_n P) by (pose proof tree_root as Q; unfold interval in Q; congruence).
    split; [|repeat split; try reflexivity; exact En]. split; cbn [pa_n pa_perm pa_parts]; rewrite ?En.
    - eapply final_perm; [exact Hs| |exact H]. intros part Hp os Ho. destruct (Hg part Hp) as (_ & T & _). eapply tiles_range; eauto.
    - apply map_length.
    - exact tree_tiles.
  Qed.
  Lemma tree_local : forall part p, bp_given P = Some part -> partition_from_cluster s t loc = Some p -> partition_local p.
  Proof.
    intros part p Hp E. destruct tree_partition as (p' & E' & _ & _ & Hperm & Hparts & _). assert (p' = p) by congruence. subst p'.
    destruct (Hg part Hp) as (_ & T & _).
    assert (HOP : ForallOrdPairs disjoint_iv part).
    { clear - T. revert T. generalize 0. induction part as [|[o z] l IH]; intros lo T; [constructor|].
      destruct T as [-> T]. constructor; [|eapply IH; eauto]. apply Forall_forall. intros [o' z'] Hin.
      pose proof (tiles_In _ _ _ _ _ T Hin). left. cbn. lia. }
    assert (Hrange : forall os, In os part -> fst os + snd os <= bp_n P).
    { intros [o z] Ho. pose proof (tiles_In _ _ _ _ _ T Ho). cbn. lia. }
    destruct (final_given sorter strat P Hs fuel s t loc part Hp Hrange HOP H) as (_ & Hpvl & _ & HG).
    destruct (built_partitioned sorter strat P fuel s t loc Hs Hnc Hsp Hlog Hg H He) as (_ & _ & _ & Epv).
    intros os Ho. rewrite Hparts in Ho. rewrite Hperm.
    destruct (In_nth_error _ _ Ho) as [q Hq].
    assert (Hq' : q < length part).
    { rewrite <- Hpvl, Epv, map_length. assert (nth_error (map interval parts) q <> None) by congruence. apply nth_error_Some in H0. rewrite map_length in H0. exact H0. }
    destruct (nth_error part q) as [os'|] eqn:E1; [|apply nth_error_None in E1; lia].
    destruct (HG q os' E1) as (k & _ & E2 & E3 & _ & Q). assert (os' = os); [|subst; exact Q].
    rewrite Epv in E3. rewrite nth_error_map in Hq, E3. destruct (nth_error parts q) as [v|]; [|discriminate]. cbn in Hq, E3.
    injection Hq as <-. injection E3 as Ev. rewrite <- E2. unfold interval. rewrite Ev. reflexivity.
  Qed.
End Tree.

(** ** The operator of DefaultApproximationBuilder *)
(** Index of a user point in the numbering of the clusters. *)
Fixpoint index_of (a : nat) (l : list nat) : nat := match l with [] => 0 | b :: l' => if a =? b then 0 else S (index_of a l') end.
Lemma index_of_nth : forall l i, NoDup l -> i < length l -> index_of (nth i l 0) l = i.
Proof.
  induction l as [|b l IH]; intros i HN Hi; [cbn in Hi; lia|]. inversion HN as [|? ? Hb HN']; subst.
  destruct i as [|i]; cbn [nth index_of]; [rewrite Nat.eqb_refl; reflexivity|]. cbn [length] in Hi.
  destruct (Nat.eqb_spec (nth i l 0) b) as [E|E]; [exfalso; apply Hb; rewrite <- E; apply nth_In; lia|]. f_equal. apply IH; [exact HN'|lia].
Qed.
Lemma index_of_In : forall l a, In a l -> index_of a l < length l /\ nth (index_of a l) l 0 = a.
Proof.
  induction l as [|b l IH]; intros a Ha; [contradiction|]. cbn [index_of]. destruct (Nat.eqb_spec a b) as [->|E]; [cbn; split; [lia|reflexivity]|].
  destruct Ha as [<-|Ha]; [congruence|]. destruct (IH a Ha). cbn. split; [lia|assumption].
Qed.

Lemma in_iv_ext : forall a b, 0 < snd a -> (forall i, in_iv i a = in_iv i b) -> a = b.
Proof.
  intros [o s] [o' s'] Hp E. cbn [snd] in Hp. unfold in_iv in E. cbn [fst snd] in E.
  assert (Q : forall i, (o <= i < o + s) <-> (o' <= i < o' + s')).
  { intros i. specialize (E i). rewrite <- !Nat.leb_le, <- !Nat.ltb_lt, <- !andb_true_iff, E. tauto. }
  pose proof (proj1 (Q o) ltac:(lia)). pose proof (proj1 (Q (o + s - 1)) ltac:(lia)).
  pose proof (proj2 (Q o') ltac:(lia)). pose proof (proj2 (Q (o' + s' - 1)) ltac:(lia)).
  f_equal; lia.
Qed.

Lemma Forall2_len : forall X Y (R : X -> Y -> Prop) l1 l2, Forall2 R l1 l2 -> length l1 = length l2.
Proof. induction 1; cbn; congruence. Qed.

Section Op.
  Variable K : Coef.
  Notation C := (car K).
  Notation "0" := (c0 K).

  (** What one process holds: a hierarchical matrix and the distribution of its leaves over the threads. *)
  Record process : Type := mkProcess { pr_hmat : hmat K; pr_threads : list (list (hinfo K) * list (hinfo K)) }.
  (** The distributed operator with one local hierarchical matrix per process, rows of part r by all the columns. *)
  Definition hmat_operator (tp sp : partition) (sy : symc) (use : bool) (ps : list process) : dop K :=
    mkDop K tp sp (map (fun rp => [vlop_of K (local_hmatrix K (pr_threads (snd rp)) (pr_hmat (snd rp)) (fst rp) (0%nat, pa_n sp) sy)])
      (combine (pa_parts tp) ps)) use sy.
  (** Process r holds the rows of part r of M (numbering of the partitions). *)
  Definition holds_part (sp : partition) (sy : symc) (M : nat -> nat -> C) (os : nat * nat) (p : process) : Prop :=
    exists L Y, well_formed (rt_val (pr_hmat p)) L Y sy /\
      Permutation (concat (map fst (pr_threads p))) L /\ Permutation (concat (map snd (pr_threads p))) Y /\
      interval (h_t (rt_val (pr_hmat p))) = os /\ interval (h_s (rt_val (pr_hmat p))) = (0%nat, pa_n sp) /\
      forall i j, in_iv i os = true -> (j < pa_n sp)%nat -> value L Y sy i j = M i j.

  Section Blocks.
    Variables (tp sp : partition) (sy : symc) (use : bool) (ps : list process) (A : nat -> nat -> C).
    Notation D := (hmat_operator tp sp sy use ps).
    Hypothesis Hsy : compat K TrN sy.
    Hypothesis HP : Forall2 (holds_part sp sy (fun i j => A (user_index use tp i) (user_index use sp j))) (pa_parts tp) ps.

    Lemma op_length : world K D = length (pa_parts tp).
    Proof. unfold world, hmat_operator. cbn [d_ops]. rewrite map_length, combine_length. pose proof (Forall2_len _ _ _ _ _ HP). lia. Qed.

    Lemma op_at : forall r os, nth_error (pa_parts tp) r = Some os ->
      exists p, holds_part sp sy (fun i j => A (user_index use tp i) (user_index use sp j)) os p /\
        ops_of K D r = [vlop_of K (local_hmatrix K (pr_threads p) (pr_hmat p) os (0%nat, pa_n sp) sy)].
    Proof.
      intros r os. unfold ops_of, hmat_operator. cbn [d_ops]. revert r. induction HP as [|x p l1 l2 Hx HP' IH]; intros r E; [destruct r; discriminate|].
      destruct r as [|r]; [injection E as <-; exists p; split; [exact Hx|reflexivity]|]. cbn [combine map nth]. exact (IH HP' r E).
    Qed.

    Lemma window_all : forall n M (i j : nat), (j < n)%nat -> window K 0 n M i j = M i j.
    Proof. intros n M i j Hj. unfold window. cbn [Nat.leb andb]. destruct (Nat.ltb_spec j (0 + n)); [|lia]. f_equal. lia. Qed.

    Lemma iv_parts : forall (u : ctree) os, interval u = os -> c_off u = fst os /\ c_size u = snd os.
    Proof. intros u os <-. split; reflexivity. Qed.

    Lemma op_row_vec : row_blocks D A run_vec 1.
    Proof.
      intros r o s E. destruct (op_at r (o, s) E) as (p & (L & Y & W & P1 & P2 & E1 & E2 & V) & ->).
      destruct (iv_parts _ _ E1) as [O1 S1]. destruct (iv_parts _ _ E2) as [O2 S2]. cbn [fst snd] in *.
      exists [window K 0 (pa_n sp) (hblock K (pr_hmat p) L Y sy)]. split.
      - constructor; [|constructor]. pose proof (hmat_vec K (pr_hmat p) L Y sy W (pr_threads p) P1 P2 Hsy) as Q. rewrite E1, E2, S1, S2 in Q.
        exact (lop_vec_ok K (local_hmatrix K (pr_threads p) (pr_hmat p) (o, s) (0%nat, pa_n sp) sy) (pa_n sp) _ (le_n _) eq_refl eq_refl Q).
      - intros i j Hi Hj. cbn [lsum]. cbn [d_s hmat_operator] in Hj. rewrite window_all by exact Hj. unfold hblock, part_matrix. rewrite O1, O2. cbn [Nat.add].
        rewrite V by (try (unfold in_iv; cbn [fst snd]; apply andb_true_iff; split; [apply Nat.leb_le|apply Nat.ltb_lt]; lia); exact Hj).
        cbn [d_perm d_t d_s hmat_operator]. rewrite (Radd_comm (c_ring K)). apply (Radd_0_l (c_ring K)).
    Qed.

    Lemma op_row_mat : forall mu, (1 <= mu)%nat -> row_blocks D A (run_mat mu) mu.
    Proof.
      intros mu Hmu r o s E. destruct (op_at r (o, s) E) as (p & (L & Y & W & P1 & P2 & E1 & E2 & V) & ->).
      destruct (iv_parts _ _ E1) as [O1 S1]. destruct (iv_parts _ _ E2) as [O2 S2]. cbn [fst snd] in *.
      exists [window K 0 (pa_n sp) (hblock K (pr_hmat p) L Y sy)]. split.
      - constructor; [|constructor]. pose proof (hmat_mat K (pr_hmat p) L Y sy W (pr_threads p) P1 P2 Hsy mu Hmu) as Q. rewrite E1, E2, S1, S2 in Q.
        exact (lop_mat_ok K (local_hmatrix K (pr_threads p) (pr_hmat p) (o, s) (0%nat, pa_n sp) sy) (pa_n sp) _ (le_n _) eq_refl eq_refl mu Q).
      - intros i j Hi Hj. cbn [lsum]. cbn [d_s hmat_operator] in Hj. rewrite window_all by exact Hj. unfold hblock, part_matrix. rewrite O1, O2. cbn [Nat.add].
        rewrite V by (try (unfold in_iv; cbn [fst snd]; apply andb_true_iff; split; [apply Nat.leb_le|apply Nat.ltb_lt]; lia); exact Hj).
        cbn [d_perm d_t d_s hmat_operator]. rewrite (Radd_comm (c_ring K)). apply (Radd_0_l (c_ring K)).
    Qed.

    Lemma op_trans_vec : compat K TrT sy -> transposed_blocks D A run_tvec 1.
    Proof.
      intros Hct r o s E. destruct (op_at r (o, s) E) as (p & (L & Y & W & P1 & P2 & E1 & E2 & V) & ->).
      destruct (iv_parts _ _ E1) as [O1 S1]. destruct (iv_parts _ _ E2) as [O2 S2]. cbn [fst snd] in *.
      exists [fun i j => window K 0 (pa_n sp) (fun j i => hblock K (pr_hmat p) L Y sy j i) j i]. split.
      - constructor; [|constructor]. pose proof (hmat_tvec K (pr_hmat p) L Y sy W (pr_threads p) P1 P2 Hsy Hct) as Q. rewrite E1, E2, S1, S2 in Q.
        exact (lop_tvec_ok K (local_hmatrix K (pr_threads p) (pr_hmat p) (o, s) (0%nat, pa_n sp) sy) (pa_n sp) _ (le_n _) eq_refl Q).
      - intros j i Hj Hi. cbn [lsum]. cbn [d_s hmat_operator] in Hj. rewrite window_all by exact Hj. unfold hblock, part_matrix. rewrite O1, O2. cbn [Nat.add].
        rewrite V by (try (unfold in_iv; cbn [fst snd]; apply andb_true_iff; split; [apply Nat.leb_le|apply Nat.ltb_lt]; lia); exact Hj).
        cbn [d_perm d_t d_s hmat_operator]. rewrite (Radd_comm (c_ring K)). apply (Radd_0_l (c_ring K)).
    Qed.

    Lemma op_trans_mat : forall mu, (1 <= mu)%nat -> compat K TrT sy -> sy <> SyH -> transposed_blocks_disjoint D A (run_tmat mu) mu.
    Proof.
      intros mu Hmu Hct Hnh r o s E. destruct (op_at r (o, s) E) as (p & (L & Y & W & P1 & P2 & E1 & E2 & V) & ->).
      destruct (iv_parts _ _ E1) as [O1 S1]. destruct (iv_parts _ _ E2) as [O2 S2]. cbn [fst snd] in *.
      exists [((0%nat, pa_n sp), fun i j => window K 0 (pa_n sp) (fun j i => hblock K (pr_hmat p) L Y sy j i) j i)]. split; [|split].
      - constructor; [|constructor]. pose proof (hmat_tmat K (pr_hmat p) L Y sy W (pr_threads p) P1 P2 Hsy mu Hmu Hct) as Q. rewrite E1, E2, S1, S2 in Q.
        exact (lop_tmat_ok K (local_hmatrix K (pr_threads p) (pr_hmat p) (o, s) (0%nat, pa_n sp) sy) (pa_n sp) _ (le_n _) eq_refl mu Hnh Q).
      - constructor; [constructor|constructor].
      - intros j i Hj Hi. cbn [lsum snd]. cbn [d_s hmat_operator] in Hj. rewrite window_all by exact Hj. unfold hblock, part_matrix. rewrite O1, O2. cbn [Nat.add].
        rewrite V by (try (unfold in_iv; cbn [fst snd]; apply andb_true_iff; split; [apply Nat.leb_le|apply Nat.ltb_lt]; lia); exact Hj).
        cbn [d_perm d_t d_s hmat_operator]. rewrite (Radd_comm (c_ring K)). apply (Radd_0_l (c_ring K)).
    Qed.
  End Blocks.

  (** ** The matrix of the operator *)
  Definition proc_value (sy : symc) (p : process) (i j : nat) : C :=
    match hleaves K (pr_hmat p) with Some (L, Y) => value L Y sy i j | None => 0 end.
  (** Entry (i,j), numbering of the partitions: the entry of the hierarchical matrix of the process that holds row i. *)
  Definition op_value (tp : partition) (sy : symc) (ps : list process) (i j : nat) : C :=
    match find (fun rp => in_iv i (fst rp)) (combine (pa_parts tp) ps) with Some (_, p) => proc_value sy p i j | None => 0 end.
  (** The same in user numbering. *)
  Definition op_matrix (tp sp : partition) (sy : symc) (ps : list process) (a b : nat) : C :=
    op_value tp sy ps (index_of a (pa_perm tp)) (index_of b (pa_perm sp)).

  (** The hierarchical matrix of the process is the rows [os] by the columns of [sp]; all its leaves are given to threads. *)
  Definition proc_ok (sp : partition) (sy : symc) (os : nat * nat) (p : process) : Prop :=
    exists L Y, hleaves K (pr_hmat p) = Some (L, Y) /\ well_formed (rt_val (pr_hmat p)) L Y sy /\
      Permutation (concat (map fst (pr_threads p))) L /\ Permutation (concat (map snd (pr_threads p))) Y /\
      interval (h_t (rt_val (pr_hmat p))) = os /\ interval (h_s (rt_val (pr_hmat p))) = (0%nat, pa_n sp).

  Lemma find_part : forall (l : list (nat * nat)) lo hi (ps : list process) r os p i, tiles lo hi l ->
    nth_error l r = Some os -> nth_error ps r = Some p -> in_iv i os = true ->
    find (fun rp => in_iv i (fst rp)) (combine l ps) = Some (os, p).
  Proof.
    induction l as [|[o s] l IH]; intros lo hi ps r os p i T E1 E2 Hi; [destruct r; discriminate|]. destruct ps as [|q ps]; [destruct r; discriminate|].
    cbn [tiles] in T. destruct T as [-> T]. destruct r as [|r]; cbn [nth_error] in E1, E2.
    - injection E1 as <-. injection E2 as <-. cbn [combine find fst]. rewrite Hi. reflexivity.
    - cbn [combine find fst]. destruct (in_iv i (lo, s)) eqn:E; [exfalso|exact (IH _ _ _ _ _ _ _ T E1 E2 Hi)].
      apply nth_error_In in E1. destruct os as [o' s']. pose proof (tiles_In _ _ _ _ _ T E1) as Q.
      unfold in_iv in Hi, E. cbn [fst snd] in Hi, E. apply andb_true_iff in Hi, E. destruct Hi as [I1 I2], E as [F1 F2].
      apply Nat.leb_le in I1, F1. apply Nat.ltb_lt in I2, F2. lia.
  Qed.

  Lemma procs_hold : forall tp sp sy ps n m, partition_ok tp n -> partition_ok sp m ->
    Forall2 (proc_ok sp sy) (pa_parts tp) ps ->
    Forall2 (holds_part sp sy (fun i j => op_matrix tp sp sy ps (user_index true tp i) (user_index true sp j))) (pa_parts tp) ps.
  Proof.
    intros tp sp sy ps n m HT HS H.
    assert (G : forall r os p, nth_error (pa_parts tp) r = Some os -> nth_error ps r = Some p -> proc_ok sp sy os p ->
      holds_part sp sy (fun i j => op_matrix tp sp sy ps (user_index true tp i) (user_index true sp j)) os p).
    { intros r os p E1 E2 (L & Y & HL & W & P1 & P2 & I1 & I2). exists L, Y. split; [exact W|]. split; [exact P1|]. split; [exact P2|].
      split; [exact I1|]. split; [exact I2|]. intros i j Hi Hj. unfold op_matrix, user_index.
      assert (Bi : (i < pa_n tp)%nat).
      { destruct os as [o s]. pose proof (nth_error_In _ _ E1) as Q. pose proof (tiles_In _ _ _ _ _ (po_tiles _ _ HT) Q) as R.
        unfold in_iv in Hi. cbn [fst snd] in Hi. apply andb_true_iff in Hi. destruct Hi as [_ Hi]. apply Nat.ltb_lt in Hi. lia. }
      assert (L1 : length (pa_perm tp) = pa_n tp) by (rewrite (Permutation_length (po_perm _ _ HT)); apply seq_length).
      assert (L2 : length (pa_perm sp) = pa_n sp) by (rewrite (Permutation_length (po_perm _ _ HS)); apply seq_length).
      rewrite (index_of_nth (pa_perm tp) i) by (first [lia|eapply Permutation_NoDup; [exact (Permutation_sym (po_perm _ _ HT))|apply seq_NoDup]]).
      rewrite (index_of_nth (pa_perm sp) j) by (first [lia|eapply Permutation_NoDup; [exact (Permutation_sym (po_perm _ _ HS))|apply seq_NoDup]]).
      unfold op_value. rewrite (find_part _ _ _ _ _ _ _ _ (po_tiles _ _ HT) E1 E2 Hi). unfold proc_value. rewrite HL. reflexivity. }
    assert (Q : forall pre1 pre2 l1 l2, pa_parts tp = pre1 ++ l1 -> ps = pre2 ++ l2 -> length pre1 = length pre2 -> Forall2 (proc_ok sp sy) l1 l2 ->
      Forall2 (holds_part sp sy (fun i j => op_matrix tp sp sy ps (user_index true tp i) (user_index true sp j))) l1 l2).
    { intros pre1 pre2 l1. revert pre1 pre2. induction l1 as [|os l1 IH]; intros pre1 pre2 l2 E1 E2 EL F; inversion F as [|? p ? l2' Fx Fl]; subst l2; constructor.
      - apply (G (length pre1)); [rewrite E1, nth_error_app2, Nat.sub_diag by lia; reflexivity|rewrite E2, EL, nth_error_app2, Nat.sub_diag by lia; reflexivity|exact Fx].
      - apply (IH (pre1 ++ [os]) (pre2 ++ [p])); [rewrite <- app_assoc; exact E1|rewrite <- app_assoc; exact E2|rewrite !app_length; cbn; lia|exact Fl]. }
    exact (Q [] [] _ _ eq_refl eq_refl eq_refl H).
  Qed.

  (** Entries compared with those of a generator. *)
  Lemma op_matrix_within : forall tp sp sy ps n m (G : nat -> nat -> C) (R : C -> C -> Prop), partition_ok tp n -> partition_ok sp m ->
    length ps = length (pa_parts tp) ->
    (forall r os p, nth_error (pa_parts tp) r = Some os -> nth_error ps r = Some p ->
      forall i j, in_iv i os = true -> (j < pa_n sp)%nat -> R (proc_value sy p i j) (G (nth i (pa_perm tp) 0%nat) (nth j (pa_perm sp) 0%nat))) ->
    forall a b, (a < pa_n tp)%nat -> (b < pa_n sp)%nat -> R (op_matrix tp sp sy ps a b) (G a b).
  Proof.
    intros tp sp sy ps n m G R HT HS HL H a b Ha Hb. unfold op_matrix.
    assert (L1 : length (pa_perm tp) = pa_n tp) by (rewrite (Permutation_length (po_perm _ _ HT)); apply seq_length).
    assert (L2 : length (pa_perm sp) = pa_n sp) by (rewrite (Permutation_length (po_perm _ _ HS)); apply seq_length).
    assert (Ia : In a (pa_perm tp)) by (eapply Permutation_in; [exact (Permutation_sym (po_perm _ _ HT))|apply in_seq; lia]).
    assert (Ib : In b (pa_perm sp)) by (eapply Permutation_in; [exact (Permutation_sym (po_perm _ _ HS))|apply in_seq; lia]).
    destruct (index_of_In _ _ Ia) as [Bi Ei]. destruct (index_of_In _ _ Ib) as [Bj Ej].
    set (i := index_of a (pa_perm tp)) in *. set (j := index_of b (pa_perm sp)) in *.
    assert (X : exists os, In os (pa_parts tp) /\ in_iv i os = true).
    { pose proof (po_tiles _ _ HT) as T. rewrite L1 in Bi. clear - T Bi. assert (Q : (0 <= i)%nat) by lia. revert T Q. generalize 0%nat.
      induction (pa_parts tp) as [|[o s] l IH]; intros lo T Q; cbn [tiles] in T; [lia|]. destruct T as [-> T].
      destruct (in_iv i (lo, s)) eqn:E; [exists (lo, s); split; [left; reflexivity|exact E]|].
      destruct (IH (lo + s)%nat T) as (os & I1 & I2); [|exists os; split; [right; exact I1|exact I2]].
      unfold in_iv in E. cbn [fst snd] in E. destruct (Nat.leb_spec lo i); [|lia]. destruct (Nat.ltb_spec i (lo + s)); [discriminate|lia]. }
    destruct X as (os & Io & Hi). destruct (In_nth_error _ _ Io) as [r Er].
    assert (Br : (r < length ps)%nat) by (rewrite HL; apply nth_error_Some; congruence).
    destruct (nth_error ps r) as [p|] eqn:Ep; [|apply nth_error_None in Ep; lia].
    unfold op_value. rewrite (find_part _ _ _ _ _ _ _ _ (po_tiles _ _ HT) Er Ep Hi).
    specialize (H r os p Er Ep i j Hi ltac:(lia)). rewrite Ei, Ej in H. exact H.
  Qed.
End Op.
