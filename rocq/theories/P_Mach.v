(** * C83: machine integers: the cost tests of the compressors and the counters of the clusters.

    Vocabulary: MachModel.v ([cost_test]: q * (M + N) > M * N in 32 bits, [None] on overflow; [cost_test_wrap]: the same with wrap-around; [full_aca_m], [partial_aca_m], [sym_partial_aca_m],
    [svd_generator_m]: the compressors with this test; [child_counter]: the counter given to a child), CompModel.v (the compressors with mathematical integers, about which C30-C33 and
    C60 are proved), ClusterModel.v. *)

From Coq Require Import List Arith ZArith Bool Lia Permutation.
From Verif Require Import Algebra BlasModel HMatModel Field DistModel CompModel ClusterModel ClusterSpec ClusterProofs ClusterPartition ClusterMore ClusterFinal ClusterIO ClusterDepth MachModel MachProofs P_Cluster BalanceProofs P_Balance.
Import ListNotations.

(** The test: defined exactly when nothing overflows, and then right. *)
Theorem C83_test : forall q M N b, cost_test q M N = Some b <->
  (Z.of_nat M + Z.of_nat N < 2 ^ 31)%Z /\ (Z.of_nat q * (Z.of_nat M + Z.of_nat N) < 2 ^ 31)%Z /\ (Z.of_nat M * Z.of_nat N < 2 ^ 31)%Z /\ (b = true <-> M * N < q * (M + N)).
Proof.
  intros q M N b. split.
  - intros H. apply cost_test_inv in H. destruct H as (H1 & H2 & H3 & ->). split; [exact H1|]. split; [exact H2|]. split; [exact H3|]. apply Nat.ltb_lt.
  - intros (H1 & H2 & H3 & H4). rewrite cost_test_ok by assumption. f_equal. destruct (Nat.ltb_spec (M * N) (q * (M + N))) as [L|L]; destruct b; try reflexivity.
    + symmetry. apply H4. exact L.
    + assert (M * N < q * (M + N)) by (apply H4; reflexivity). lia.
Qed.
Print Assumptions C83_test.

Section Compressors.
  Variable X : Num.
  Notation K := (fk (nfd X)).
  Notation C := (car K).

  (** Blocks such that (M + 1) (N + 1) <= 2^31: no overflow, and the compressors are those of C31-C33, C60. *)
  Theorem C83_full_aca : forall over tol M N (A : nat -> nat -> C) rank, ((Z.of_nat M + 1) * (Z.of_nat N + 1) <= 2 ^ 31)%Z ->
    full_aca_m X cost_test over tol M N A rank = full_aca X over tol M N A rank.
  Proof.
    intros over tol M N A rank H. unfold full_aca_m, full_aca. rewrite allocate_ok by nia. rewrite full_loop_same; [reflexivity| |].
    - cbn [mr mc of_fun mkMat]. exact H.
    - cbn [Nat.mul]. lia.
  Qed.
  Theorem C83_partial_aca : forall over tol M N (A : nat -> nat -> C) rank, ((Z.of_nat M + 1) * (Z.of_nat N + 1) <= 2 ^ 31)%Z ->
    partial_aca_m X cost_test over tol M N A rank = partial_aca X over tol M N A rank.
  Proof. intros over tol M N A rank H. unfold partial_aca_m, partial_aca, partial_start_m, partial_start. rewrite partial_loop_same; [reflexivity|exact H|cbn [Nat.mul]; lia]. Qed.
  Theorem C83_sym_partial_aca : forall over tol below M N (A : nat -> nat -> C) rank, ((Z.of_nat M + 1) * (Z.of_nat N + 1) <= 2 ^ 31)%Z ->
    sym_partial_aca_m X cost_test over tol below M N A rank = sym_partial_aca X over tol below M N A rank.
  Proof.
    intros over tol below M N A rank H. unfold sym_partial_aca_m, sym_partial_aca, partial_start_m, partial_start.
    destruct below; (rewrite partial_loop_same; [reflexivity|unfold fits; lia|cbn [Nat.mul]; lia]).
  Qed.
  (** The SVD allocates square matrices and its rank is not bounded by the test. *)
  Theorem C83_svd : forall small M N d rank, length (sv_s X d) = Nat.min M N -> (Z.of_nat M * Z.of_nat M < 2 ^ 31)%Z -> (Z.of_nat N * Z.of_nat N < 2 ^ 31)%Z ->
    (Z.of_nat (Nat.min M N) * (Z.of_nat M + Z.of_nat N) < 2 ^ 31)%Z ->
    svd_generator_m X cost_test small M N d rank = svd_generator X small M N d rank.
  Proof.
    intros small M N d rank HL HM HN Hm. unfold svd_generator_m, svd_generator. rewrite !allocate_ok by nia. destruct (svd_truncation X small (sv_s X d)) as [tr|] eqn:E; [|reflexivity].
    assert (tr <= Nat.min M N) by (rewrite <- HL; unfold svd_truncation in E; eapply trunc_loop_le; exact E). destruct (rank =? -1)%Z; [|reflexivity]. rewrite cost_test_ok by nia. reflexivity.
  Qed.

  (** Larger blocks: M N >= 2^31 is undefined behaviour in every compressor, for every matrix, whatever its rank. *)
  Theorem C83_large_blocks_refuted : forall over tol below small d M N (A : nat -> nat -> C) rank, (2 ^ 31 <= Z.of_nat M * Z.of_nat N)%Z -> rank <> 0%Z ->
    full_aca_m X cost_test over tol M N A rank = None /\ partial_aca_m X cost_test over tol M N A rank = None /\ sym_partial_aca_m X cost_test over tol below M N A rank = None /\
    svd_generator_m X cost_test small M N d rank = None.
  Proof.
    intros over tol below small d M N A rank H Hr. unfold full_aca_m, svd_generator_m, partial_aca_m, sym_partial_aca_m, partial_start_m. rewrite allocate_none by exact H.
    rewrite partial_loop_overflow by assumption. split; [reflexivity|]. split; [reflexivity|]. split; [|reflexivity]. destruct below; rewrite partial_loop_overflow; try reflexivity; try assumption. lia.
  Qed.
  (** With wrap-around, ACA with partial pivoting on a block of 65536 x 65536 (2^32 wraps to 0) gives up at once and asks for a dense block, whatever the matrix and the requested rank
      (a matrix of rank 1 included, which would take 131072 coefficients). *)
  Theorem C83_wrapped_refuted : forall over tol M N (A : nat -> nat -> C) rank, Z.of_nat M = 65536%Z -> Z.of_nat N = 65536%Z -> rank <> 0%Z ->
    partial_aca_m X cost_test_wrap over tol M N A rank = Some ((-1)%Z, empty_lrm X).
  Proof.
    intros over tol M N A rank HM HN Hr. unfold partial_aca_m, partial_start_m. replace (M * N + 2) with (S (M * N + 1)) by lia. rewrite partial_loop_wrapped; [reflexivity| |lia|lia|exact Hr].
    unfold cost_test_wrap. rewrite HM, HN. reflexivity.
  Qed.
End Compressors.
Print Assumptions C83_full_aca.
Print Assumptions C83_partial_aca.
Print Assumptions C83_sym_partial_aca.
Print Assumptions C83_svd.
Print Assumptions C83_large_blocks_refuted.
Print Assumptions C83_wrapped_refuted.
(** Blocks of 46339 x 46339, or 100 x 21000000, are within the guard. *)
Example C83_sizes_hyps : exists M N M' N', Z.of_nat M = 46339%Z /\ Z.of_nat N = 46339%Z /\ ((Z.of_nat M + 1) * (Z.of_nat N + 1) <= 2 ^ 31)%Z /\
  Z.of_nat M' = 100%Z /\ Z.of_nat N' = 21000000%Z /\ ((Z.of_nat M' + 1) * (Z.of_nat N' + 1) <= 2 ^ 31)%Z.
Proof. exists (Z.to_nat 46339), (Z.to_nat 46339), (Z.to_nat 100), (Z.to_nat 21000000). rewrite !Z2Nat.id by lia. lia. Qed.

(** ** Counters of the clusters *)
Lemma node_size : forall sorter strat P fuel s t loc u, sorter_ok sorter -> (forall part, bp_given P = Some part -> tiles 0 (bp_n P) part) -> cluster_tree sorter strat P fuel = Some (s, t, loc) ->
  In u (ct_nodes t) -> ci_size (ct_info u) <= bp_n P.
Proof.
  intros sorter strat P fuel s t loc u Hs Hg H Hu. destruct (C02_children_tile sorter strat P fuel s t loc Hs Hg H) as (R & T & _). replace (bp_n P) with (ci_size (ct_info t)) by (unfold interval in R; congruence).
  assert (G : forall w, (forall v, In v (ct_nodes w) -> node_ok v) -> forall v, In v (ct_nodes w) -> ci_size (ct_info v) <= ci_size (ct_info w)).
  { clear. intros w. induction w as [c ts IH] using ctree_ind'. intros H v Hv. destruct (In_nodes_inv _ _ _ Hv) as [->|(k & Hk & Hv')]; [lia|].
    specialize (IH k Hk (fun x Hx => H x (In_nodes_child _ _ _ _ Hk Hx)) v Hv'). destruct (H _ (In_nodes_root _)) as [Q|Q]; cbn [ct_children] in Q; [rewrite Q in Hk; destruct Hk|].
    apply tiles_total in Q. assert (ci_size (ct_info k) <= fold_right plus 0 (map snd (map interval ts))).
    { clear - Hk. induction ts as [|x ts IH]; [destruct Hk|]. cbn [map fold_right interval snd]. destruct Hk as [<-|Hk]; [lia|]. specialize (IH Hk). lia. }
    cbn [ct_info] in *. lia. }
  apply (G t T u Hu).
Qed.
Lemma part_of : forall t d u, (forall v, In v (ct_nodes t) -> depth_ok v) -> In u (ct_nodes t) -> ci_depth (ct_info t) <= d -> d <= ci_depth (ct_info u) -> exists p, In p (ct_nodes t) /\ In u (ct_nodes p) /\ ci_depth (ct_info p) = d.
Proof.
  intros t d. induction t as [c ts IH] using ctree_ind'. intros u H Hu H1 H2. destruct (Nat.eq_dec (ci_depth (ct_info (CNode c ts))) d) as [E|E].
  - exists (CNode c ts). split; [apply In_nodes_root|]. split; [exact Hu|exact E].
  - destruct (In_nodes_inv _ _ _ Hu) as [->|(k & Hk & Hu')]; [lia|]. pose proof (H _ (In_nodes_root _) k Hk) as D.
    destruct (IH k Hk u (fun v Hv => H v (In_nodes_child _ _ _ _ Hk Hv)) Hu' ltac:(lia) H2) as (p & P1 & P2 & P3). exists p. split; [eapply In_nodes_child; eauto|]. auto.
Qed.

(** RegularSplitting, a minimal size of at least one: the counters never overflow when the number of parts times the number of points fits; they are those of the model. *)
Theorem C83_counters : forall sorter P fuel s t loc u p k, sorter_ok sorter -> 2 <= bp_nc P -> 1 <= bp_sp P -> 1 <= bp_min P ->
  (bp_given P = None -> bp_nc P <= bp_sp P -> 1 <= bp_logdepth P /\ bp_nc P ^ bp_logdepth P <= bp_sp P) ->
  (forall part, bp_given P = Some part -> tiles 0 (bp_n P) part /\ length part = bp_sp P) ->
  (Z.of_nat (bp_sp P) * Z.of_nat (bp_n P) <= 2 ^ 31)%Z -> (Z.of_nat (bp_sp P) * Z.of_nat (bp_sp P) <= 2 ^ 31)%Z ->
  cluster_tree sorter Regular P fuel = Some (s, t, loc) -> processed P t u -> nth_error (ct_children u) p = Some k ->
  child_counter P (ct_info u) p = Some (Z.of_nat (ci_counter (ct_info k))).
Proof.
  intros sorter P fuel s t loc u p k Hs Hnc Hsp Hmin Hlog Hg Hn Hn2 H Hu Hk. destruct (child_counter_model sorter Regular P fuel s t loc u p k H Hu Hk) as [Hp Ek].
  assert (HL : forall part, bp_given P = Some part -> length part = bp_sp P) by (intros part Q; apply (Hg part Q)). assert (HT : forall part, bp_given P = Some part -> tiles 0 (bp_n P) part) by (intros part Q; apply (Hg part Q)).
  pose proof (all_counters P Hsp Hlog Hnc sorter Regular fuel s t loc HL H u Hu) as Cu. destruct (final_depth_ok _ _ _ _ _ _ _ H) as [Hr Hd].
  assert (Hut : In u (ct_nodes t)). { unfold processed in Hu. destruct (bp_given P); [|exact Hu]. destruct Hu as (w & Hw & Hu). destruct t as [c ts]. eapply In_nodes_child; eauto. }
  assert (Hkin : In k (ct_children u)) by (eapply nth_error_In; exact Hk).
  assert (Hkt : In k (ct_nodes t)). { eapply nodes_trans'; [exact Hut|]. destruct u as [c ts]. eapply In_nodes_child; [exact Hkin|apply In_nodes_root]. }
  unfold child_counter. destruct (on_level P (ct_info u)) eqn:Ho.
  - destruct (on_level_nc P Hsp Hlog Hnc (ct_info u) Ho Cu p Hp) as [Q1 Q2]. rewrite imul_some by lia. rewrite iadd_some by lia. rewrite imul_some by nia. rewrite iadd_some by nia. f_equal. lia.
  - assert (En : current_nc P (ct_info u) = bp_nc P) by (unfold current_nc; rewrite Ho; reflexivity). rewrite En in *.
    assert (B : (Z.of_nat (ci_counter (ct_info k)) < 2 ^ 31)%Z).
    { assert (Ck : cbound P (ct_info k)).
      { apply (cbound_child P Hsp Hlog Hnc (ct_info u) (ct_info k) p Cu); [rewrite En; exact Hp|exact (Hd u Hut k Hkin)| |rewrite Ho, En; exact Ek].
        intros Q. unfold processed in Hu. unfold part_depth. destruct (bp_given P); [|congruence]. destruct Hu as (w & Hw & Hu). pose proof (Hd t (In_nodes_root t) w Hw) as D1.
        pose proof (deeper w u (fun v Hv => Hd v ltac:(destruct t as [c ts]; eapply In_nodes_child; eauto)) Hu). lia. }
      unfold cbound in Ck. destruct (Nat.ltb_spec (ci_depth (ct_info k)) (part_depth P)) as [L|L].
      - assert (bp_given P = None /\ bp_nc P <= bp_sp P /\ part_depth P = bp_logdepth P) as (G1 & G2 & G3).
        { unfold part_depth in *. pose proof (Hd u Hut k Hkin). destruct (bp_given P); [lia|]. destruct (Nat.leb_spec (bp_nc P) (bp_sp P)); [auto|lia]. }
        destruct (Hlog G1 G2) as [_ G4]. assert (bp_nc P ^ ci_depth (ct_info k) <= bp_nc P ^ bp_logdepth P) by (apply Nat.pow_le_mono_r; lia). nia.
      - pose proof (Hd u Hut k Hkin) as Dk. destruct (Nat.eq_dec (ci_depth (ct_info k)) (part_depth P)) as [E|E].
        + rewrite E, Nat.sub_diag in Ck. cbn [Nat.pow] in Ck. nia.
        + destruct (part_of t (part_depth P) k Hd Hkt) as (q & Q1 & Q2 & Q3); [rewrite Hr; cbn; lia|exact L|].
          assert (Hb : below P t q). { split; [exact Q1|]. split; [lia|]. unfold part_depth in Q3. destruct (bp_given P) eqn:Eg; [lia|]. destruct (Nat.leb_spec (bp_nc P) (bp_sp P)) as [L2|L2]; [destruct (Hlog eq_refl L2); lia|lia]. }
          set (j := ci_depth (ct_info k) - part_depth P - 1). assert (Ej : ci_depth (ct_info k) = ci_depth (ct_info q) + S j) by (unfold j; lia).
          pose proof (even_depth _ _ Hnc q (regular_even _ _ _ _ _ _ _ Hnc H (or_introl Hb)) k j Q2 Ej) as ED. pose proof (node_size sorter Regular P fuel s t loc q Hs HT H Q1) as SZ.
          replace (ci_depth (ct_info k) - part_depth P) with (S j) in Ck by lia. rewrite Nat.pow_succ_r' in Ck. set (x := bp_nc P ^ j) in *. clearbody x.
          assert (bp_nc P * x <= bp_n P) by nia. nia. }
    rewrite imul_some by nia. rewrite iadd_some by nia. f_equal. lia.
Qed.
Print Assumptions C83_counters.

(** GeometricSplitting: 66 points on a line, in pairs at distances that grow tenfold: the tree has 33 levels and the counters of the last ones overflow.  The points
    are sorted from the start: the sort changes nothing. *)
Definition on_line' (i : nat) : Z := (- 10 ^ (33 - Z.of_nat (i / 2)) + Z.of_nat (i mod 2))%Z.
Definition along_line' (c : cinfo) (perm : list nat) (nc first a : nat) : bool :=
  (on_line' (nth (ci_off c + ci_size c - 1)%nat perm 0%nat) - on_line' (nth (ci_off c) perm 0%nat) <? Z.of_nat nc * (on_line' a - on_line' first))%Z.
Definition lineP : bparams := mkBparams 66 2 1 1 None 1.
Notation line_tree := (cluster_tree (fun c perm => slice (ci_off c) (ci_size c) perm) (Geometric along_line') lineP 100).
(** The second child, [j] times. *)
Fixpoint chain (j : nat) (u : ctree) : option ctree :=
  match j with 0 => Some u | S j' => match nth_error (ct_children u) 1 with Some k => chain j' k | None => None end end.
(** Lazy evaluation: the counters, unary numbers, must not be computed. *)
Lemma line_depth : match line_tree with Some (s, t, loc) => match nth_error (ct_children t) 0 with Some q => match chain 32 q with Some _ => true | None => false end | None => false end | None => false end = true.
Proof. lazy. reflexivity. Qed.
Lemma chain_counter : forall sorter strat fuel s t loc j q u, cluster_tree sorter strat lineP fuel = Some (s, t, loc) -> below lineP t q -> chain j q = Some u ->
  below lineP t u /\ ci_counter (ct_info u) + 1 = (ci_counter (ct_info q) + 1) * 2 ^ j.
Proof.
  intros sorter strat fuel s t loc. induction j as [|j IH]; intros q u H Hq Hc; cbn [chain] in Hc; [injection Hc as <-; cbn [Nat.pow]; split; [exact Hq|lia]|].
  destruct (nth_error (ct_children q) 1) as [k|] eqn:E; [|discriminate].
  assert (Hk : below lineP t k). { apply (below_down sorter strat lineP fuel s t loc q k H Hq). destruct q as [c ts]. eapply In_nodes_child; [eapply nth_error_In; exact E|apply In_nodes_root]. }
  destruct (IH k u H Hk Hc) as [I1 I2]. split; [exact I1|]. destruct (child_counter_model sorter strat lineP fuel s t loc q 1 k H (below_processed _ _ _ _ _ _ _ _ H Hq) E) as [_ Ek].
  assert (Ho : on_level lineP (ct_info q) = false). { unfold on_level. change (bp_given lineP) with (@None (list (nat * nat))). apply Nat.eqb_neq. destruct Hq as (_ & Hq & _). lia. }
  rewrite Ho, (below_nc lineP t q Hq) in Ek. change (bp_nc lineP) with 2 in Ek. rewrite I2, Ek. cbn [Nat.pow]. lia.
Qed.
Lemma chain_last : forall j q u, chain (S j) q = Some u -> exists v, chain j q = Some v /\ nth_error (ct_children v) 1 = Some u.
Proof.
  induction j as [|j IH]; intros q u H; cbn [chain] in *.
  - exists q. split; [reflexivity|]. destruct (nth_error (ct_children q) 1); [injection H as <-; reflexivity|discriminate].
  - destruct (nth_error (ct_children q) 1) as [k|] eqn:E; [|discriminate]. cbn [chain] in IH. apply IH. exact H.
Qed.
Lemma line_overflow : forall sorter strat fuel o, o = cluster_tree sorter strat lineP fuel ->
  match o with Some (s, t, loc) => match nth_error (ct_children t) 0 with Some q => match chain 32 q with Some _ => true | None => false end | None => false end | None => false end = true ->
  exists s t loc u k, o = Some (s, t, loc) /\ In u (ct_nodes t) /\ nth_error (ct_children u) 1 = Some k /\ child_counter lineP (ct_info u) 1 = None.
Proof.
  intros sorter strat fuel o Eo L. destruct o as [[[s t] loc]|]; [|discriminate]. symmetry in Eo. rename Eo into Et. destruct (nth_error (ct_children t) 0) as [q|] eqn:Eq; [|discriminate].
  destruct (chain 32 q) as [k|] eqn:Ec; [|discriminate]. clear L. destruct (chain_last 31 q k Ec) as (u & Eu & Ek). exists s, t, loc, u, k.
  destruct (final_depth_ok _ _ _ _ _ _ _ Et) as [Hr Hd]. pose proof (nth_error_In _ _ Eq) as Hq. pose proof (Hd t (In_nodes_root t) q Hq) as Dq. rewrite Hr in Dq. cbn [ci_depth root_info] in Dq.
  assert (Hb : below lineP t q). { split; [destruct t as [c ts]; eapply In_nodes_child; [exact Hq|apply In_nodes_root]|]. rewrite Dq. cbn. lia. }
  destruct (chain_counter _ _ _ _ _ _ 31 q u Et Hb Eu) as [Hu Cu]. split; [reflexivity|]. split; [apply Hu|]. split; [exact Ek|].
  unfold child_counter. rewrite (below_nc lineP t u Hu). change (bp_nc lineP) with 2. rewrite imul_none; [reflexivity|].
  pose proof (Nat2Z.inj_pow 2 31) as E31. revert Cu E31. generalize (2 ^ 31). intros x Cu E31. change (Z.of_nat 2 ^ Z.of_nat 31)%Z with (2 ^ 31)%Z in E31. nia.
Qed.
Theorem C83_counters_refuted : exists s t loc u k, line_tree = Some (s, t, loc) /\ In u (ct_nodes t) /\ nth_error (ct_children u) 1 = Some k /\ child_counter lineP (ct_info u) 1 = None.
Proof.
  apply (line_overflow (fun c perm => slice (ci_off c) (ci_size c) perm) (Geometric along_line') 100); [reflexivity|]. exact line_depth.
Qed.
Print Assumptions C83_counters_refuted.
(** The guards of [C83_counters] hold for a tree of 23 points in five parts. *)
Example C83_counters_hyps : sorter_ok (isort ex_key) /\ 2 <= bp_nc exP /\ 1 <= bp_sp exP /\ 1 <= bp_min exP /\ bp_nc exP ^ bp_logdepth exP <= bp_sp exP /\
  (Z.of_nat (bp_sp exP) * Z.of_nat (bp_n exP) <= 2 ^ 31)%Z /\ match ex_tree with Some (s, t, loc) => 10 <= length (ct_nodes t) | None => False end.
Proof.
  split; [apply isort_ok|]. split; [cbn; lia|]. split; [cbn; lia|]. split; [cbn; lia|]. split; [cbn; lia|]. split; [cbn; lia|].
  assert (Q : match ex_tree with Some (s, t, loc) => 10 <=? length (ct_nodes t) | None => false end = true) by (vm_compute; reflexivity).
  destruct ex_tree as [[[s t] loc]|]; [apply Nat.leb_le; exact Q|discriminate].
Qed.
