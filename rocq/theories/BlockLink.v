(** * The trees built by the cluster tree builder satisfy the hypotheses of the block tree theorems. *)

From Coq Require Import List Arith ZArith Bool Lia Permutation.
From Verif Require Import ClusterModel ClusterSpec ClusterProofs ClusterPartition ClusterMore ClusterFinal IOModel IOSpec IOProofs
  ClusterIO ClusterDepth BlockModel BlockSpec BlockProofs BlockFinal.
Import ListNotations.

Lemma partitioned_sub : forall t parts u, partitioned t parts -> In u (ct_nodes t) -> partitioned u parts.
Proof.
  intros t parts u H Hu.
  assert (Q : forall v, In v (ct_nodes u) -> In v (ct_nodes t)) by (intros v Hv; eapply nodes_trans; eauto).
  split.
  - intros v Hv. apply (pt_node _ _ H), Q, Hv.
  - intros v Hv. apply (pt_above _ _ H), Q, Hv.
  - apply (pt_rank _ _ H).
  - apply (pt_disjoint _ _ H).
  - intros v Hv. apply (pt_below _ _ H), Q, Hv.
  - intros v k Hv. apply (pt_first _ _ H), Q, Hv.
Qed.

Lemma nonempty_sub : forall t u, nonempty t -> In u (ct_nodes t) -> nonempty u.
Proof. intros t u H Hu v Hv. apply H. eapply nodes_trans; eauto. Qed.

Section Link.
  Variable t : ctree.
  Variable d : nat.
  Hypothesis HN : forall u, In u (ct_nodes t) -> node_ok u /\ depth_ok u.
  Hypothesis HP : nonempty t.
  Hypothesis HA : forall u, In u (ct_nodes t) -> ci_depth (ct_info u) < d -> ct_children u <> [] /\ (ci_rank (ct_info u) < 0)%Z.
  Hypothesis HD : ci_depth (ct_info t) < d.
  Notation parts := (level d t).
  Variable n : nat.
  Hypothesis HR : map (fun u => ci_rank (ct_info u)) parts = map Z.of_nat (seq 0 n).
  Hypothesis HB : forall u v, In u parts -> In v (ct_nodes u) -> ci_rank (ct_info v) = ci_rank (ct_info u).

  Lemma node_sub : forall u v, In u (ct_nodes t) -> In v (ct_nodes u) -> c_off u <= c_off v /\ c_off v + c_size v <= c_off u + c_size u.
  Proof.
    intros u. induction u as [c ts IH] using ctree_ind'. intros v Hu Hv.
    destruct (In_nodes_inv _ _ _ Hv) as [->|(k & Hk & Hv')]; [lia|].
    assert (Hkn : In k (ct_nodes t)) by (eapply nodes_trans; [exact Hu|]; eapply In_nodes_child; [exact Hk|apply In_nodes_root]).
    specialize (IH k Hk v Hkn Hv'). destruct (HN _ Hu) as [[E|Tl] _]; [cbn in E; subst ts; contradiction|].
    cbn [ct_children] in Tl. assert (In (interval k) (map interval ts)) by (apply in_map, Hk).
    unfold interval in H at 1. pose proof (tiles_In _ _ _ _ _ Tl H). unfold c_off, c_size in *. lia.
  Qed.

  Lemma deep_in_part : forall w u, In w (ct_nodes t) -> ci_depth (ct_info w) <= d -> In u (ct_nodes w) -> d <= ci_depth (ct_info u) ->
    exists v, In v (level d w) /\ In u (ct_nodes v).
  Proof.
    induction w as [c ts IH] using ctree_ind'. intros u Hw Hdw Hu Hdu. cbn [ct_info] in Hdw.
    destruct (Nat.eq_dec (ci_depth c) d) as [E|E].
    - exists (CNode c ts). split; [|exact Hu]. apply filter_In. split; [apply In_nodes_root|]. apply Nat.eqb_eq, E.
    - destruct (In_nodes_inv _ _ _ Hu) as [->|(k & Hk & Hu')]; [cbn in Hdu; lia|].
      assert (Hkn : In k (ct_nodes t)) by (eapply nodes_trans; [exact Hw|]; eapply In_nodes_child; [exact Hk|apply In_nodes_root]).
      destruct (IH k Hk u Hkn) as (v & Hv & Q); auto.
      { destruct (HN _ Hw) as [_ Q]. rewrite (Q k Hk). cbn. lia. }
      exists v. split; [|exact Q]. rewrite level_above by exact E. apply in_concat. exists (level d k). split; [apply in_map, Hk|exact Hv].
  Qed.

  Lemma level_nodes : forall w v, In v (level d w) -> In v (ct_nodes w) /\ ci_depth (ct_info v) = d.
  Proof. intros w v H. apply filter_In in H. destruct H as [H Q]. apply Nat.eqb_eq in Q. auto. Qed.

  Lemma part_index : forall v, In v parts -> nth_error parts (Z.to_nat (c_rank v)) = Some v.
  Proof.
    intros v Hv. destruct (In_nth_error _ _ Hv) as [p Hp].
    assert (c_rank v = Z.of_nat p); [|rewrite H, Nat2Z.id; exact Hp].
    apply (map_nth_error (fun u => ci_rank (ct_info u))) in Hp. rewrite HR in Hp.
    unfold c_rank. assert (p < n).
    { assert (nth_error (map Z.of_nat (seq 0 n)) p <> None) by (rewrite Hp; discriminate).
      apply nth_error_Some in H. rewrite map_length, seq_length in H. exact H. }
    assert (Q : nth_error (map Z.of_nat (seq 0 n)) p = Some (Z.of_nat p)).
    { apply map_nth_error. rewrite (nth_error_nth' _ 0) by (rewrite seq_length; exact H). rewrite seq_nth by exact H. reflexivity. }
    congruence.
  Qed.

  Lemma rank_pos : forall p u, nth_error parts p = Some u -> ci_rank (ct_info u) = Z.of_nat p.
  Proof.
    intros p u Hp. apply (map_nth_error (fun u => ci_rank (ct_info u))) in Hp. rewrite HR in Hp.
    assert (p < n).
    { assert (nth_error (map Z.of_nat (seq 0 n)) p <> None) by (rewrite Hp; discriminate).
      apply nth_error_Some in H. rewrite map_length, seq_length in H. exact H. }
    assert (Q : nth_error (map Z.of_nat (seq 0 n)) p = Some (Z.of_nat p)).
    { apply map_nth_error. rewrite (nth_error_nth' _ 0) by (rewrite seq_length; exact H). rewrite seq_nth by exact H. reflexivity. }
    congruence.
  Qed.

  Lemma nonneg_deep : forall u, In u (ct_nodes t) -> (0 <= ci_rank (ct_info u))%Z -> d <= ci_depth (ct_info u).
  Proof.
    intros u Hu Hr. destruct (Nat.le_gt_cases d (ci_depth (ct_info u))) as [Q|Q]; [exact Q|].
    destruct (HA u Hu Q). lia.
  Qed.

  Lemma deep_part : forall u, In u (ct_nodes t) -> d <= ci_depth (ct_info u) ->
    exists v, In v parts /\ In u (ct_nodes v) /\ ci_rank (ct_info u) = ci_rank (ct_info v) /\ (0 <= ci_rank (ct_info u))%Z.
  Proof.
    intros u Hu Hd. destruct (deep_in_part t u (In_nodes_root t)) as (v & Hv & Q); [lia|exact Hu|exact Hd|].
    exists v. split; [exact Hv|]. split; [exact Q|]. rewrite (HB v u Hv Q). split; [reflexivity|].
    destruct (In_nth_error _ _ Hv) as [p Hp]. rewrite (rank_pos p v Hp). lia.
  Qed.

  Lemma neg_high : forall u, In u (ct_nodes t) -> (ci_rank (ct_info u) < 0)%Z -> ci_depth (ct_info u) < d.
  Proof.
    intros u Hu Hr. destruct (Nat.le_gt_cases d (ci_depth (ct_info u))) as [Q|Q]; [|exact Q].
    destruct (deep_part u Hu Q) as (_ & _ & _ & _ & R). lia.
  Qed.

  Lemma filter_id : forall A (p : A -> bool) l, (forall x, In x l -> p x = true) -> filter p l = l.
  Proof. intros A p. induction l as [|x l IH]; intros H; [reflexivity|]. cbn. rewrite (H x (or_introl eq_refl)). f_equal. apply IH. intros y Hy. apply H. right; exact Hy. Qed.

  Lemma contains_ok : forall a b, contains a b = true <-> c_off a <= c_off b /\ c_off b + c_size b <= c_off a + c_size a.
  Proof. intros a b. unfold contains. rewrite andb_true_iff, !Nat.leb_le. lia. Qed.

  (** The parts inside a cluster are those of its subtree. *)
  Lemma inside : forall w, In w (ct_nodes t) -> forall u, In u (ct_nodes w) -> ci_depth (ct_info u) < d ->
    filter (contains u) (level d w) = level d u.
  Proof.
    induction w as [c ts IH] using ctree_ind'. intros Hw u Hu Hdu.
    assert (Hself : ci_depth c < d).
    { pose proof (level_deep (CNode c ts) (fun v Hv => proj2 (HN v (nodes_trans _ _ _ Hw Hv))) u Hu) as Q. cbn in Q. lia. }
    destruct (In_nodes_inv _ _ _ Hu) as [->|(k & Hk & Hu')].
    - apply filter_id. intros v Hv. apply level_nodes in Hv. apply contains_ok. apply node_sub; [exact Hw|apply Hv].
    - assert (Hkt : forall x, In x ts -> In x (ct_nodes t)).
      { intros x Hx. eapply nodes_trans; [exact Hw|]. eapply In_nodes_child; [exact Hx|apply In_nodes_root]. }
      rewrite level_above by lia. rewrite filter_concat, map_map.
      destruct (HN _ Hw) as [[E|Tl] _]; [cbn in E; subst ts; contradiction|]. cbn [ct_children] in Tl.
      destruct (in_split k ts Hk) as (a & b & Ets).
      assert (Hun : In u (ct_nodes t)) by (eapply nodes_trans; [apply Hkt, Hk|exact Hu']).
      pose proof (node_sub k u (Hkt k Hk) Hu') as Sub. pose proof (HP u Hun) as Pu. fold (c_size u) in Pu.
      assert (Far : forall x, In x a \/ In x b -> filter (contains u) (level d x) = []).
      { intros x Hx. apply filter_none. intros v Hv. apply level_nodes in Hv. destruct Hv as [Hv _].
        assert (Hxt : In x ts) by (rewrite Ets; apply in_or_app; destruct Hx; [left|right; right]; assumption).
        pose proof (node_sub x v (Hkt x Hxt) Hv) as Sv. apply Bool.not_true_iff_false. intros C. apply contains_ok in C.
        assert (Hvn : In v (ct_nodes t)) by (eapply nodes_trans; [apply Hkt, Hxt|exact Hv]).
        pose proof (HP v Hvn) as Pv. fold (c_size v) in Pv.
        rewrite Ets, map_app in Tl. cbn [map] in Tl. 
        assert (Ta : forall l lo hi (r : list (nat * nat)), tiles lo hi (l ++ r) -> exists m, tiles lo m l /\ tiles m hi r).
        { clear. induction l as [|[o s] l IH]; intros lo hi r H; [exists lo; split; [reflexivity|exact H]|].
          destruct H as [-> H]. destruct (IH _ _ _ H) as (m & H1 & H2). exists m. split; [split; auto|exact H2]. }
        destruct (Ta _ _ _ _ Tl) as (m & T1 & T2). unfold interval in T2 at 1. destruct T2 as [Ek T2].
        fold (c_off k) in *. fold (c_size k) in *.
        destruct Hx as [Hx|Hx]; apply (in_map interval) in Hx; unfold interval in Hx at 1.
        - pose proof (tiles_In _ _ _ _ _ T1 Hx) as Q. fold (c_off x) (c_size x) in Q. lia.
        - pose proof (tiles_In _ _ _ _ _ T2 Hx) as Q. fold (c_off x) (c_size x) in Q. lia. }
      rewrite Ets, map_app, concat_app. cbn [map concat].
      assert (Z0 : forall l, (forall x, In x l -> filter (contains u) (level d x) = []) -> concat (map (fun x => filter (contains u) (level d x)) l) = []).
      { induction l as [|x l IHl]; intros H; [reflexivity|]. cbn. rewrite (H x (or_introl eq_refl)). apply IHl. intros y Hy. apply H. right; exact Hy. }
      rewrite (Z0 a), (Z0 b) by (intros x Hx; apply Far; auto). cbn [app]. rewrite app_nil_r.
      apply IH; auto.
  Qed.

  Lemma parts_tile : forall u, In u (ct_nodes t) -> ci_depth (ct_info u) < d ->
    tiles (fst (interval u)) (fst (interval u) + snd (interval u)) (map interval (level d u)).
  Proof.
    intros u Hu Hd. apply level_tiles.
    - intros v Hv. apply HN. eapply nodes_trans; eauto.
    - intros v Hv Q. apply HA; [eapply nodes_trans; eauto|exact Q].
    - lia.
  Qed.

  Lemma tree_partitioned : partitioned t parts.
  Proof.
    split.
    - intros u Hu. apply HN, Hu.
    - intros u Hu Hr. pose proof (neg_high u Hu Hr) as Hd. rewrite (inside t (In_nodes_root t) u Hu Hd).
      split; [apply (HA u Hu Hd)|]. split; [|split].
      + intros v Hv. apply level_nodes in Hv. destruct Hv as [Hv Hdv]. destruct u as [c ts].
        destruct (In_nodes_inv _ _ _ Hv) as [->|(k & Hk & Q)]; [lia|]. exists k. auto.
      + intros E. pose proof (parts_tile u Hu Hd) as Tl. rewrite E in Tl. cbn in Tl. pose proof (HP u Hu). unfold interval in Tl. cbn in Tl. lia.
      + apply parts_tile; assumption.
    - exact rank_pos.
    - intros p q u v i Hp Hq Hu Hv.
      pose proof (parts_tile t (In_nodes_root t) HD) as Tl.
      apply (map_nth_error interval) in Hp, Hq. destruct (interval u) as [o1 s1], (interval v) as [o2 s2].
      unfold in_iv in Hu, Hv. cbn [fst snd] in Hu, Hv.
      apply andb_true_iff in Hu, Hv. destruct Hu as [U1 U2], Hv as [V1 V2].
      apply Nat.leb_le in U1, V1. apply Nat.ltb_lt in U2, V2.
      destruct (Nat.lt_trichotomy p q) as [Q|[Q|Q]]; [|exact Q|].
      + pose proof (tiles_nth_sep _ _ _ p q _ _ _ _ Tl Q Hp Hq). lia.
      + pose proof (tiles_nth_sep _ _ _ q p _ _ _ _ Tl Q Hq Hp). lia.
    - intros u Hu Hr. pose proof (nonneg_deep u Hu Hr) as Hd.
      destruct (deep_part u Hu Hd) as (v & Hv & Hin & Er & _). split.
      + exists v. split; [rewrite Er; apply part_index, Hv|].
        assert (Hvn : In v (ct_nodes t)) by (apply level_nodes in Hv; apply Hv).
        pose proof (node_sub v u Hvn Hin) as Sub. intros i Hi. unfold in_iv, interval, c_off, c_size in *. cbn [fst snd] in *.
        apply andb_true_iff in Hi. destruct Hi as [I1 I2]. apply Nat.leb_le in I1. apply Nat.ltb_lt in I2.
        apply andb_true_iff. split; [apply Nat.leb_le|apply Nat.ltb_lt]; lia.
      + intros k Hk. rewrite Er, <- (HB v k Hv); [reflexivity|]. eapply nodes_trans; [exact Hin|apply nodes_kid, Hk].
    - intros u k Hu Hr Hk Hrk. pose proof (neg_high u Hu Hr) as Hd.
      assert (Hkn : In k (ct_nodes t)) by (eapply nodes_trans; [exact Hu|apply nodes_kid, Hk]).
      pose proof (nonneg_deep k Hkn Hrk) as Q. destruct (HN u Hu) as [_ Q']. pose proof (Q' k Hk) as E.
      apply part_index. apply filter_In. split; [exact Hkn|]. apply Nat.eqb_eq. lia.
  Qed.
End Link.

Lemma built_partitioned : forall sorter strat P fuel s t loc,
  sorter_ok sorter -> 1 <= bp_nc P -> 1 <= bp_sp P ->
  (bp_given P = None -> bp_nc P <= bp_sp P -> 1 <= bp_logdepth P /\ bp_nc P ^ bp_logdepth P <= bp_sp P) ->
  (forall part, bp_given P = Some part -> part <> [] /\ tiles 0 (bp_n P) part /\ forall os, In os part -> 0 < snd os) ->
  cluster_tree sorter strat P fuel = Some (s, t, loc) ->
  st_errors s = 0 ->
  partitioned t (level (part_depth P) t) /\ nonempty t /\ (c_rank t < 0)%Z /\
  st_pv s = map (fun u => Some (ct_info u)) (level (part_depth P) t).
Proof.
  intros sorter strat P fuel s t loc Hs Hnc Hsp Hlog Hgiven H He.
  destruct (final_depth_ok _ _ _ _ _ _ _ H) as [Hroot Hdep].
  assert (Hgt : forall part, bp_given P = Some part -> tiles 0 (bp_n P) part) by (intros part Hg; apply (Hgiven part Hg)).
  destruct (final_nodes sorter strat P Hs fuel s t loc Hgt H) as [_ HN].
  assert (Hpd : 1 <= part_depth P).
  { unfold part_depth. destruct (bp_given P); [lia|]. destruct (Nat.leb_spec (bp_nc P) (bp_sp P)); [|lia]. apply Hlog; auto. }
  assert (Hrd : ci_depth (ct_info t) = 0) by (rewrite Hroot; reflexivity).
  assert (Hrr : (c_rank t < 0)%Z) by (unfold c_rank; rewrite Hroot; cbn; lia).
  destruct (bp_given P) as [part|] eqn:Hg.
  - destruct (given_inv _ _ _ _ _ _ _ _ Hg H) as (ts & Hb & -> & _).
    destruct (Hgiven part eq_refl) as (Hne & Htl & Hpos). clear Hgiven.
    pose proof (build_list_info _ _ _ _ _ _ _ _ Hb) as Hki.
    assert (Epd : part_depth P = 1) by (unfold part_depth; rewrite Hg; reflexivity). rewrite Epd.
    assert (Hl1 : level 1 (CNode (root_info P) ts) = ts).
    { rewrite level_above by discriminate.
      assert (Hk : forall t, In t ts -> level 1 t = [t]).
      { intros t Ht. apply level_self; [intros u Hu; apply Hdep; eapply In_nodes_child; eauto|].
        apply (Hdep _ (In_nodes_root _) t Ht). }
      rewrite (map_ext_in _ (fun t => [t]) ts Hk). clear. induction ts as [|x l IH]; [reflexivity|]. cbn. f_equal. exact IH. }
    assert (Hlen : length ts = length part).
    { rewrite <- (map_length ct_info ts), Hki, given_children_length. reflexivity. }
    assert (Htne : ts <> []).
    { intros ->. destruct part; [congruence|discriminate]. }
    assert (HOP : ForallOrdPairs disjoint_iv part).
    { clear - Htl. revert Htl. generalize 0. induction part as [|[o z] l IH]; intros lo H; [constructor|].
      destruct H as [-> H]. constructor; [|eapply IH; eauto]. apply Forall_forall. intros [o' z'] Hin.
      pose proof (tiles_In _ _ _ _ _ H Hin). left. cbn. lia. }
    assert (Hrange : forall os, In os part -> fst os + snd os <= bp_n P).
    { intros [o z] Ho. pose proof (tiles_In _ _ _ _ _ Htl Ho). cbn. lia. }
    destruct (final_given sorter strat P Hs fuel s _ loc part Hg Hrange HOP H) as (_ & Hpvl & _ & HG).
    cbn [ct_children] in HG.
    assert (HGi : forall p k, nth_error ts p = Some k -> nth_error part p = Some (interval k) /\
      nth_error (st_pv s) p = Some (Some (ct_info k)) /\ (forall v, In v (ct_nodes k) -> ci_rank (ct_info v) = Z.of_nat p)).
    { intros p k Hk. destruct (nth_error part p) as [os|] eqn:E.
      - destruct (HG p os E) as (k' & E1 & E2 & E3 & E4 & _). assert (k' = k) by congruence. subst k'. rewrite <- E2. auto.
      - apply nth_error_None in E. rewrite <- Hlen in E. apply nth_error_None in E. congruence. }
    assert (NE : nonempty (CNode (root_info P) ts)).
    { intros u Hu. destruct (In_nodes_inv _ _ _ Hu) as [->|(k & Hk & Hu')].
      - cbn. destruct part as [|[o z] part]; [congruence|]. specialize (Hpos _ (or_introl eq_refl)). specialize (Hrange _ (or_introl eq_refl)). cbn in *. lia.
      - (* inside a part *)
        assert (Hkp : 0 < ci_size (ct_info k)).
        { destruct (In_nth_error _ _ Hk) as [p Hp]. destruct (HGi p k Hp) as (E & _). apply nth_error_In in E. apply (Hpos _ E). }
        assert (Gen : forall w, (forall v x, In v (ct_nodes w) -> In x (ct_children v) -> 0 < ci_size (ct_info x)) -> 0 < ci_size (ct_info w) ->
                 forall v, In v (ct_nodes w) -> 0 < ci_size (ct_info v)).
        { clear. induction w as [c ts IH] using ctree_ind'. intros H1 H2 v Hv.
          destruct (In_nodes_inv _ _ _ Hv) as [->|(k & Hk & Hv')]; [exact H2|].
          apply (IH k Hk); auto.
          - intros v' x Hv'' Hx. apply (H1 v' x); [|exact Hx]. eapply In_nodes_child; eauto.
          - apply (H1 (CNode c ts) k); [apply In_nodes_root|exact Hk]. }
        apply (Gen k); auto. intros v x Hv Hx. pose proof (final_min sorter strat P fuel s _ loc v x H) as Q.
        assert (processed P (CNode (root_info P) ts) v) as Pr by (unfold processed; rewrite Hg; exists k; auto).
        specialize (Q Pr Hx). lia. }
    split; [|split; [exact NE|split; [exact Hrr|]]].
    + apply (tree_partitioned _ 1) with (n := length part).
      * intros u Hu. split; [apply HN, Hu|apply Hdep, Hu].
      * exact NE.
      * intros u Hu Hd. destruct (In_nodes_inv _ _ _ Hu) as [->|(k & Hk & Hu')].
        -- split; [exact Htne|exact Hrr].
        -- exfalso. assert (ci_depth (ct_info k) = 1) by (apply (Hdep _ (In_nodes_root _) k Hk)).
           pose proof (level_deep k (fun v Hv => Hdep v (In_nodes_child _ _ _ _ Hk Hv)) u Hu'). lia.
      * lia.
      * rewrite Hl1, <- (map_map ct_info ci_rank), Hki, given_children_ranks. reflexivity.
      * rewrite Hl1. intros u v Hu Hv. destruct (In_nth_error _ _ Hu) as [p Hp]. destruct (HGi p u Hp) as (_ & _ & Q).
        rewrite (Q v Hv), (Q u (In_nodes_root u)). reflexivity.
    + rewrite Hl1. apply nth_error_ext; [rewrite map_length; congruence|]. intros p Hp. rewrite Hpvl, <- Hlen in Hp.
      destruct (nth_error ts p) as [k|] eqn:E; [|apply nth_error_None in E; lia].
      destruct (HGi p k E) as (_ & -> & _). rewrite (map_nth_error (fun u => Some (ct_info u)) p ts E). reflexivity.
  - destruct (simple_inv _ _ _ _ _ _ _ Hg H) as [Hb _].
    assert (Hsplit : forall u, In u (ct_nodes t) -> ci_depth (ct_info u) < part_depth P -> ct_children u <> []).
    { intros u Hu Hd. eapply no_error_split; eauto. }
    destruct (final_partition sorter strat P Hs fuel s t loc Hg Hnc Hsp (Hlog eq_refl) H Hsplit) as (Hpv & Hr & _ & Hbel).
    assert (Hk : forall u k, In u (ct_nodes t) -> In k (ct_children u) -> 0 < ci_size (ct_info k)).
    { intros u k Hu Hk. pose proof (final_min sorter strat P fuel s t loc u k H) as Q. unfold processed in Q. rewrite Hg in Q.
      specialize (Q Hu Hk). lia. }
    assert (NE : nonempty t).
    { assert (Hrk : 0 < ci_size (ct_info t)).
      { destruct (ct_children t) as [|k ks] eqn:E.
        - exfalso. apply (Hsplit t (In_nodes_root t)); [lia|exact E].
        - assert (Hin : In k (ct_children t)) by (rewrite E; left; reflexivity).
          pose proof (Hk t k (In_nodes_root t) Hin) as Q. destruct (HN t (In_nodes_root t)) as [[E'|Tl] _]; [congruence|].
          apply (in_map interval) in Hin. unfold interval in Hin at 1. pose proof (tiles_In _ _ _ _ _ Tl Hin). lia. }
      intros u. clear - Hk Hrk. induction t as [c ts IH] using ctree_ind'. intros Hv.
      destruct (In_nodes_inv _ _ _ Hv) as [->|(k & Hin & Hv')]; [exact Hrk|].
      apply (IH k Hin); auto.
      - intros v x Hv'' Hx. apply (Hk v x); [|exact Hx]. eapply In_nodes_child; eauto.
      - apply (Hk (CNode c ts) k); [apply In_nodes_root|exact Hin]. }
    split; [|split; [exact NE|split; [exact Hrr|exact Hpv]]].
    apply (tree_partitioned t (part_depth P)) with (n := bp_sp P).
    + intros u Hu. split; [apply HN, Hu|apply Hdep, Hu].
    + exact NE.
    + intros u Hu Hd. split; [apply Hsplit; auto|].
      rewrite (proj1 (build_rank_above _ _ _ _) _ _ _ _ Hb Hg eq_refl) by (auto; cbn; lia). lia.
    + lia.
    + exact Hr.
    + exact Hbel.
Qed.
