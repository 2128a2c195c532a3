(** * Assembly of the results on cluster trees. *)

From Coq Require Import List Arith ZArith Bool Permutation Lia Sorted.
From Verif Require Import ClusterModel ClusterSpec ClusterProofs ClusterPartition ClusterMore.
Import ListNotations.

Section Final.
  Variable sorter : cinfo -> list nat -> list nat.
  Variable strat : strategy.
  Variable P : bparams.
  Notation splitter := (splitting_of strat (bp_min P)).
  Hypothesis Hsort : sorter_ok sorter.

  Let Hok : splitter_ok splitter := splitting_of_ok strat (bp_min P).
  Let Ht := splitter_ok_tiles _ Hok.
  Let Hl := splitter_ok_length _ Hok.

  Lemma init_bound : ci_off (root_info P) + ci_size (root_info P) <= length (st_perm (init_state P)).
  Proof. simpl. rewrite seq_length. lia. Qed.

  Lemma simple_inv : forall fuel s t loc, bp_given P = None ->
    cluster_tree sorter strat P fuel = Some (s, t, loc) ->
    build sorter splitter P fuel (init_state P) (root_info P) = Some (s, t) /\ loc = false.
  Proof.
    intros fuel s t loc Hg H. unfold cluster_tree, create_cluster_tree in H. rewrite Hg in H.
    destruct (build _ _ _ _ _ _) as [[s' t']|]; [|discriminate]. injection H as <- <- <-. auto.
  Qed.

  Definition given_state (part : list (nat * nat)) : bstate :=
    mkBstate (seq 0 (bp_n P))
      (fold_left (fun v k => pv_write v (Z.to_nat (ci_rank k)) k) (given_children P 0 part) []) 0 0 None.

  Lemma given_inv : forall fuel s t loc part, bp_given P = Some part ->
    cluster_tree sorter strat P fuel = Some (s, t, loc) ->
    exists ts, build_list sorter splitter P fuel (given_state part) (given_children P 0 part) = Some (s, ts) /\
      t = CNode (root_info P) ts /\ loc = true.
  Proof.
    intros fuel s t loc part Hg H. unfold cluster_tree, create_cluster_tree in H. rewrite Hg in H.
    fold (given_state part) in H.
    destruct (build_list _ _ _ _ _ _) as [[s' ts]|]; [|discriminate]. injection H as <- <- <-. eauto.
  Qed.

  Definition given_in_range : Prop :=
    forall part, bp_given P = Some part -> forall os, In os part -> fst os + snd os <= bp_n P.
  Definition given_tiles : Prop :=
    forall part, bp_given P = Some part -> tiles 0 (bp_n P) part.

  Lemma given_kids_bound : forall part k, (forall os, In os part -> fst os + snd os <= bp_n P) ->
    In k (given_children P 0 part) -> ci_off k + ci_size k <= length (st_perm (given_state part)).
  Proof.
    intros part k H Hk. simpl. rewrite seq_length.
    apply (in_map os_of) in Hk. rewrite given_children_os in Hk. apply H in Hk. exact Hk.
  Qed.

  Lemma final_perm : forall fuel s t loc, given_in_range ->
    cluster_tree sorter strat P fuel = Some (s, t, loc) -> Permutation (st_perm s) (seq 0 (bp_n P)).
  Proof.
    intros fuel s t loc Hr H. apply Permutation_sym.
    destruct (bp_given P) as [part|] eqn:Hg.
    - destruct (given_inv _ _ _ _ _ Hg H) as (ts & Hb & _).
      apply (build_list_perm sorter splitter P Hsort Hok _ _ _ _ _ Hb).
      intros k Hk. apply given_kids_bound; [exact (Hr part Hg)|exact Hk].
    - destruct (simple_inv _ _ _ _ Hg H) as [Hb _].
      destruct (proj1 (build_inv sorter splitter P Hsort Ht fuel) _ _ _ _ Hb init_bound) as [U _].
      apply upd_perm in U. exact U.
  Qed.

  Lemma tiles_range : forall l lo hi, tiles lo hi l -> forall os, In os l -> fst os + snd os <= hi.
  Proof. intros l lo hi H [o s] Hin. apply (tiles_In _ _ _ _ _ H) in Hin. simpl. lia. Qed.

  Lemma final_nodes : forall fuel s t loc, given_tiles ->
    cluster_tree sorter strat P fuel = Some (s, t, loc) ->
    ct_info t = root_info P /\
    (forall u, In u (ct_nodes t) -> node_ok u /\ depth_ok u /\
       Permutation (ci_pts (ct_info u)) (slice (ci_off (ct_info u)) (ci_size (ct_info u)) (st_perm s))).
  Proof.
    intros fuel s t loc Hr H. destruct (bp_given P) as [part|] eqn:Hg.
    - pose proof (Hr part Hg) as Htl.
      assert (HP : Permutation (st_perm s) (seq 0 (bp_n P))).
      { eapply final_perm; [|exact H]. intros part' Hg' os Hin. rewrite Hg in Hg'. injection Hg' as <-.
        eapply tiles_range; eauto. }
      destruct (given_inv _ _ _ _ _ Hg H) as (ts & Hb & -> & _). split; [reflexivity|].
      destruct (proj2 (build_inv sorter splitter P Hsort Ht fuel) _ 0 (bp_n P) _ _ _ Hb) as [U N].
      { rewrite given_children_os. exact Htl. }
      { simpl. rewrite seq_length. lia. }
      { intros k Hk. unfold pts_ok. simpl. rewrite (proj1 (given_children_pts _ _ _ _ Hk)). reflexivity. }
      intros u Hu. destruct (In_nodes_inv _ _ _ Hu) as [->|(t & Hin & Hu')].
      + split; [|split].
        * right. cbn [ct_info ct_children root_info ci_off ci_size].
          rewrite interval_os, (build_list_info _ _ _ _ _ _ _ _ Hb), given_children_os. exact Htl.
        * intros k Hk. cbn [ct_info ct_children] in *. apply (in_map ct_info) in Hk.
          rewrite (build_list_info _ _ _ _ _ _ _ _ Hb) in Hk. apply (given_children_pts _ _ _ _ Hk).
        * cbn [ct_info root_info ci_off ci_size ci_pts]. unfold slice. cbn [skipn].
          rewrite firstn_all2; [apply Permutation_sym; exact HP|].
          rewrite (Permutation_length HP), seq_length. lia.
      + destruct (N t u Hin Hu') as (A & _ & C). split; [exact A|]. split; [|exact C].
        eapply (proj2 (build_depth sorter splitter P fuel)); eauto.
    - destruct (simple_inv _ _ _ _ Hg H) as [Hb _].
      split; [eapply build_info; eauto|].
      destruct (proj1 (build_inv sorter splitter P Hsort Ht fuel) _ _ _ _ Hb init_bound) as [U N].
      intros u Hu. destruct (N u Hu) as (A & _ & C). split; [exact A|]. split.
      + eapply (proj1 (build_depth sorter splitter P fuel)); eauto.
      + apply C. unfold pts_ok. simpl. unfold slice. cbn [skipn]. rewrite firstn_all2; [reflexivity|].
        rewrite seq_length. lia.
  Qed.

  Lemma final_leaves : forall fuel s t loc, given_tiles ->
    cluster_tree sorter strat P fuel = Some (s, t, loc) ->
    tiles 0 (bp_n P) (map interval (ct_leaves t)) /\
    forall i, i < bp_n P -> length (filter (fun u => in_iv i (interval u)) (ct_leaves t)) = 1.
  Proof.
    intros fuel s t loc Hr H. destruct (final_nodes _ _ _ _ Hr H) as [Hroot N].
    assert (T : tiles 0 (bp_n P) (map interval (ct_leaves t))).
    { pose proof (leaves_tile t (fun u Hu => proj1 (N u Hu))) as T. rewrite Hroot in T. exact T. }
    split; [exact T|]. intros i Hi.
    pose proof (tiles_unique _ _ _ i T) as Q.
    destruct (Nat.ltb_spec i (bp_n P)); [|lia]. simpl in Q. rewrite <- Q.
    generalize (ct_leaves t). clear. induction l as [|u l IH]; [reflexivity|].
    simpl. destruct (in_iv i (interval u)); simpl; lia.
  Qed.

  (** *** Partition *)

  Lemma nth_ext_opt : forall (l : list cinfo) (pv : list (option cinfo)),
    length pv = length l -> (forall r, r < length l -> nth r pv None = nth_error l r) -> pv = map Some l.
  Proof.
    induction l as [|x l IH]; intros [|y pv] HL H; simpl in *; try lia; auto.
    f_equal.
    - apply (H 0). lia.
    - apply IH; [lia|]. intros r Hr. apply (H (S r)). lia.
  Qed.

  Lemma final_partition : forall fuel s t loc,
    bp_given P = None -> 1 <= bp_nc P -> 1 <= bp_sp P ->
    (bp_nc P <= bp_sp P -> 1 <= bp_logdepth P /\ bp_nc P ^ bp_logdepth P <= bp_sp P) ->
    cluster_tree sorter strat P fuel = Some (s, t, loc) ->
    (forall u, In u (ct_nodes t) -> ci_depth (ct_info u) < part_depth P -> ct_children u <> []) ->
    st_pv s = map (fun u => Some (ct_info u)) (level (part_depth P) t) /\
    map (fun u => ci_rank (ct_info u)) (level (part_depth P) t) = map Z.of_nat (seq 0 (bp_sp P)) /\
    tiles 0 (bp_n P) (map interval (level (part_depth P) t)) /\
    (forall u v, In u (level (part_depth P) t) -> In v (ct_nodes u) -> ci_rank (ct_info v) = ci_rank (ct_info u)).
  Proof.
    intros fuel s t loc Hg Hnc Hsp Hlog H Hne.
    destruct (final_nodes _ _ _ _ (fun part Q => ltac:(congruence)) H) as [Hroot N].
    destruct (simple_inv _ _ _ _ Hg H) as [Hb _].
    assert (Hd : exists d, part_depth P = S d).
    { unfold part_depth. rewrite Hg. destruct (Nat.leb_spec (bp_nc P) (bp_sp P)).
      - destruct (Hlog H0). destruct (bp_logdepth P); [lia|eauto].
      - eauto. }
    destruct Hd as [d Hd].
    assert (Hlc : 1 <= level_children P).
    { unfold level_children. rewrite Hg. destruct (Nat.leb_spec (bp_nc P) (bp_sp P)); lia. }
    destruct (proj1 (build_above sorter splitter P Hg Hl d Hd Hnc Hlc fuel) _ _ _ _ Hb) as [A B].
    { simpl. lia. }
    { simpl. lia. }
    { intros u Hu Hu2. apply Hne; [exact Hu|lia]. }
    rewrite Hd in *.
    assert (Hb0 : bnd P d (ci_counter (root_info P)) (ci_depth (root_info P)) = 0).
    { unfold bnd. simpl. reflexivity. }
    assert (Hb1 : bnd P d (S (ci_counter (root_info P))) (ci_depth (root_info P)) = bp_sp P).
    { unfold bnd, width. cbn [root_info ci_counter ci_depth Nat.pow Nat.eqb]. rewrite Nat.sub_0_r.
      unfold level_children, additional, part_depth in *. rewrite Hg in *.
      destruct (Nat.leb_spec (bp_nc P) (bp_sp P)) as [Hle|Hle].
      - destruct (Hlog Hle) as [L1 L2]. rewrite Hd in *. cbn [Nat.pow] in *. lia.
      - injection Hd as <-. simpl. lia. }
    rewrite Hb0, Hb1 in A.
    pose proof (pvres_length _ _ _ _ _ A) as HL. rewrite Nat.sub_0_r in HL.
    destruct A as (_ & A1 & A2 & A3). rewrite Nat.sub_0_r in A1.
    rewrite map_map in A1. split; [|split; [exact A1|split]].
    - rewrite <- map_map with (g := Some). apply nth_ext_opt.
      + rewrite A3, HL. simpl. destruct (Nat.ltb_spec 0 (bp_sp P)); lia.
      + intros r Hr. rewrite A2, HL in *. destruct (Nat.ltb_spec r (bp_sp P)); [|lia].
        cbn [andb Nat.leb]. rewrite Nat.sub_0_r. reflexivity.
    - assert (T : tiles (ci_off (ct_info t)) (ci_off (ct_info t) + ci_size (ct_info t)) (map interval (level (S d) t))).
      { apply level_tiles.
        - intros u Hu. destruct (N u Hu) as (Q1 & Q2 & _). auto.
        - exact Hne.
        - rewrite Hroot. simpl. lia. }
      rewrite Hroot in T. exact T.
    - exact B.
  Qed.

  (** *** Given partition *)

  Lemma final_given : forall fuel s t loc part,
    bp_given P = Some part ->
    (forall os, In os part -> fst os + snd os <= bp_n P) ->
    ForallOrdPairs disjoint_iv part ->
    cluster_tree sorter strat P fuel = Some (s, t, loc) ->
    loc = true /\ length (st_pv s) = length part /\ length (ct_children t) = length part /\
    forall p os, nth_error part p = Some os ->
      exists k, nth_error (ct_children t) p = Some k /\ interval k = os /\
        nth_error (st_pv s) p = Some (Some (ct_info k)) /\
        (forall v, In v (ct_nodes k) -> ci_rank (ct_info v) = Z.of_nat p) /\
        Permutation (slice (fst os) (snd os) (st_perm s)) (seq (fst os) (snd os)).
  Proof.
    intros fuel s t loc part Hg Hr Hdj H.
    destruct (given_inv _ _ _ _ _ Hg H) as (ts & Hb & -> & ->).
    pose proof (build_list_info _ _ _ _ _ _ _ _ Hb) as Hi.
    assert (Hlen : length ts = length part).
    { apply (f_equal (@length _)) in Hi. rewrite map_length, given_children_length in Hi. exact Hi. }
    assert (Hno : forall c, on_level P c = true -> S (ci_depth c) = 0).
    { intros c. unfold on_level. rewrite Hg. discriminate. }
    destruct (proj2 (build_below sorter splitter P 0 Hno fuel) _ _ _ _ Hb) as [Hpv Hrk].
    { intros; lia. }
    pose proof (register_pvres (given_children P 0 part) 0 []) as R.
    rewrite given_children_length in R.
    specialize (R (given_children_ranks P part 0)).
    fold (st_pv (given_state part)) in R.
    assert (Hpv2 : st_pv s = fold_left (fun v k => pv_write v (Z.to_nat (ci_rank k)) k) (given_children P 0 part) [])
      by exact Hpv.
    rewrite <- Hpv2 in R. destruct R as (_ & _ & R2 & R3). cbn [plus length Nat.max] in *.
    assert (Hpl : length (st_pv s) = length part).
    { rewrite R3. destruct (Nat.ltb_spec 0 (length part)); lia. }
    split; [reflexivity|]. split; [exact Hpl|]. split; [exact Hlen|].
    intros p os Hp.
    assert (Hpb : p < length part) by (apply nth_error_Some; congruence).
    destruct (nth_error ts p) as [k|] eqn:Ek; [|apply nth_error_None in Ek; lia].
    exists k. split; [exact Ek|].
    assert (Hk : ct_info k = given_child P p os).
    { apply (map_nth_error ct_info) in Ek. rewrite Hi in Ek.
      rewrite (given_children_nth _ _ _ _ _ Hp) in Ek. cbn [plus] in Ek. congruence. }
    assert (Hkin : In k ts) by (eapply nth_error_In; eauto).
    split; [|split; [|split]].
    - unfold interval. rewrite Hk. destruct os; reflexivity.
    - assert (Q : nth p (st_pv s) None = Some (ct_info k)).
      { rewrite R2. destruct (Nat.ltb_spec p (length part)); [|lia]. cbn [andb Nat.leb].
        rewrite Nat.sub_0_r, (given_children_nth _ _ _ _ _ Hp). cbn [plus]. congruence. }
      destruct (nth_error (st_pv s) p) as [o|] eqn:Eo; [|apply nth_error_None in Eo; lia].
      apply nth_error_nth with (d := None) in Eo. congruence.
    - intros v Hv. rewrite (Hrk k v Hkin Hv), Hk. reflexivity.
    - destruct (build_list_disjoint sorter splitter P Hsort Hok _ _ _ _ _ Hb) with (t := k) (u := k) as [_ Q].
      + intros k' Hk'. apply given_kids_bound; auto.
      + rewrite given_children_os. exact Hdj.
      + intros k' Hk'. unfold pts_ok. simpl. rewrite (proj1 (given_children_pts _ _ _ _ Hk')). reflexivity.
      + exact Hkin.
      + apply In_nodes_root.
      + unfold pts_ok in Q. rewrite Hk in Q. destruct os as [o z]. cbn [given_child ci_off ci_size ci_pts fst snd] in *.
        rewrite slice_seq in Q by (apply (Hr (o, z)); eapply nth_error_In; eauto).
        apply Permutation_sym, Q.
  Qed.

  (** *** Nodes come from steps *)

  Lemma final_steps : forall fuel s t loc u,
    cluster_tree sorter strat P fuel = Some (s, t, loc) -> processed P t u ->
    exists st0 st1, step sorter splitter P st0 (ct_info u) = Some (st1, map ct_info (ct_children u)).
  Proof.
    intros fuel s t loc u H Hu. unfold processed in Hu.
    destruct (bp_given P) as [part|] eqn:Hg.
    - destruct (given_inv _ _ _ _ _ Hg H) as (ts & Hb & -> & _). destruct Hu as (k & Hk & Hu).
      eapply (proj2 (build_nodes sorter splitter P fuel)); eauto.
    - destruct (simple_inv _ _ _ _ Hg H) as [Hb _].
      eapply (proj1 (build_nodes sorter splitter P fuel)); eauto.
  Qed.

  Lemma final_split : forall fuel s t loc u,
    cluster_tree sorter strat P fuel = Some (s, t, loc) -> processed P t u ->
    exists perm, splitter (ct_info u) perm (current_nc P (ct_info u)) = Some (map interval (ct_children u)).
  Proof.
    intros fuel s t loc u H Hu. destruct (final_steps _ _ _ _ _ H Hu) as (st0 & st1 & E).
    destruct (step_links _ _ _ _ _ _ _ E) as (perm & spl & Hs & Ek & _).
    exists perm. rewrite interval_os, Ek, child_infos_os. exact Hs.
  Qed.

  Lemma final_min : forall fuel s t loc u k,
    cluster_tree sorter strat P fuel = Some (s, t, loc) -> processed P t u ->
    In k (ct_children u) -> bp_min P < ci_size (ct_info k).
  Proof.
    intros fuel s t loc u k H Hu Hk. destruct (final_split _ _ _ _ _ H Hu) as (perm & E).
    apply (in_map interval) in Hk. apply (splitting_of_pos _ _ _ _ _ _ _ E) in Hk. exact Hk.
  Qed.

  Lemma final_nb_children : forall fuel s t loc u,
    cluster_tree sorter strat P fuel = Some (s, t, loc) -> processed P t u ->
    ct_children u = [] \/ length (ct_children u) = current_nc P (ct_info u).
  Proof.
    intros fuel s t loc u H Hu. destruct (final_split _ _ _ _ _ H Hu) as (perm & E).
    destruct (Hl _ _ _ _ E) as [Q|Q].
    - left. destruct (ct_children u); [reflexivity|discriminate].
    - right. rewrite map_length in Q. exact Q.
  Qed.
End Final.

(** ** RegularSplitting: sizes *)

Lemma final_regular : forall sorter P fuel s t loc u,
  cluster_tree sorter Regular P fuel = Some (s, t, loc) -> processed P t u ->
  let m := current_nc P (ct_info u) in
  let q := ci_size (ct_info u) / m in
  (ct_children u = [] -> q <= bp_min P) /\
  (ct_children u <> [] ->
     bp_min P < q /\ length (ct_children u) = m /\
     forall j k, nth_error (ct_children u) j = Some k ->
       ci_size (ct_info k) = if S j =? m then q + ci_size (ct_info u) mod m else q).
Proof.
  intros sorter P fuel s t loc u H Hu m q.
  destruct (final_split _ _ _ _ _ _ _ _ H Hu) as (perm & E). simpl in E.
  fold m in E. unfold regular_splitting in E. fold q in E.
  destruct (Nat.eqb_spec m 0) as [|Hm]; [discriminate|].
  destruct (Nat.ltb_spec (bp_min P) q) as [Hq|Hq].
  - assert (HL : length (ct_children u) = m).
    { apply (f_equal (option_map (@length _))) in E. simpl in E. injection E as E.
      rewrite app_length, !map_length, seq_length in E. simpl in E. lia. }
    split.
    + intros Hnil. rewrite Hnil in HL. simpl in HL. lia.
    + intros _. split; [exact Hq|]. split; [exact HL|]. intros j k Hk.
      assert (Hj : j < m) by (rewrite <- HL; apply nth_error_Some; congruence).
      apply (map_nth_error interval) in Hk. injection E as E. rewrite <- E in Hk.
      pose proof (Nat.div_mod (ci_size (ct_info u)) m Hm) as DM. fold q in DM.
      destruct (Nat.eqb_spec (S j) m) as [Ej|Ej].
      * rewrite nth_error_app2 in Hk; rewrite map_length, seq_length in *; [|lia].
        replace (j - (m - 1)) with 0 in Hk by lia. simpl in Hk. unfold interval in Hk. injection Hk as _ Hk.
        rewrite <- Hk. assert (m * q = q * (m - 1) + q) by nia. lia.
      * rewrite nth_error_app1 in Hk by (rewrite map_length, seq_length; lia).
        rewrite nth_error_map in Hk. destruct (nth_error (seq 0 (m - 1)) j); [|discriminate].
        simpl in Hk. unfold interval in Hk. injection Hk as _ Hk. auto.
  - split; [lia|]. intros Hne. exfalso. apply Hne. injection E as E.
    destruct (ct_children u); [reflexivity|discriminate].
Qed.

(** ** Termination *)

Lemma final_terminates : forall sorter strat P, bp_given P = None -> 2 <= bp_nc P -> 1 <= bp_sp P ->
  (bp_nc P <= bp_sp P -> 1 <= bp_logdepth P) ->
  cluster_tree sorter strat P (bp_n P + 2) <> None.
Proof.
  intros sorter strat P Hg Hnc Hsp Hlog. unfold cluster_tree, create_cluster_tree. rewrite Hg.
  destruct (build _ _ _ _ _ _) as [[s t]|] eqn:E; [discriminate|].
  exfalso. eapply (build_total sorter _ P (splitting_of_ok strat (bp_min P)) (splitting_of_total strat (bp_min P)));
    [exact Hnc|exact Hsp| | |exact E].
  - intros _ Hle. unfold part_depth. rewrite Hg. destruct (Nat.leb_spec (bp_nc P) (bp_sp P)); [auto|lia].
  - unfold fuel_for. simpl. lia.
Qed.

Lemma final_terminates_given : forall sorter strat P part, bp_given P = Some part -> 2 <= bp_nc P -> 1 <= bp_sp P ->
  (forall os, In os part -> fst os + snd os <= bp_n P) ->
  cluster_tree sorter strat P (bp_n P + 2) <> None.
Proof.
  intros sorter strat P part Hg Hnc Hsp Hr. unfold cluster_tree, create_cluster_tree. rewrite Hg.
  match goal with |- match build_list _ _ _ _ ?st ?ks with _ => _ end <> None =>
    assert (HL : forall l st0, (forall k, In k l -> ci_size k <= bp_n P /\ ci_depth k = 1) ->
              build_list sorter (splitting_of strat (bp_min P)) P (bp_n P + 2) st0 l <> None) end.
  { induction l as [|k l IHl]; intros st0 Hin; cbn [build_list]; [discriminate|].
    destruct (build_list _ _ _ _ st0 l) as [[s1 ts1]|] eqn:E.
    - destruct (build _ _ _ _ s1 k) as [[s2 t2]|] eqn:E2; [discriminate|].
      exfalso. eapply (build_total sorter _ P (splitting_of_ok strat (bp_min P)) (splitting_of_total strat (bp_min P)));
        [exact Hnc|exact Hsp| | |exact E2].
      + congruence.
      + destruct (Hin k (or_introl eq_refl)) as [Q1 Q2]. unfold fuel_for. rewrite Q2. simpl. lia.
    - exfalso. eapply IHl; [|exact E]. intros k' Hk'. apply Hin. right; exact Hk'. }
  destruct (build_list _ _ _ _ _ _) as [[s ts]|] eqn:E; [discriminate|].
  exfalso. eapply HL; [|exact E].
  intros k Hk. split; [|apply (given_children_pts _ _ _ _ Hk)].
  apply (in_map os_of) in Hk. rewrite given_children_os in Hk. apply Hr in Hk. simpl in Hk. lia.
Qed.

Lemma final_diverges : forall sorter P part, bp_given P = Some part -> bp_nc P = 1 ->
  (exists os, In os part /\ bp_min P < snd os) ->
  forall fuel, cluster_tree sorter Regular P fuel = None.
Proof.
  intros sorter P part Hg Hnc (os & Hin & Hm) fuel.
  unfold cluster_tree, create_cluster_tree. rewrite Hg.
  match goal with |- match build_list _ _ _ _ ?st _ with _ => _ end = None => generalize st end. intros st.
  assert (HL : forall l st0, (exists k, In k l /\ bp_min P < ci_size k) ->
     build_list sorter (splitting_of Regular (bp_min P)) P fuel st0 l = None).
  { induction l as [|k l IHl]; intros st0 (k' & Hk' & Hs); [contradiction|]. cbn [build_list].
    destruct Hk' as [->|Hk'].
    - destruct (build_list _ _ _ _ st0 l) as [[s1 ts1]|]; [|reflexivity].
      rewrite (build_one_diverges sorter P 0 Hnc); [reflexivity| |lia|exact Hs].
      intros c. unfold on_level. rewrite Hg. discriminate.
    - rewrite IHl; [reflexivity|]. eauto. }
  rewrite HL; [reflexivity|].
  rewrite <- (given_children_os P part 0) in Hin. apply in_map_iff in Hin. destruct Hin as (k & <- & Hk).
  exists k. split; [exact Hk|exact Hm].
Qed.

(** With nc = 1 every single step is defined, so that [None] above means that the loop never ends. *)
Lemma nc_one_steps_defined : forall sorter P part st c, bp_given P = Some part -> bp_nc P = 1 ->
  step sorter (splitting_of Regular (bp_min P)) P st c <> None.
Proof.
  intros sorter P part st c Hg Hnc. apply step_total.
  - apply splitting_of_total.
  - unfold current_nc, on_level. rewrite Hg. lia.
Qed.

(** ** The stack machine of the code and the recursion of the model *)

Lemma machine_agrees : forall sorter strat P, bp_given P = None ->
  (forall fuel s t loc, cluster_tree sorter strat P fuel = Some (s, t, loc) ->
     run sorter (splitting_of strat (bp_min P)) P (length (rlog t)) [root_info P] (init_state P) [] = Some (s, rlog t)) /\
  (forall g s log, run sorter (splitting_of strat (bp_min P)) P g [root_info P] (init_state P) [] = Some (s, log) ->
     exists fuel t, cluster_tree sorter strat P fuel = Some (s, t, false) /\ log = rlog t).
Proof.
  intros sorter strat P Hg. split.
  - intros fuel s t loc H. destruct (simple_inv _ _ _ _ _ _ _ Hg H) as [Hb _].
    eapply run_build; eauto.
  - intros g s log H. destruct (build_run _ _ _ _ _ _ _ _ H) as (f & t & Hb & ->).
    exists f, t. split; [|reflexivity]. unfold cluster_tree, create_cluster_tree. rewrite Hg, Hb. reflexivity.
Qed.

(** ** Separation of siblings along the sorting direction *)

Lemma slice_sorted_split : forall (R : nat -> nat -> Prop) (l : list nat) o1 s1 o2 s2 a b,
  StronglySorted R l -> o1 + s1 <= o2 -> In a (slice o1 s1 l) -> In b (slice o2 s2 l) -> R a b.
Proof.
  intros R l o1 s1 o2 s2 a b HS Hle Ha Hb.
  apply In_nth_error in Ha. destruct Ha as [i Hi]. apply In_nth_error in Hb. destruct Hb as [j Hj].
  assert (i < s1).
  { assert (i < length (slice o1 s1 l)) by (apply nth_error_Some; congruence).
    unfold slice in *. rewrite firstn_length in *. lia. }
  assert (j < s2).
  { assert (j < length (slice o2 s2 l)) by (apply nth_error_Some; congruence).
    unfold slice in *. rewrite firstn_length in *. lia. }
  rewrite nth_error_slice in Hi, Hj by lia.
  assert (Hlt : o1 + i < o2 + j) by lia. revert Hi Hj Hlt.
  generalize (o1 + i) (o2 + j). clear - HS. intros x y. revert x y.
  induction HS as [|z l HS IH HF]; intros x y Hx Hy Hlt.
  - destruct x; discriminate.
  - destruct y as [|y]; [lia|]. destruct x as [|x]; simpl in *.
    + injection Hx as <-. rewrite Forall_forall in HF. apply HF. eapply nth_error_In; eauto.
    + eapply IH; eauto. lia.
Qed.

Section Separation.
  Variable sorter : cinfo -> list nat -> list nat.
  Variable strat : strategy.
  Variable P : bparams.
  Notation splitter := (splitting_of strat (bp_min P)).
  Hypothesis Hsort : sorter_ok sorter.
  Variable key : cinfo -> nat -> Z.
  Hypothesis Hsorted : forall c perm, ci_off c + ci_size c <= length perm ->
    StronglySorted (fun a b => (key c a <= key c b)%Z) (sorter c perm).
  Notation step := (step sorter splitter P).
  Notation build := (build sorter splitter P).
  Notation build_list := (build_list sorter splitter P).

  Let Hok : splitter_ok splitter := splitting_of_ok strat (bp_min P).
  Let Ht := splitter_ok_tiles _ Hok.

  Lemma build_nodes_range : forall f,
    (forall st c s t, build f st c = Some (s, t) -> ci_off c + ci_size c <= length (st_perm st) ->
     forall u, In u (ct_nodes t) ->
       exists st0 st1, ci_off (ct_info u) + ci_size (ct_info u) <= length (st_perm st0) /\
         step st0 (ct_info u) = Some (st1, map ct_info (ct_children u))) /\
    (forall ks st s ts, build_list f st ks = Some (s, ts) ->
     (forall k, In k ks -> ci_off k + ci_size k <= length (st_perm st)) ->
     forall t u, In t ts -> In u (ct_nodes t) ->
       exists st0 st1, ci_off (ct_info u) + ci_size (ct_info u) <= length (st_perm st0) /\
         step st0 (ct_info u) = Some (st1, map ct_info (ct_children u))).
  Proof.
    assert (HL : forall f,
     (forall st c s t, build f st c = Some (s, t) -> ci_off c + ci_size c <= length (st_perm st) ->
     forall u, In u (ct_nodes t) ->
       exists st0 st1, ci_off (ct_info u) + ci_size (ct_info u) <= length (st_perm st0) /\
         step st0 (ct_info u) = Some (st1, map ct_info (ct_children u))) ->
     (forall ks st s ts, build_list f st ks = Some (s, ts) ->
     (forall k, In k ks -> ci_off k + ci_size k <= length (st_perm st)) ->
     forall t u, In t ts -> In u (ct_nodes t) ->
       exists st0 st1, ci_off (ct_info u) + ci_size (ct_info u) <= length (st_perm st0) /\
         step st0 (ct_info u) = Some (st1, map ct_info (ct_children u)))).
    { intros f HB. induction ks as [|k ks IH]; cbn [ClusterModel.build_list]; intros st s ts H Hb t u Hin Hu.
      - injection H as <- <-. contradiction.
      - destruct (build_list f st ks) as [[s1 ts1]|] eqn:E; [|discriminate].
        destruct (build f s1 k) as [[s2 t2]|] eqn:E2; [|discriminate].
        injection H as <- <-. destruct Hin as [<-|Hin].
        + eapply HB; eauto.
          rewrite <- (Permutation_length (build_list_perm sorter splitter P Hsort Hok _ _ _ _ _ E
                       (fun k' Hk' => Hb k' (or_intror Hk')))).
          apply Hb. left; reflexivity.
        + eapply IH; eauto. intros; apply Hb; right; auto. }
    induction f as [|f [IHb IHl]].
    - split; [intros; discriminate|]. apply HL. intros; discriminate.
    - match goal with |- ?A /\ _ => assert (HB : A) end.
      { intros st c s t H Hb u Hu. rewrite build_S in H.
        destruct (step st c) as [[st' kids]|] eqn:Es; [|discriminate].
        destruct (build_list f st' kids) as [[s1 ts]|] eqn:El; [|discriminate].
        injection H as <- <-. destruct (In_nodes_inv _ _ _ Hu) as [->|(t & Hin & Hu')].
        - exists st, st'. cbn [ct_info ct_children]. rewrite (build_list_info _ _ _ _ _ _ _ _ El). auto.
        - eapply IHl; eauto.
          destruct (step_spec _ _ _ Hsort Ht _ _ _ _ Es Hb) as (U & Hk & _).
          pose proof (upd_length _ _ _ _ _ U) as L. intros k Hkin.
          destruct Hk as [->|Hk]; [contradiction|].
          destruct (tiles_In _ _ _ (ci_off k) (ci_size k) Hk (in_map os_of _ _ Hkin)). lia. }
      split; [exact HB|]. apply HL, HB.
  Qed.

  Lemma slice_set_slice : forall (l s : list nat) off sz o z, length s = sz -> off + sz <= length l ->
    off <= o -> o + z <= off + sz -> slice o z (set_slice off sz l s) = slice (o - off) z s.
  Proof.
    intros l s off sz o z Hs Hl H1 H2. unfold slice, set_slice.
    rewrite skipn_app, (skipn_all2 (firstn off l)) by (rewrite firstn_length; lia).
    rewrite firstn_length, Nat.min_l by lia. cbn [app].
    rewrite skipn_app, firstn_app, skipn_length.
    replace (z - (length s - (o - off))) with 0 by lia. cbn [firstn]. apply app_nil_r.
  Qed.

  Lemma tiles_nth_sep : forall l lo hi i j o1 s1 o2 s2, tiles lo hi l -> i < j ->
    nth_error l i = Some (o1, s1) -> nth_error l j = Some (o2, s2) -> o1 + s1 <= o2.
  Proof.
    induction l as [|[o s] l IH]; intros lo hi i j o1 s1 o2 s2 H Hij Hi Hj; [destruct i; discriminate|].
    simpl in H. destruct H as [-> H]. destruct j as [|j]; [lia|]. destruct i as [|i]; simpl in *.
    - injection Hi as -> ->. apply nth_error_In in Hj. apply (tiles_In _ _ _ _ _ H) in Hj. lia.
    - eapply (IH _ _ i j); eauto. lia.
  Qed.

  Lemma final_separation : forall fuel s t loc u, given_in_range P ->
    cluster_tree sorter strat P fuel = Some (s, t, loc) -> processed P t u ->
    forall i j k1 k2 a b, i < j ->
      nth_error (ct_children u) i = Some k1 -> nth_error (ct_children u) j = Some k2 ->
      In a (ci_pts (ct_info k1)) -> In b (ci_pts (ct_info k2)) ->
      (key (ct_info u) a <= key (ct_info u) b)%Z.
  Proof.
    intros fuel s t loc u Hr H Hu i j k1 k2 a b Hij Hk1 Hk2 Ha Hb.
    assert (E : exists st0 st1, ci_off (ct_info u) + ci_size (ct_info u) <= length (st_perm st0) /\
         step st0 (ct_info u) = Some (st1, map ct_info (ct_children u))).
    { unfold processed in Hu. destruct (bp_given P) as [part|] eqn:Hg.
      - destruct (given_inv _ _ _ _ _ _ _ _ Hg H) as (ts & Hbl & -> & _). destruct Hu as (k & Hk & Hu).
        eapply (proj2 (build_nodes_range fuel)); eauto.
        intros k' Hk'. apply given_kids_bound; [exact (Hr part Hg)|exact Hk'].
      - destruct (simple_inv _ _ _ _ _ _ _ Hg H) as [Hbl _].
        eapply (proj1 (build_nodes_range fuel)); eauto. apply init_bound. }
    destruct E as (st0 & st1 & Hrange & E).
    destruct (step_spec _ _ _ Hsort Ht _ _ _ _ E Hrange) as (_ & Hti & Hpts).
    set (c := ct_info u) in *.
    assert (Hperm1 : st_perm st1 = set_slice (ci_off c) (ci_size c) (st_perm st0) (sorter c (st_perm st0))).
    { unfold ClusterModel.step in E. destruct (splitter _ _ _); [|discriminate].
      destruct (child_infos _ _ _ _ _); [destruct (_ <? _)%Z|]; injection E as <- _; reflexivity. }
    apply (map_nth_error ct_info) in Hk1. apply (map_nth_error ct_info) in Hk2.
    destruct Hti as [Q|Hti]; [rewrite Q in Hk1; destruct i; discriminate|].
    rewrite (Hpts _ (nth_error_In _ _ Hk1)), Hperm1 in Ha.
    rewrite (Hpts _ (nth_error_In _ _ Hk2)), Hperm1 in Hb.
    apply (map_nth_error os_of) in Hk1. apply (map_nth_error os_of) in Hk2.
    pose proof (tiles_nth_sep _ _ _ _ _ _ _ _ _ Hti Hij Hk1 Hk2) as Hsep.
    destruct (tiles_In _ _ _ _ _ Hti (nth_error_In _ _ Hk1)).
    destruct (tiles_In _ _ _ _ _ Hti (nth_error_In _ _ Hk2)).
    pose proof (Permutation_length (Hsort c _ Hrange)) as HL. rewrite slice_length in HL by lia.
    rewrite slice_set_slice in Ha, Hb by lia.
    apply (slice_sorted_split (fun a b => (key c a <= key c b)%Z) (sorter c (st_perm st0))
             _ _ _ _ a b (Hsorted c _ Hrange)) with (3 := Hb) (2 := Ha). lia.
  Qed.
End Separation.
