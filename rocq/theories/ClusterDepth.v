(** * Depths of the leaves, errors, and saving of the trees made by the builder: proofs. *)

From Coq Require Import List Arith ZArith Bool Ascii Lia Permutation.
From Verif Require Import ClusterModel ClusterSpec ClusterProofs ClusterPartition ClusterMore ClusterFinal IOModel IOSpec IOProofs ClusterIO.
Import ListNotations.

(** Depths of the leaves that have a rank (that belong to a part). *)
Definition ranked (u : ctree) : bool := (0 <=? ci_rank (ct_info u))%Z.
Definition leaf_depths (t : ctree) : list nat := map (fun u => ci_depth (ct_info u)) (filter ranked (ct_leaves t)).
Definition omin (d : nat) (o : option nat) : option nat := Some (match o with None => d | Some m => Nat.min m d end).

Section Depths.
  Variable sorter : cinfo -> list nat -> list nat.
  Variable splitter : cinfo -> list nat -> nat -> option (list (nat * nat)).
  Variable P : bparams.

  Notation build := (build sorter splitter P).
  Notation build_list := (build_list sorter splitter P).
  Notation step := (step sorter splitter P).

  Definition dres (st s : bstate) (l : list nat) (e : nat) : Prop :=
    st_max s = fold_right Nat.max (st_max st) l /\ st_min s = fold_right omin (st_min st) l /\
    st_errors s = st_errors st + e.

  Definition unranked (t : ctree) : nat := length (filter (fun u => negb (ranked u)) (ct_leaves t)).

  Lemma dres_trans : forall a b c l1 l2 e1 e2, dres a b l1 e1 -> dres b c l2 e2 -> dres a c (l2 ++ l1) (e2 + e1).
  Proof.
    intros a b c l1 l2 e1 e2 (A1 & A2 & A3) (B1 & B2 & B3). repeat split.
    - rewrite B1, A1, fold_right_app. reflexivity.
    - rewrite B2, A2, fold_right_app. reflexivity.
    - lia.
  Qed.

  Lemma step_dres : forall st c st' kids, step st c = Some (st', kids) ->
    (kids <> [] -> dres st st' [] 0) /\
    (kids = [] -> dres st st' (leaf_depths (CNode c [])) (unranked (CNode c []))).
  Proof.
    intros st c st' kids H. unfold ClusterModel.step in H.
    destruct (splitter _ _ _) as [spl|]; [|discriminate].
    destruct (child_infos _ _ _ _ _) as [|k ks].
    - split; [destruct (ci_rank c <? 0)%Z; injection H as <- <-; congruence|]. intros _.
      unfold leaf_depths, unranked, ct_leaves. cbn [ct_nodes filter is_leaf ct_children concat map]. unfold ranked.
      cbn [ct_info filter negb].
      destruct (Z.ltb_spec (ci_rank c) 0) as [Hn|Hn]; injection H as <- <-.
      + destruct (Z.leb_spec 0 (ci_rank c)); [lia|]. cbn. unfold dres. cbn. rewrite Nat.add_1_r. auto.
      + destruct (Z.leb_spec 0 (ci_rank c)); [|lia]. cbn.
        repeat split; cbn; try lia; try (unfold omin; f_equal; lia).
    - injection H as <- <-. split; [|discriminate]. intros _. repeat split. cbn. lia.
  Qed.

  Lemma leaves_list : forall (F : ctree -> bool) ts,
    filter F (concat (map ct_leaves ts)) = concat (map (fun t => filter F (ct_leaves t)) ts).
  Proof. intros F ts. rewrite filter_concat, map_map. reflexivity. Qed.

  Lemma build_dres : forall f,
    (forall st c s t, build f st c = Some (s, t) -> dres st s (leaf_depths t) (unranked t)) /\
    (forall ks st s ts, build_list f st ks = Some (s, ts) ->
       dres st s (concat (map leaf_depths ts)) (fold_right plus 0 (map unranked ts))).
  Proof.
    assert (HL : forall f,
      (forall st c s t, build f st c = Some (s, t) -> dres st s (leaf_depths t) (unranked t)) ->
      (forall ks st s ts, build_list f st ks = Some (s, ts) ->
       dres st s (concat (map leaf_depths ts)) (fold_right plus 0 (map unranked ts)))).
    { intros f HB. induction ks as [|k ks IH]; cbn [ClusterModel.build_list]; intros st s ts H.
      - injection H as <- <-. repeat split. cbn. lia.
      - destruct (build_list f st ks) as [[s1 ts1]|] eqn:E; [|discriminate].
        destruct (build f s1 k) as [[s2 t2]|] eqn:E2; [|discriminate].
        injection H as <- <-. cbn [map concat fold_right].
        eapply dres_trans; [eapply IH; exact E|eapply HB; exact E2]. }
    induction f as [|f [IHb IHl]].
    - split; [intros; discriminate|]. apply HL. intros; discriminate.
    - match goal with |- ?A /\ _ => assert (HB : A) end.
      { intros st c s t H. rewrite build_S in H.
        destruct (step st c) as [[st' kids]|] eqn:Es; [|discriminate].
        destruct (build_list f st' kids) as [[s1 ts]|] eqn:El; [|discriminate].
        injection H as <- <-. destruct (step_dres _ _ _ _ Es) as [A B].
        pose proof (build_list_info _ _ _ _ _ _ _ _ El) as Hi.
        destruct kids as [|k ks].
        - cbn in El. injection El as <- <-. apply B. reflexivity.
        - destruct ts as [|t ts]; [discriminate|].
          specialize (A ltac:(discriminate)). pose proof (IHl _ _ _ _ El) as C.
          pose proof (dres_trans _ _ _ _ _ _ _ A C) as D.
          rewrite app_nil_r, Nat.add_0_r in D.
          unfold leaf_depths, unranked. rewrite leaves_node, !leaves_list, concat_map, map_map.
          assert (Q : forall l, length (concat (map (fun t0 => filter (fun u => negb (ranked u)) (ct_leaves t0)) l))
             = fold_right plus 0 (map unranked l)).
          { clear. induction l as [|x l IH]; [reflexivity|]. cbn [map concat fold_right].
            rewrite app_length, IH. reflexivity. }
          rewrite Q. exact D. }
      split; [exact HB|]. apply HL, HB.
  Qed.
End Depths.

Lemma final_dres : forall sorter strat P fuel s t loc, cluster_tree sorter strat P fuel = Some (s, t, loc) ->
  (forall part, bp_given P = Some part -> part <> []) ->
  dres (init_state P) s (leaf_depths t) (unranked t).
Proof.
  intros sorter strat P fuel s t loc H Hne. destruct (bp_given P) as [part|] eqn:Hg.
  - destruct (given_inv _ _ _ _ _ _ _ _ Hg H) as (ts & Hb & -> & _).
    pose proof (proj2 (build_dres _ _ _ _) _ _ _ _ Hb) as D.
    pose proof (build_list_info _ _ _ _ _ _ _ _ Hb) as Hi.
    destruct part as [|os part]; [destruct (Hne [] eq_refl); reflexivity|].
    destruct ts as [|t ts]; [discriminate|].
    unfold leaf_depths, unranked. rewrite leaves_node, !leaves_list, concat_map, map_map.
    assert (Q : forall l, length (concat (map (fun t0 => filter (fun u => negb (ranked u)) (ct_leaves t0)) l))
             = fold_right plus 0 (map unranked l)).
    { clear. induction l as [|x l IH]; [reflexivity|]. cbn [map concat fold_right].
      rewrite app_length, IH. reflexivity. }
    rewrite Q. exact D.
  - destruct (simple_inv _ _ _ _ _ _ _ Hg H) as [Hb _].
    exact (proj1 (build_dres _ _ _ _) _ _ _ _ Hb).
Qed.

Lemma fold_max : forall l, (forall x, In x l -> x <= fold_right Nat.max 0 l) /\ (l <> [] -> In (fold_right Nat.max 0 l) l).
Proof.
  induction l as [|a l [IH1 IH2]]; [split; [contradiction|congruence]|]. cbn [fold_right]. split.
  - intros x [<-|Hx]; [lia|]. specialize (IH1 x Hx). lia.
  - intros _. destruct l as [|b l]; [left; cbn; lia|].
    destruct (Nat.max_spec a (fold_right Nat.max 0 (b :: l))) as [[_ ->]|[_ ->]]; [right; apply IH2; discriminate|left; reflexivity].
Qed.

Lemma fold_min : forall l, (l = [] /\ fold_right omin None l = None) \/
  exists m, fold_right omin None l = Some m /\ In m l /\ forall x, In x l -> m <= x.
Proof.
  induction l as [|a l IH]; [left; auto|right]. cbn [fold_right].
  destruct IH as [[-> ->]|(m & E & Hm & Hle)].
  - exists a. cbn. repeat split; auto. intros x [<-|[]]. lia.
  - rewrite E. cbn [omin]. exists (Nat.min m a). repeat split.
    + destruct (Nat.min_spec m a) as [[_ ->]|[_ ->]]; [right; exact Hm|left; reflexivity].
    + intros x [<-|Hx]; [lia|]. specialize (Hle x Hx). lia.
Qed.

Lemma In_leaf_depths : forall t x, In x (leaf_depths t) <->
  exists u, In u (ct_leaves t) /\ (0 <= ci_rank (ct_info u))%Z /\ ci_depth (ct_info u) = x.
Proof.
  intros t x. unfold leaf_depths. rewrite in_map_iff. split.
  - intros (u & <- & Hu). apply filter_In in Hu. destruct Hu as [Hu Hr]. unfold ranked in Hr. apply Z.leb_le in Hr. eauto.
  - intros (u & Hu & Hr & <-). exists u. split; [reflexivity|]. apply filter_In. split; [exact Hu|]. apply Z.leb_le, Hr.
Qed.

Lemma unranked_zero : forall t, unranked t = 0 <-> forall u, In u (ct_leaves t) -> (0 <= ci_rank (ct_info u))%Z.
Proof.
  intros t. unfold unranked. rewrite length_zero_iff_nil. split.
  - intros H u Hu. destruct (ranked u) eqn:E; [apply Z.leb_le, E|].
    assert (Q : In u (filter (fun u => negb (ranked u)) (ct_leaves t))) by (apply filter_In; rewrite E; auto).
    rewrite H in Q. contradiction.
  - intros H. apply filter_none. intros u Hu. unfold ranked. rewrite (proj2 (Z.leb_le _ _) (H u Hu)). reflexivity.
Qed.

(** ** Ranks above the partition *)

Lemma build_rank_above : forall sorter splitter P f,
  (forall st c s t, build sorter splitter P f st c = Some (s, t) -> bp_given P = None ->
     ci_rank c = (-1)%Z -> ci_depth c < part_depth P ->
     forall u, In u (ct_nodes t) -> ci_depth (ct_info u) < part_depth P -> ci_rank (ct_info u) = (-1)%Z) /\
  (forall ks st s ts, build_list sorter splitter P f st ks = Some (s, ts) -> bp_given P = None ->
     (forall k, In k ks -> ci_depth k < part_depth P -> ci_rank k = (-1)%Z) ->
     forall t u, In t ts -> In u (ct_nodes t) -> ci_depth (ct_info u) < part_depth P -> ci_rank (ct_info u) = (-1)%Z).
Proof.
  intros sorter splitter P.
  assert (HL : forall f,
    (forall st c s t, build sorter splitter P f st c = Some (s, t) -> bp_given P = None ->
     ci_rank c = (-1)%Z -> ci_depth c < part_depth P ->
     forall u, In u (ct_nodes t) -> ci_depth (ct_info u) < part_depth P -> ci_rank (ct_info u) = (-1)%Z) ->
    (forall ks st s ts, build_list sorter splitter P f st ks = Some (s, ts) -> bp_given P = None ->
     (forall k, In k ks -> ci_depth k < part_depth P -> ci_rank k = (-1)%Z) ->
     forall t u, In t ts -> In u (ct_nodes t) -> ci_depth (ct_info u) < part_depth P -> ci_rank (ct_info u) = (-1)%Z)).
  { intros f HB. induction ks as [|k ks IH]; cbn [build_list]; intros st s ts H Hg Hk t u Ht Hu Hd.
    - injection H as <- <-. contradiction.
    - destruct (build_list sorter splitter P f st ks) as [[s1 ts1]|] eqn:E; [|discriminate].
      destruct (build sorter splitter P f s1 k) as [[s2 t2]|] eqn:E2; [|discriminate].
      injection H as <- <-. destruct Ht as [<-|Ht].
      + assert (Hkd : ci_depth k <= ci_depth (ct_info u)).
        { rewrite <- (build_info _ _ _ _ _ _ _ _ E2). apply level_deep; [|exact Hu].
          intros v Hv. eapply (proj1 (build_depth sorter splitter P f)); eauto. }
        eapply HB; eauto; [apply Hk; [left; reflexivity|lia]|lia].
      + eapply IH; eauto. intros k' Hk'. apply Hk. right; exact Hk'. }
  induction f as [|f [IHb IHl]].
  - split; [intros; discriminate|]. apply HL. intros; discriminate.
  - match goal with |- ?A /\ _ => assert (HB : A) end.
    { intros st c s t H Hg Hr Hc u Hu Hd. rewrite build_S in H.
      destruct (step sorter splitter P st c) as [[st' kids]|] eqn:Es; [|discriminate].
      destruct (build_list sorter splitter P f st' kids) as [[s1 ts]|] eqn:El; [|discriminate].
      injection H as <- <-. destruct (In_nodes_inv _ _ _ Hu) as [->|(t & Ht & Hu')]; [exact Hr|].
      eapply IHl; eauto. intros k Hk Hkd.
      destruct (step_links _ _ _ _ _ _ _ Es) as (perm1 & spl & _ & -> & _).
      pose proof (child_infos_depth _ _ _ _ _ _ Hk) as Hdep.
      rewrite <- Hr. eapply child_infos_rank_off; [|exact Hk].
      unfold on_level. rewrite Hg. apply Nat.eqb_neq. lia. }
    split; [exact HB|]. apply HL, HB.
Qed.

(** No error logged: no cluster above the partition is a leaf. *)
Lemma no_error_split : forall sorter strat P fuel s t loc, bp_given P = None -> 1 <= part_depth P ->
  cluster_tree sorter strat P fuel = Some (s, t, loc) ->
  st_errors s = 0 -> forall u, In u (ct_nodes t) -> ci_depth (ct_info u) < part_depth P -> ct_children u <> [].
Proof.
  intros sorter strat P fuel s t loc Hg Hd H He u Hu Hdu Hl.
  destruct (final_dres _ _ _ _ _ _ _ H) as (_ & _ & Q).
  { intros part Hp. congruence. }
  cbn [init_state st_errors] in Q. rewrite He in Q. symmetry in Q. cbn [plus] in Q.
  destruct (simple_inv _ _ _ _ _ _ _ Hg H) as [Hb _].
  pose proof (proj1 (unranked_zero t) Q u) as R.
  rewrite (proj1 (build_rank_above _ _ _ _) _ _ _ _ Hb Hg eq_refl) in R by (auto; cbn; lia).
  assert (In u (ct_leaves t)); [|specialize (R H0); lia].
  apply filter_In. split; [exact Hu|]. unfold is_leaf. rewrite Hl. reflexivity.
Qed.

(** ** The tree as it is saved *)

Section Conv.
  Variable R : Type.
  Variable geo : cinfo -> R * list R.   (** radius and centre of a cluster *)

  Notation conv := (conv geo).

  Lemma conv_children : forall t, rt_children (conv t) = map conv (ct_children t).
  Proof. intros [c ts]. reflexivity. Qed.

  Lemma conv_preorder : forall t, preorder (conv t) = map conv (ct_nodes t).
  Proof.
    intros t. induction t as [c ts IH] using ctree_ind'. cbn [conv preorder ct_nodes map]. f_equal.
    rewrite concat_map, !map_map. f_equal. apply map_ext_in. exact IH.
  Qed.

  Lemma conv_lev : forall j t, (forall u, In u (ct_nodes t) -> depth_ok u) ->
    lev j (conv t) = map conv (level (ci_depth (ct_info t) + j) t).
  Proof.
    induction j as [|j IH]; intros [c ts] H.
    - rewrite Nat.add_0_r. rewrite level_self by auto. reflexivity.
    - rewrite level_above by (cbn [ct_info]; lia). cbn [lev]. rewrite conv_children. cbn [ct_children].
      rewrite concat_map, !map_map. f_equal. apply map_ext_in. intros t Ht.
      rewrite IH by (intros u Hu; apply H; eapply In_nodes_child; eauto).
      pose proof (H _ (In_nodes_root _) t Ht) as Hd. cbn [ct_info] in *. rewrite Hd.
      f_equal. f_equal. lia.
  Qed.
End Conv.

Lemma nodes_leaf_below : forall t u, (forall u, In u (ct_nodes t) -> depth_ok u) -> In u (ct_nodes t) ->
  exists v, In v (ct_leaves t) /\ ci_depth (ct_info u) <= ci_depth (ct_info v).
Proof.
  intros t. induction t as [c ts IH] using ctree_ind'. intros u H Hu.
  destruct ts as [|k ks].
  - cbn in Hu. destruct Hu as [<-|[]]. exists (CNode c []). split; [left; reflexivity|lia].
  - rewrite leaves_node. destruct (In_nodes_inv _ _ _ Hu) as [->|(t & Ht & Hu')].
    + destruct (IH k (or_introl eq_refl) k) as (v & Hv & Hd).
      { intros w Hw. apply H. eapply In_nodes_child; [left; reflexivity|exact Hw]. }
      { apply In_nodes_root. }
      exists v. split; [apply in_concat; exists (ct_leaves k); split; [left; reflexivity|exact Hv]|].
      pose proof (H _ (In_nodes_root _) k (or_introl eq_refl)) as Q. cbn [ct_info] in *. lia.
    + destruct (IH t Ht u) as (v & Hv & Hd); [|exact Hu'|].
      { intros w Hw. apply H. eapply In_nodes_child; eauto. }
      exists v. split; [|exact Hd]. apply in_concat. exists (ct_leaves t). split; [apply in_map, Ht|exact Hv].
Qed.

Lemma final_depth_ok : forall sorter strat P fuel s t loc, cluster_tree sorter strat P fuel = Some (s, t, loc) ->
  ct_info t = root_info P /\ forall u, In u (ct_nodes t) -> depth_ok u.
Proof.
  intros sorter strat P fuel s t loc H. destruct (bp_given P) as [part|] eqn:Hg.
  - destruct (given_inv _ _ _ _ _ _ _ _ Hg H) as (ts & Hb & -> & _). split; [reflexivity|].
    intros u Hu. destruct (In_nodes_inv _ _ _ Hu) as [->|(t & Hin & Hu')].
    + intros k Hk. cbn [ct_info ct_children] in *. apply (in_map ct_info) in Hk.
      rewrite (build_list_info _ _ _ _ _ _ _ _ Hb) in Hk. apply (given_children_pts _ _ _ _ Hk).
    + eapply (proj2 (build_depth _ _ _ fuel)); eauto.
  - destruct (simple_inv _ _ _ _ _ _ _ Hg H) as [Hb _]. split; [eapply build_info; eauto|].
    intros u Hu. eapply (proj1 (build_depth _ _ _ fuel)); eauto.
Qed.

Lemma given_ranks : forall P part p, map ci_rank (given_children P p part) = map Z.of_nat (seq p (length part)).
Proof. intros P part. induction part as [|os part IH]; intros p; [reflexivity|]. cbn. f_equal. apply IH. Qed.

Lemma final_save_read : forall R (fmt : R -> str) (prs : str -> R) (geo : cinfo -> R * list R) dim,
  (forall r, clean (fmt r)) ->
  forall sorter strat P fuel s t loc,
    sorter_ok sorter -> 1 <= bp_nc P -> 1 <= bp_sp P ->
    (bp_given P = None -> bp_nc P <= bp_sp P -> 1 <= bp_logdepth P /\ bp_nc P ^ bp_logdepth P <= bp_sp P) ->
    (forall part, bp_given P = Some part -> part <> []) ->
    cluster_tree sorter strat P fuel = Some (s, t, loc) ->
    st_errors s = 0 ->
    (forall c, length (snd (geo c)) = dim) ->
    exists text, save_tree R fmt (part_depth P) (st_max s) (conv geo t) = Some text /\
      read_tree R prs (length (ct_nodes t)) text =
        Some (rmap (regeo fmt prs) (conv geo t),
              map (fun u => Some (regeo fmt prs (conv_info geo (ct_info u)))) (level (part_depth P) t)).
Proof.
  intros R fmt prs geo dim Hf sorter strat P fuel s t loc Hs Hnc Hsp Hlog Hne H He Hdim.
  destruct (final_depth_ok _ _ _ _ _ _ _ H) as [Hroot Hdep].
  destruct (final_dres _ _ _ _ _ _ _ H Hne) as (Hmax & _ & Herr).
  cbn [init_state st_errors st_max plus] in *. rewrite He in Herr. symmetry in Herr.
  assert (Hpd : 1 <= part_depth P).
  { unfold part_depth. destruct (bp_given P); [lia|]. destruct (Nat.leb_spec (bp_nc P) (bp_sp P)); [|lia].
    apply Hlog; auto. }
  assert (Hrd : ci_depth (ct_info t) = 0) by (rewrite Hroot; reflexivity).
  assert (HL : forall j, lev j (conv geo t) = map (conv geo) (level j t)).
  { intros j. rewrite conv_lev by exact Hdep. rewrite Hrd. reflexivity. }
  destruct (save_read R fmt prs Hf (part_depth P) (st_max s) dim (conv geo t)) as (text & E1 & E2).
  - rewrite HL. destruct (level (S (st_max s)) t) as [|u us] eqn:E; [reflexivity|exfalso].
    assert (Hu : In u (level (S (st_max s)) t)) by (rewrite E; left; reflexivity).
    apply filter_In in Hu. destruct Hu as [Hu Hd]. apply Nat.eqb_eq in Hd.
    destruct (nodes_leaf_below t u Hdep Hu) as (v & Hv & Hle).
    pose proof (proj1 (unranked_zero t) Herr v Hv) as Hr.
    assert (In (ci_depth (ct_info v)) (leaf_depths t)) as Q by (apply In_leaf_depths; eauto).
    apply (proj1 (fold_max (leaf_depths t))) in Q. rewrite <- Hmax in Q. lia.
  - lia.
  - destruct t as [c ts]. cbn [conv rt_val conv_info in_counter]. cbn [ct_info] in Hroot. rewrite Hroot. reflexivity.
  - intros u Hu. rewrite conv_preorder in Hu. apply in_map_iff in Hu. destruct Hu as ([c ts] & <- & _).
    cbn [conv rt_val conv_info in_center]. apply Hdim.
  - rewrite HL, !map_map, map_length.
    assert (Hx : map (fun x => in_rank R (rt_val (conv geo x))) (level (part_depth P) t)
            = map (fun u => ci_rank (ct_info u)) (level (part_depth P) t)).
    { apply map_ext. intros [c ts]. reflexivity. }
    rewrite Hx. destruct (bp_given P) as [part|] eqn:Hg.
    + destruct (given_inv _ _ _ _ _ _ _ _ Hg H) as (ts & Hb & -> & _).
      unfold part_depth. rewrite Hg. rewrite level_above by discriminate.
      assert (Hl1 : concat (map (level 1) ts) = ts).
      { assert (Hk : forall t, In t ts -> level 1 t = [t]).
        { intros t Ht. apply level_self; [intros u Hu; apply Hdep; eapply In_nodes_child; eauto|].
          apply (Hdep _ (In_nodes_root _) t Ht). }
        rewrite (map_ext_in _ (fun t => [t]) ts Hk). clear. induction ts as [|x l IH]; [reflexivity|]. cbn. f_equal. exact IH. }
      rewrite Hl1. rewrite <- (map_map ct_info ci_rank). rewrite (build_list_info _ _ _ _ _ _ _ _ Hb).
      rewrite given_ranks. f_equal. f_equal.
      rewrite <- (map_length ct_info ts), (build_list_info _ _ _ _ _ _ _ _ Hb).
      rewrite <- (map_length ci_rank), given_ranks, map_length, seq_length. reflexivity.
    + destruct (final_partition sorter strat P Hs fuel s t loc Hg Hnc Hsp (Hlog eq_refl) H) as (_ & Hr & _).
      { intros u Hu Hd. eapply no_error_split; eauto. }
      rewrite Hr. f_equal. f_equal.
      apply (f_equal (@length Z)) in Hr. rewrite !map_length, seq_length in Hr. symmetry; exact Hr.
  - exists text. split; [exact E1|]. rewrite conv_preorder, map_length in E2. rewrite E2.
    rewrite HL, map_map. f_equal. f_equal. apply map_ext. intros [c ts]. reflexivity.
Qed.
