(** * Built trees are operands of the algebra: proofs. *)

From Coq Require Import List Arith ZArith Bool Permutation Lia.
From Verif Require Import ClusterModel ClusterSpec ClusterProofs ClusterFinal IOModel IOSpec BlockModel BlockSpec BlockProofs BlockFinal BlockSym BlockLink
  Algebra Field BlasModel HMatModel HMatSpec HMatBuild ArithModel ArithSpec ArithTree OperandSpec.
Import ListNotations.

Notation ctree_ok := ArithSpec.cluster_tree.

(** ** Cluster trees *)
Section Trees.
  Variable parts : ctree -> list ctree.

  Lemma ranks_below : forall T ps, partitioned T ps -> forall u, In u (ct_nodes T) -> (0 <= c_rank u)%Z -> forall v, In v (ct_nodes u) -> (0 <= c_rank v)%Z.
  Proof.
    intros T ps HT u. induction u as [c ts IH] using ctree_ind'. intros Hu Hr v Hv.
    destruct (In_nodes_inv _ _ _ Hv) as [->|(k & Hk & Hv')]; [exact Hr|].
    apply (IH k Hk); [eapply nodes_trans; [exact Hu|apply nodes_kid; exact Hk]| |exact Hv'].
    destruct (pt_below _ _ HT (CNode c ts) Hu Hr) as [_ Q]. unfold c_rank. rewrite (Q k Hk). exact Hr.
  Qed.

  Lemma low_tree : forall t, (forall u, In u (ct_nodes t) -> node_ok u /\ depth_ok u /\ 0 < ci_size (ct_info u) /\ (0 <= c_rank u)%Z) -> ctree_ok parts t.
  Proof.
    induction t as [c ts IH] using ctree_ind'. intros H. destruct (H _ (In_nodes_root _)) as (N & D & Z0 & R0).
    assert (HK : forall k, In k ts -> forall u, In u (ct_nodes k) -> In u (ct_nodes (CNode c ts))) by (intros k Hk u Hu; eapply In_nodes_child; eauto).
    constructor.
    - exact Z0.
    - intros Hne. destruct N as [N|N]; [cbn in N; congruence|exact N].
    - intros k Hk. exact (D k Hk).
    - intros k Hk. apply (H k). apply (HK k Hk), In_nodes_root.
    - intros Q. unfold c_rank in R0. cbn in R0. lia.
    - intros k Hk. apply (IH k Hk). intros u Hu. apply H. exact (HK k Hk u Hu).
  Qed.

  (** A tree on which the partition is the list of the children of the root (or that lies inside one part). *)
  Lemma tree_operand : forall T ps, partitioned T ps -> nonempty T -> (forall u, In u (ct_nodes T) -> depth_ok u) ->
    ((c_rank T < 0)%Z -> ct_children T = ps /\ parts T = ps) -> ctree_ok parts T.
  Proof.
    intros T ps HT NT DT HP. destruct (Z_lt_le_dec (c_rank T) 0) as [Hr|Hr].
    - destruct (HP Hr) as [E1 E2]. destruct T as [c ts]. cbn [ct_children] in E1. subst ps.
      assert (HK : forall k, In k ts -> In k (ct_nodes (CNode c ts))) by (intros k Hk; eapply In_nodes_child; [exact Hk|apply In_nodes_root]).
      assert (RK : forall k, In k ts -> (0 <= c_rank k)%Z).
      { intros k Hk. destruct (In_nth_error _ _ Hk) as [p Ep]. unfold c_rank. rewrite (pt_rank _ _ HT p k Ep). lia. }
      constructor.
      + exact (NT _ (In_nodes_root _)).
      + intros Hne. destruct (pt_node _ _ HT _ (In_nodes_root _)) as [N|N]; [cbn in N; congruence|exact N].
      + intros k Hk. exact (DT _ (In_nodes_root _) k Hk).
      + exact RK.
      + intros _. split; [|exact E2]. apply (pt_above _ _ HT _ (In_nodes_root _) Hr).
      + intros k Hk. apply low_tree. intros u Hu. assert (Hu' : In u (ct_nodes (CNode c ts))) by (eapply nodes_trans; [apply HK; exact Hk|exact Hu]).
        split; [apply (pt_node _ _ HT), Hu'|]. split; [apply DT, Hu'|]. split; [apply NT, Hu'|].
        exact (ranks_below _ _ HT k (HK k Hk) (RK k Hk) u Hu).
    - apply low_tree. intros u Hu. split; [apply (pt_node _ _ HT), Hu|]. split; [apply DT, Hu|]. split; [apply NT, Hu|].
      exact (ranks_below _ _ HT T (In_nodes_root _) Hr u Hu).
  Qed.

  Lemma ctree_kid : forall t k, ctree_ok parts t -> In k (ct_children t) -> ctree_ok parts k.
  Proof. intros t k H Hk. inversion H; subst. auto. Qed.
  Lemma ctree_node : forall t, ctree_ok parts t -> forall u, In u (ct_nodes t) -> ctree_ok parts u.
  Proof.
    induction t as [c ts IH] using ctree_ind'. intros H u Hu. destruct (In_nodes_inv _ _ _ Hu) as [->|(k & Hk & Hu')]; [exact H|].
    apply (IH k Hk); [exact (ctree_kid _ k H Hk)|exact Hu'].
  Qed.
  Lemma ctree_kid_rank : forall t k, ctree_ok parts t -> In k (ct_children t) -> above k = false.
  Proof. intros t k H Hk. inversion H; subst. unfold above. apply Z.ltb_ge. auto. Qed.
  Lemma ctree_above_leaf : forall t, ctree_ok parts t -> is_leaf t = true -> above t = false.
  Proof.
    intros t H L. inversion H as [i cs H1 H2 H3 H4 H5 H6]; subst. unfold above, c_rank. cbn [ct_info]. destruct (Z.ltb_spec (ci_rank i) 0) as [Q|Q]; [|reflexivity].
    destruct (H5 Q) as [Q1 _]. unfold is_leaf in L. cbn in L. destruct cs; [congruence|discriminate].
  Qed.
  Lemma ckids_children : forall t, is_leaf t = false -> ckids t = ct_children t.
  Proof. intros t H. unfold ckids, is_leaf in *. destruct (ct_children t); [discriminate|reflexivity]. Qed.
  Lemma ckids_leaf : forall t, is_leaf t = true -> ckids t = [t].
  Proof. intros t H. unfold ckids, is_leaf in *. destruct (ct_children t); [reflexivity|discriminate]. Qed.
End Trees.

Lemma filter_all : forall A (f : A -> bool) l, (forall x, In x l -> f x = true) -> filter f l = l.
Proof. intros A f l. induction l as [|x l IH]; intros H; [reflexivity|]. cbn. rewrite (H x (or_introl eq_refl)), IH; [reflexivity|]. intros y Hy. apply H. right. exact Hy. Qed.
Lemma list_prod_concat : forall A B (l : list A) (l' : list B), list_prod l l' = concat (map (fun a => map (fun b => (a, b)) l') l).
Proof. intros A B l l'. induction l as [|a l IH]; [reflexivity|]. cbn. rewrite IH. reflexivity. Qed.

(** ** Block trees *)
Section Blocks.
  Variable K : Coef.
  Notation C := (car K).
  Variable sy : symc.
  Variable B : bbuild.
  Variable gen : nat -> nat -> C.
  Variable compress : ctree -> ctree -> lrm K.
  Variable parts : ctree -> list ctree.
  Notation hf := (hfill K sy B gen compress).
  Notation hl := (hleaf K sy B gen compress).
  Notation ct := (ctree_ok parts).
  Notation hrep := (hrep (K := K) parts).

  Hypothesis Htp : bb_tpart B = None.
  Hypothesis Hcons : bb_cons B = true.
  Hypothesis Hco : compress_ok K compress.
  Hypothesis Hpos : positive_ranks compress.

  Lemma all_in_part : forall t, in_part B t = true. Proof. intros t. unfold in_part. rewrite Htp. reflexivity. Qed.
  Lemma all_t_ok : forall t, t_ok B t = true. Proof. intros t. unfold t_ok. rewrite all_in_part. reflexivity. Qed.

  (** Nothing is removed below the block and no block has a symmetry. *)
  Definition plain (t s : ctree) : Prop := forall t' s', In t' (ct_nodes t) -> In s' (ct_nodes s) -> removed B t' s' = false /\ has_sym B t' s' = false.

  Lemma branch_children : forall t s l, ct t -> ct s -> plain t s -> above t = above s -> branch B t s = inr l ->
    is_leaf t && is_leaf s = false /\ l = list_prod (ckids t) (ckids s).
  Proof.
    intros t s l Ht Hs Hpl Hab Hb. unfold branch in Hb. destruct (low_rank_task B t s); [discriminate|].
    assert (KT : forall k, In k (ct_children t) -> In k (ct_nodes t)) by (intros; apply nodes_kid; assumption).
    assert (KS : forall k, In k (ct_children s) -> In k (ct_nodes s)) by (intros; apply nodes_kid; assumption).
    destruct (is_leaf s) eqn:Es; destruct (is_leaf t) eqn:Et; cbn [andb] in *; try discriminate.
    - injection Hb as <-. split; [reflexivity|]. rewrite (ckids_children t Et), (ckids_leaf s Es). unfold split_t. rewrite filter_all.
      + clear. induction (ct_children t) as [|k l IH]; [reflexivity|]. cbn. rewrite IH. reflexivity.
      + intros k Hk. rewrite all_t_ok. destruct (Hpl k s (KT k Hk) (In_nodes_root s)) as [-> _]. reflexivity.
    - injection Hb as <-. split; [reflexivity|]. rewrite (ckids_leaf t Et), (ckids_children s Es). unfold split_s. rewrite filter_all.
      + cbn. rewrite app_nil_r. reflexivity.
      + intros k Hk. destruct (Hpl t k (In_nodes_root t) (KS k Hk)) as [-> _]. reflexivity.
    - split; [reflexivity|]. rewrite Hcons in Hb. unfold above in Hab.
      assert (E : branch B t s = inr (split_ts B t s) -> True) by auto. clear E.
      destruct (Z.ltb_spec (c_rank t) 0) as [Q1|Q1], (Z.ltb_spec (c_rank s) 0) as [Q2|Q2]; try discriminate;
        destruct (Z.leb_spec 0 (c_rank s)) as [Q3|Q3]; destruct (Z.leb_spec 0 (c_rank t)) as [Q4|Q4]; try lia; cbn [andb] in Hb; injection Hb as <-;
        rewrite (ckids_children t Et), (ckids_children s Es), list_prod_concat; unfold split_ts; f_equal; apply map_ext_in; intros k Hk; f_equal; apply filter_all; intros j Hj;
        rewrite all_t_ok; destruct (Hpl k j (KT k Hk) (KS j Hj)) as [-> _]; reflexivity.
  Qed.

  Lemma hf_block : forall b, block_of (hf b) = (b_t (rt_val b), b_s (rt_val b)).
  Proof. intros [i cs]. reflexivity. Qed.

  Lemma omap_all : forall A D (f : A -> option D) l ys, omap f l = Some ys -> Forall2 (fun x y => f x = Some y) l ys.
  Proof.
    intros A D f l. induction l as [|x l IH]; intros ys H; cbn in H; [injection H as <-; constructor|].
    destruct (f x) eqn:E; [|discriminate]. destruct (omap f l) eqn:E2; [|discriminate]. injection H as <-. constructor; auto.
  Qed.

  Lemma block_clusters : forall fuel t s b, build_block_tree B fuel t s = Some b -> b_t (rt_val b) = t /\ b_s (rt_val b) = s /\ b_sym (rt_val b) = has_sym B t s.
  Proof.
    intros [|f] t s b H; [discriminate|]. cbn in H. destruct (branch B t s) as [k|l]; [injection H as <-; auto|].
    destruct (omap _ l); [injection H as <-; auto|discriminate].
  Qed.

  Lemma leaf_data : forall t s k, ct t -> ct s -> leaf_ok (hl (mkBinfo t s (Some k) (has_sym B t s))).
  Proof.
    intros t s k Ht Hs. unfold leaf_ok, hleaf. cbn [h_data h_t h_s b_t b_s]. unfold block_data. cbn [b_task b_t b_s].
    destruct k; [|apply of_fun_wf]. destruct (mr (lU (compress t s)) =? c_size t) eqn:E1; [|apply of_fun_wf]. destruct (mc (lV (compress t s)) =? c_size s) eqn:E2; [|apply of_fun_wf].
    cbn [andb]. apply Nat.eqb_eq in E1, E2. destruct (Hco t s) as [W1 W2]. rewrite E1 in W1. rewrite E2 in W2. split; [split; assumption|]. apply Hpos; assumption.
  Qed.

  (** A block without removed sub-blocks. *)
  Lemma build_hrep : forall M fuel t s b, ct t -> ct s -> plain t s -> above t = above s -> build_block_tree B fuel t s = Some b ->
    (forall x, In x (rleaves b) -> forall i j, i < c_size (b_t x) -> j < c_size (b_s x) -> stored (hl x) i j = M (c_off (b_t x) + i) (c_off (b_s x) + j)) ->
    hrep M (hf b).
  Proof.
    intros M. induction fuel as [|fuel IH]; intros t s b Ht Hs Hpl Hab HB HM; [discriminate|]. cbn [build_block_tree] in HB.
    destruct (Hpl t s (In_nodes_root t) (In_nodes_root s)) as [_ Hsym]. destruct (branch B t s) as [k|l] eqn:Eb.
    - injection HB as <-. pose proof (leaf_data t s k Ht Hs) as LD. specialize (HM _ (or_introl eq_refl)). rewrite Hsym in *. cbn [hfill b_sym]. apply hrep_leaf; cbn [h_t h_s h_sym h_lsym b_t b_s]; try assumption; try reflexivity.
    - destruct (branch_children t s l Ht Hs Hpl Hab Eb) as [HL El].
      destruct (omap (fun ts => build_block_tree B fuel (fst ts) (snd ts)) l) as [bs|] eqn:Eo; [|discriminate]. injection HB as <-. apply omap_all in Eo.
      assert (CL : map (fun c => (b_t (rt_val c), b_s (rt_val c))) bs = l /\ existsb (fun c => b_sym (rt_val c)) bs = false /\
        forall c, In c bs -> exists t' s', In t' (ckids t) /\ In s' (ckids s) /\ build_block_tree B fuel t' s' = Some c).
      { assert (Q : forall p, In p l -> In (fst p) (ckids t) /\ In (snd p) (ckids s)). { intros [p1 p2] Hp. rewrite El in Hp. apply in_prod_iff in Hp. exact Hp. }
        assert (N : forall c k, In k (ckids c) -> In k (ct_nodes c)).
        { intros c k Hk. unfold ckids in Hk. destruct (ct_children c) eqn:E; [destruct Hk as [<-|[]]; apply In_nodes_root|]. rewrite <- E in Hk. apply nodes_kid, Hk. }
        clear El Eb HM HL. induction Eo as [|p c l bs H1 H2 IH2]; [split; [reflexivity|split; [reflexivity|intros c []]]|].
        destruct IH2 as (I1 & I2 & I3); [intros q Hq; apply Q; right; exact Hq|]. destruct (block_clusters _ _ _ _ H1) as (E1 & E2 & E3). destruct (Q p (or_introl eq_refl)) as [Q1 Q2].
        split; [|split].
        - cbn [map]. rewrite E1, E2, I1. destruct p; reflexivity.
        - cbn [existsb]. rewrite E3, I2. destruct (Hpl (fst p) (snd p) (N t _ Q1) (N s _ Q2)) as [_ ->]. reflexivity.
        - intros c' [<-|Hc]; [|apply I3, Hc]. exists (fst p), (snd p). auto. }
      destruct CL as (C1 & C2 & C3). cbn [hfill b_sym b_t b_s]. rewrite Hsym.
      assert (Hls : (match bs with [] => false | _ => existsb (fun c => b_sym (rt_val c)) bs end) = false) by (destruct bs; [reflexivity|exact C2]). rewrite Hls.
      apply hrep_node; cbn [h_t h_s h_sym h_lsym h_data b_t b_s]; try assumption; try reflexivity.
      + rewrite map_map. rewrite (map_ext _ (fun c => (b_t (rt_val c), b_s (rt_val c)))) by (intros; apply hf_block). rewrite C1, El. apply Permutation_refl.
      + intros c' Hc'. apply in_map_iff in Hc'. destruct Hc' as (c & <- & Hc). destruct (C3 c Hc) as (t' & s' & K1 & K2 & K3).
        assert (CT : forall c k, ct c -> In k (ckids c) -> ct k).
        { intros d k Hd Hk. unfold ckids in Hk. destruct (ct_children d) eqn:E; [destruct Hk as [<-|[]]; exact Hd|]. rewrite <- E in Hk. exact (ctree_kid parts d k Hd Hk). }
        assert (N : forall c k u, In k (ckids c) -> In u (ct_nodes k) -> In u (ct_nodes c)).
        { intros d k u Hk Hu. unfold ckids in Hk. destruct (ct_children d) eqn:E; [destruct Hk as [<-|[]]; exact Hu|]. rewrite <- E in Hk. eapply nodes_trans; [apply nodes_kid; exact Hk|exact Hu]. }
        apply (IH t' s' c).
        * exact (CT t t' Ht K1).
        * exact (CT s s' Hs K2).
        * intros u v Hu Hv. apply Hpl; [exact (N t t' u K1 Hu)|exact (N s s' v K2 Hv)].
        * assert (AK : forall c k, ct c -> In k (ckids c) -> above k = false \/ (k = c /\ is_leaf c = true)).
          { intros d k Hd Hk. destruct (is_leaf d) eqn:Ed; [rewrite (ckids_leaf d Ed) in Hk; destruct Hk as [<-|[]]; right; auto|].
            rewrite (ckids_children d Ed) in Hk. left. exact (ctree_kid_rank parts d k Hd Hk). }
          assert (AK' : forall c k, ct c -> In k (ckids c) -> above k = false).
          { intros d k Hd Hk. destruct (AK d k Hd Hk) as [Q|[-> Q]]; [exact Q|]. exact (ctree_above_leaf parts d Hd Q). }
          rewrite (AK' t t' Ht K1), (AK' s s' Hs K2). reflexivity.
        * exact K3.
        * intros x Hx. apply HM. rewrite rleaves_eq. apply in_or_app. right. apply in_concat. exists (rleaves c). split; [apply in_map; exact Hc|exact Hx].
  Qed.
End Blocks.
