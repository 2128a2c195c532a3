(** * Sub-blocks of a hierarchical matrix: search, existence of the diagonal block. *)

From Coq Require Import List Arith ZArith Bool Lia Permutation.
From Verif Require Import ClusterModel ClusterSpec ClusterProofs IOModel IOSpec IOProofs BlockModel BlockSpec BlockProofs
  BlockFinal BlockSym Algebra BlasModel HMatModel HMatSpec HMatBuild DistModel ArithModel ArithTree.
Import ListNotations.

Lemma in_preorder_root : forall A (t : rtree A), In t (preorder t).
Proof. intros A t. rewrite preorder_eq. left. reflexivity. Qed.
Lemma in_preorder_child : forall A (t : rtree A) c x, In c (rt_children t) -> In x (preorder c) -> In x (preorder t).
Proof. intros A t c x Hc Hx. rewrite preorder_eq. right. apply in_concat. exists (preorder c). split; [apply in_map, Hc|exact Hx]. Qed.
Lemma in_preorder_inv : forall A (t : rtree A) x, In x (preorder t) -> x = t \/ exists c, In c (rt_children t) /\ In x (preorder c).
Proof.
  intros A t x H. rewrite preorder_eq in H. destruct H as [<-|H]; [left; reflexivity|]. right. apply in_concat in H. destruct H as (l & Hl & Hx).
  apply in_map_iff in Hl. destruct Hl as (c & <- & Hc). eauto.
Qed.

Lemma length_concat_sum : forall A (l : list (list A)), length (concat l) = sumn (map (@length A) l).
Proof. intros A. induction l as [|x l IH]; [reflexivity|]. cbn [concat map]. rewrite app_length, IH. reflexivity. Qed.

(** ** Breadth-first search *)
Section Search.
  Variable K : Coef.
  Variables (t s : ctree).
  Let hit (h : hmat K) : bool := ceq t (h_t (rt_val h)) && ceq s (h_s (rt_val h)).

  Lemma indexed_nth : forall A (l : list A) k c, In (k, c) (indexed l) -> nth_error l k = Some c.
  Proof.
    intros A l k c H. unfold indexed in H. apply In_nth_error in H. destruct H as [n H].
    assert (Hn : n < length l).
    { assert (Q : nth_error (combine (seq 0 (length l)) l) n <> None) by congruence. apply nth_error_Some in Q. rewrite combine_length, seq_length in Q. lia. }
    revert H. assert (G : forall (l : list A) a n, n < length l -> nth_error (combine (seq a (length l)) l) n = option_map (fun x => (a + n, x)) (nth_error l n)).
    { clear. induction l as [|x l IH]; intros a n Hn; [cbn in Hn; lia|]. destruct n as [|n]; cbn [seq length combine nth_error]; [rewrite Nat.add_0_r; reflexivity|].
      cbn in Hn. rewrite IH by lia. destruct (nth_error l n); cbn; [f_equal; f_equal; lia|reflexivity]. }
    rewrite G by exact Hn. destruct (nth_error l n) eqn:E; [|discriminate]. cbn. intros Q. injection Q as <- <-. exact E.
  Qed.
  Lemma map_snd_indexed : forall A (l : list A), map snd (indexed l) = l.
  Proof.
    intros A l. unfold indexed. generalize 0. induction l as [|x l IH]; intros a; [reflexivity|]. cbn [length seq combine map snd]. f_equal. apply IH.
  Qed.

  Lemma node_at_app : forall A p q (h : rtree A), node_at (p ++ q) h = match node_at p h with Some d => node_at q d | None => None end.
  Proof.
    intros A p. induction p as [|k p IH]; intros q h; [reflexivity|]. cbn [app node_at]. destruct (nth_error (rt_children h) k); [apply IH|reflexivity].
  Qed.

  Definition weight (q : list (list nat * hmat K)) : nat := sumn (map (fun x => length (preorder (snd x))) q).
  Lemma weight_app : forall a b, weight (a ++ b) = weight a + weight b.
  Proof. intros a b. unfold weight. rewrite map_app, sumn_app. reflexivity. Qed.
  Lemma weight_children : forall p (h : hmat K), S (weight (map (fun kc => (p ++ [fst kc], snd kc)) (indexed (rt_children h)))) = length (preorder h).
  Proof.
    intros p h. unfold weight. rewrite map_map. cbn [snd]. rewrite preorder_eq. cbn [length]. f_equal. rewrite length_concat_sum.
    rewrite map_map. rewrite <- (map_snd_indexed _ (rt_children h)) at 2. rewrite map_map. reflexivity.
  Qed.

  (** the queue holds nodes of A with their paths *)
  Lemma bfs_ok : forall (A : hmat K) fuel q, weight q <= fuel -> (forall p h, In (p, h) q -> node_at p A = Some h) ->
    (exists p h x, In (p, h) q /\ In x (preorder h) /\ hit x = true) ->
    exists r d, bfs K fuel q t s = Some r /\ node_at r A = Some d /\ hit d = true.
  Proof.
    intros A. induction fuel as [|f IH]; intros q Hw Hn (p & h & x & Hq & Hx & Hh).
    - exfalso. destruct q as [|[p0 h0] q]; [exact Hq|]. unfold weight in Hw. cbn [map snd] in Hw. rewrite preorder_eq in Hw. cbn in Hw. lia.
    - destruct q as [|[p0 h0] q]; [destruct Hq|]. cbn [bfs]. fold (hit h0). destruct (hit h0) eqn:E0.
      + exists p0, h0. split; [reflexivity|]. split; [apply Hn; left; reflexivity|exact E0].
      + apply IH.
        * rewrite weight_app. change (weight ((p0, h0) :: q)) with (length (preorder h0) + weight q) in Hw. rewrite <- (weight_children p0 h0) in Hw. lia.
        * intros p' h' H'. apply in_app_iff in H'. destruct H' as [H'|H']; [apply Hn; right; exact H'|]. apply in_map_iff in H'.
          destruct H' as ([k c] & E & Hk). injection E as <- <-. cbn [fst snd]. rewrite node_at_app, (Hn p0 h0 (or_introl eq_refl)). cbn [node_at].
          rewrite (indexed_nth _ _ _ _ Hk). reflexivity.
        * destruct Hq as [E|Hq].
          -- injection E as -> ->. destruct (in_preorder_inv _ _ _ Hx) as [->|(c & Hc & Hx')]; [congruence|].
             rewrite <- (map_snd_indexed _ (rt_children h)) in Hc. apply in_map_iff in Hc. destruct Hc as ([k c'] & E & Hk). cbn [snd] in E. subst c'.
             exists (p ++ [k]), c, x. split; [|split; assumption]. apply in_app_iff. right. apply in_map_iff. exists (k, c). split; [reflexivity|exact Hk].
          -- exists p, h, x. split; [apply in_app_iff; left; exact Hq|split; assumption].
  Qed.

  Lemma node_at_in : forall r (A d : hmat K), node_at r A = Some d -> In d (preorder A).
  Proof.
    induction r as [|k r IH]; intros A d H; cbn [node_at] in H.
    - injection H as <-. apply in_preorder_root.
    - destruct (nth_error (rt_children A) k) as [c|] eqn:E; [|discriminate]. apply (in_preorder_child _ A c); [eapply nth_error_In, E|apply IH, H].
  Qed.

  (** get_sub_hmatrix finds a block whenever there is one. *)
  Lemma sub_ok : forall (A x : hmat K), In x (preorder A) -> hit x = true -> exists D, sub K A t s = Some D /\ In D (preorder A) /\ hit D = true.
  Proof.
    intros A x Hx Hh. unfold sub, sub_path. destruct (bfs_ok A (length (preorder A)) [([], A)]) as (r & d & E1 & E2 & E3).
    - unfold weight. cbn. lia.
    - intros p h [E|[]]. injection E as <- <-. reflexivity.
    - exists [], A, x. split; [left; reflexivity|split; assumption].
    - rewrite E1. exists d. split; [exact E2|]. split; [apply (node_at_in r), E2|exact E3].
  Qed.
  Lemma bfs_none : forall fuel q, (forall p h x, In (p, h) q -> In x (preorder h) -> hit x = false) -> bfs K fuel q t s = None.
  Proof.
    induction fuel as [|f IH]; intros [|[p0 h0] q] H; try reflexivity. cbn [bfs]. fold (hit h0). rewrite (H p0 h0 h0 (or_introl eq_refl) (in_preorder_root _ _)).
    apply IH. intros p h x Hq Hx. apply in_app_iff in Hq. destruct Hq as [Hq|Hq]; [apply (H p h x); [right; exact Hq|exact Hx]|].
    apply in_map_iff in Hq. destruct Hq as ([k c] & E & Hk). injection E as <- <-. apply (H p0 h0 x (or_introl eq_refl)).
    apply (in_preorder_child _ h0 c); [|exact Hx]. eapply nth_error_In, indexed_nth, Hk.
  Qed.
  Lemma sub_none : forall (A : hmat K), (forall x, In x (preorder A) -> hit x = false) -> sub K A t s = None.
  Proof.
    intros A H. unfold sub, sub_path. rewrite bfs_none; [reflexivity|]. intros p h x [E|[]] Hx. injection E as <- <-. apply H, Hx.
  Qed.
End Search.

(** ** Clusters of a tree are told apart by operator== *)
Lemma nodes_deeper : forall T, (forall u, In u (ct_nodes T) -> depth_ok u) -> forall u, In u (ct_nodes T) ->
  u = T \/ ci_depth (ct_info T) < ci_depth (ct_info u).
Proof.
  induction T as [c ts IH] using ctree_ind'. intros H u Hu. apply In_nodes_inv in Hu. destruct Hu as [->|(k & Hk & Hu)]; [left; reflexivity|right].
  assert (D : ci_depth (ct_info k) = S (ci_depth c)) by (apply (H (CNode c ts) (In_nodes_root _)); exact Hk).
  destruct (IH k Hk (fun w Hw => H w (In_nodes_child w c ts k Hk Hw)) u Hu) as [->|Q]; cbn [ct_info] in *; lia.
Qed.

Lemma nodes_inside : forall T, (forall u, In u (ct_nodes T) -> node_ok u) -> forall u, In u (ct_nodes T) ->
  c_off T <= c_off u /\ c_off u + c_size u <= c_off T + c_size T.
Proof.
  induction T as [c ts IH] using ctree_ind'. intros H u Hu. apply In_nodes_inv in Hu. destruct Hu as [->|(k & Hk & Hu)]; [lia|].
  pose proof (IH k Hk (fun w Hw => H w (In_nodes_child w c ts k Hk Hw)) u Hu) as Q.
  destruct (H (CNode c ts) (In_nodes_root _)) as [E|E]; cbn [ct_children ct_info] in E; [rewrite E in Hk; destruct Hk|].
  pose proof (tiles_in _ _ _ _ E Hk). unfold c_off, c_size in *. cbn [ct_info] in *. lia.
Qed.

Lemma same_cluster : forall T, (forall u, In u (ct_nodes T) -> node_ok u) -> (forall u, In u (ct_nodes T) -> depth_ok u) -> nonempty T ->
  forall u v, In u (ct_nodes T) -> In v (ct_nodes T) -> ceq u v = true -> u = v.
Proof.
  intros T Hn Hd Hz u v Hu Hv E. unfold ceq in E. rewrite !andb_true_iff, !Nat.eqb_eq in E. destruct E as [[[E1 E2] E3] _].
  revert Hn Hd Hz Hu Hv. induction T as [c ts IH] using ctree_ind'. intros Hn Hd Hz Hu Hv.
  pose proof (nodes_deeper _ Hd u Hu) as Du. pose proof (nodes_deeper _ Hd v Hv) as Dv. unfold c_depth in E3.
  apply In_nodes_inv in Hu, Hv. destruct Hu as [->|(k & Hk & Hu)], Hv as [->|(l & Hl & Hv)].
  - reflexivity.
  - destruct Dv as [->|Q]; [reflexivity|lia].
  - destruct Du as [->|Q]; [reflexivity|lia].
  - assert (Ik := nodes_inside k (fun w Hw => Hn w (In_nodes_child w c ts k Hk Hw)) u Hu).
    assert (Il := nodes_inside l (fun w Hw => Hn w (In_nodes_child w c ts l Hl Hw)) v Hv).
    pose proof (Hz u (In_nodes_child u c ts k Hk Hu)) as Z. fold (c_size u) in Z.
    assert (k = l).
    { destruct (Hn (CNode c ts) (In_nodes_root _)) as [E|E]; cbn [ct_children ct_info] in E; [rewrite E in Hk; destruct Hk|].
      destruct (tiles_pair _ _ _ k l E Hk Hl) as [Q|Q]; [exact Q|]. unfold disj in Q. lia. }
    subst l. apply (IH k Hk); auto.
    + intros w Hw. apply Hn, (In_nodes_child w c ts k Hk Hw).
    + intros w Hw. apply Hd, (In_nodes_child w c ts k Hk Hw).
    + intros w Hw. apply Hz, (In_nodes_child w c ts k Hk Hw).
Qed.

(** ** The blocks of the tree that is built *)
Section Built.
  Variables (B : bbuild) (T S : ctree).

  (** every node is the result of a call of build_block_tree *)
  Lemma build_node : forall fuel t s b, build_block_tree B fuel t s = Some b -> forall x, In x (preorder b) ->
    exists f, build_block_tree B f (b_t (rt_val x)) (b_s (rt_val x)) = Some x.
  Proof.
    induction fuel as [|f IH]; intros t s b H x Hx; [discriminate|].
    assert (H0 := H). destruct (build_root_info B _ t s b H) as [E1 E2]. cbn [build_block_tree] in H.
    destruct (in_preorder_inv _ _ _ Hx) as [->|(c & Hc & Hx')]; [exists (Datatypes.S f); rewrite E1, E2; exact H0|].
    destruct (branch B t s) as [k|l]; [injection H as <-; destruct Hc|].
    destruct (omap _ l) as [bs|] eqn:Eo; [|discriminate]. injection H as <-. cbn [rt_children] in Hc.
    assert (G : forall l bs, omap (fun ts => build_block_tree B f (fst ts) (snd ts)) l = Some bs -> In c bs -> exists ts, In ts l /\ build_block_tree B f (fst ts) (snd ts) = Some c).
    { clear. induction l as [|a l IHl]; intros bs H Hc; cbn [omap] in H; [injection H as <-; destruct Hc|].
      destruct (build_block_tree B f (fst a) (snd a)) as [y|] eqn:Ey; [|discriminate]. destruct (omap _ l) as [ys|]; [|discriminate]. injection H as <-.
      destruct Hc as [<-|Hc]; [exists a; split; [left; reflexivity|exact Ey]|]. destruct (IHl ys eq_refl Hc) as (ts & Q1 & Q2). exists ts. split; [right; exact Q1|exact Q2]. }
    destruct (G l bs Eo Hc) as (ts & _ & Et). exact (IH _ _ _ Et x Hx').
  Qed.

  Lemma build_child : forall f t s b l a, build_block_tree B (Datatypes.S f) t s = Some b -> branch B t s = inr l -> In a l ->
    exists c, In c (rt_children b) /\ build_block_tree B f (fst a) (snd a) = Some c.
  Proof.
    intros f t s b l a H Hb Ha. cbn [build_block_tree] in H. rewrite Hb in H. destruct (omap _ l) as [bs|] eqn:Eo; [|discriminate]. injection H as <-. cbn [rt_children].
    clear Hb. revert bs Eo. induction l as [|y l IH]; intros bs Eo; [destruct Ha|]. cbn [omap] in Eo.
    destruct (build_block_tree B f (fst y) (snd y)) as [z|] eqn:Ez; [|discriminate]. destruct (omap _ l) as [zs|]; [|discriminate]. injection Eo as <-.
    destruct Ha as [->|Ha]; [exists z; split; [left; reflexivity|exact Ez]|]. destruct (IH Ha zs eq_refl) as (c & Q1 & Q2). exists c. split; [right; exact Q1|exact Q2].
  Qed.

  Hypothesis HT : partitioned T (bb_tparts B).
  Hypothesis HS : partitioned S (bb_sparts B).
  Hypothesis NT : nonempty T.
  Hypothesis NS : nonempty S.
  Variables (p : nat) (u v : ctree).
  Hypothesis Hu : nth_error (bb_tparts B) p = Some u.
  Hypothesis Hv : nth_error (bb_sparts B) p = Some v.
  Hypothesis Hc : bb_cons B = true.
  Hypothesis Hp : bb_tpart B = Some p \/ bb_tpart B = None.
  (** no block that contains (u,v) is dropped *)
  Hypothesis Hr : forall k l, In k (ct_nodes T) -> In l (ct_nodes S) -> In u (ct_nodes k) -> In v (ct_nodes l) -> removed B k l = false.

  Lemma nodes_trans : forall a b c, In b (ct_nodes a) -> In c (ct_nodes b) -> In c (ct_nodes a).
  Proof.
    induction a as [i ts IH] using ctree_ind'. intros b c Hb Hcc. apply In_nodes_inv in Hb. destruct Hb as [->|(k & Hk & Hb)]; [exact Hcc|].
    apply (In_nodes_child c i ts k Hk). exact (IH k Hk b c Hb Hcc).
  Qed.
  Lemma child_node : forall R a k, In a (ct_nodes R) -> In k (ct_children a) -> In k (ct_nodes R).
  Proof. intros R a k Ha Hk. apply (nodes_trans R a k Ha). destruct a as [i ts]. apply (In_nodes_child k i ts k Hk). apply In_nodes_root. Qed.

  (** the children of a cluster above the partition: one leads to the part *)
  Lemma towards : forall R parts w a, partitioned R parts -> nonempty R -> nth_error parts p = Some w -> In a (ct_nodes R) -> (c_rank a < 0)%Z -> In w (ct_nodes a) ->
    exists k, In k (ct_children a) /\ In w (ct_nodes k) /\ In k (ct_nodes R) /\ (k = w \/ (c_rank k < 0)%Z).
  Proof.
    intros R parts w a HR NR Hw Ha Hn Hwa. pose proof (pt_rank _ _ HR p w Hw) as Rw.
    assert (exists k, In k (ct_children a) /\ In w (ct_nodes k)) as (k & Hk & Hwk).
    { destruct a as [i ts]. apply In_nodes_inv in Hwa. destruct Hwa as [->|(k & Hk & Hwk)]; [unfold c_rank in Hn; lia|]. exists k. split; assumption. }
    exists k. split; [exact Hk|]. split; [exact Hwk|]. pose proof (child_node R a k Ha Hk) as Nk. split; [exact Nk|].
    destruct (Z.lt_ge_cases (c_rank k) 0) as [Q|Q]; [right; exact Q|left].
    pose proof (pt_first _ _ HR a k Ha Hn Hk Q) as Fk.
    assert (Ik := nodes_inside k (fun x Hx => pt_node _ _ HR x (nodes_trans R k x Nk Hx)) w Hwk).
    pose proof (NR w (nodes_trans R k w Nk Hwk)) as Z. fold (c_size w) in Z.
    assert (Z.to_nat (c_rank k) = p). { apply (pt_disjoint _ _ HR _ _ k w (c_off w) Fk Hw); apply in_iff; lia. }
    unfold c_rank in *. congruence.
  Qed.

  Lemma rank_u : c_rank u = Z.of_nat p. Proof. exact (pt_rank _ _ HT p u Hu). Qed.
  Lemma rank_v : c_rank v = Z.of_nat p. Proof. exact (pt_rank _ _ HS p v Hv). Qed.

  Lemma not_leaf : forall R parts a, partitioned R parts -> In a (ct_nodes R) -> (c_rank a < 0)%Z -> is_leaf a = false.
  Proof. intros R parts a HR Ha Hn. destruct (pt_above _ _ HR a Ha Hn) as [Q _]. unfold is_leaf. destruct (ct_children a); congruence. Qed.

  Lemma tok : forall k, k = u \/ (c_rank k < 0)%Z -> t_ok B k = true.
  Proof.
    intros k [->|Q]; unfold t_ok, in_part; [|apply Z.ltb_lt in Q; rewrite Q; apply orb_true_r].
    destruct Hp as [->| ->]; [|reflexivity]. rewrite rank_u, Z.eqb_refl. reflexivity.
  Qed.

  Lemma diag_exists : forall fuel t s b, In t (ct_nodes T) -> In s (ct_nodes S) -> In u (ct_nodes t) -> In v (ct_nodes s) ->
    (t = u \/ (c_rank t < 0)%Z) -> (s = v \/ (c_rank s < 0)%Z) -> build_block_tree B fuel t s = Some b ->
    exists x, In x (preorder b) /\ b_t (rt_val x) = u /\ b_s (rt_val x) = v.
  Proof.
    induction fuel as [|f IH]; intros t s b Nt Ns Ut Vs Ht Hs H; [discriminate|].
    assert (Done : t = u -> s = v -> exists x, In x (preorder b) /\ b_t (rt_val x) = u /\ b_s (rt_val x) = v).
    { intros -> ->. destruct (build_root_info B _ _ _ b H). exists b. split; [apply in_preorder_root|split; assumption]. }
    assert (Step : forall l k k', branch B t s = inr l -> In (k, k') l -> In k (ct_nodes T) -> In k' (ct_nodes S) -> In u (ct_nodes k) -> In v (ct_nodes k') ->
      (k = u \/ (c_rank k < 0)%Z) -> (k' = v \/ (c_rank k' < 0)%Z) -> exists x, In x (preorder b) /\ b_t (rt_val x) = u /\ b_s (rt_val x) = v).
    { intros l k k' El Hl Q1 Q2 Q3 Q4 Q5 Q6. destruct (build_child f t s b l (k, k') H El Hl) as (c & Hcc & Hcb).
      destruct (IH k k' c Q1 Q2 Q3 Q4 Q5 Q6 Hcb) as (x & Hx & E). exists x. split; [exact (in_preorder_child _ b c x Hcc Hx)|exact E]. }
    assert (LR : (c_rank t < 0 \/ c_rank s < 0)%Z -> low_rank_task B t s = false).
    { intros Q. unfold low_rank_task. rewrite Hc. cbn [negb orb]. destruct Q as [Q|Q]; [replace (0 <=? c_rank t)%Z with false by (symmetry; apply Z.leb_gt; exact Q)|replace (0 <=? c_rank s)%Z with false by (symmetry; apply Z.leb_gt; exact Q)]; rewrite !andb_false_r; reflexivity. }
    assert (LT : (c_rank t < 0)%Z -> is_leaf t = false) by (apply (not_leaf T _ t HT Nt)).
    assert (LS : (c_rank s < 0)%Z -> is_leaf s = false) by (apply (not_leaf S _ s HS Ns)).
    pose proof rank_u as Ru. pose proof rank_v as Rv.
    destruct Hs as [Es|Es], Ht as [Et|Et].
    - apply Done; assumption.
    - (* only the rows *)
      subst s. destruct (is_leaf v) eqn:Lv.
      + assert (E : branch B t v = inr (split_t B t v)). { unfold branch. rewrite (LR (or_introl Et)), Lv, (LT Et). reflexivity. }
        destruct (towards T _ u t HT NT Hu Nt Et Ut) as (k & Hk & Uk & Nk & Q).
        apply (Step _ k v E); auto. unfold split_t. apply in_map_iff. exists k. split; [reflexivity|]. apply filter_In. split; [exact Hk|].
        rewrite (tok k Q), (Hr k v Nk Ns Uk Vs). reflexivity.
      + assert (E : branch B t v = inr (split_t_parts B t v)).
        { unfold branch. rewrite (LR (or_introl Et)), Lv, (LT Et), Hc. cbn [andb]. replace (c_rank t <? 0)%Z with true by (symmetry; apply Z.ltb_lt; exact Et).
          replace (0 <=? c_rank v)%Z with true by (symmetry; apply Z.leb_le; lia). reflexivity. }
        assert (Nu : In u (ct_nodes T)) by (apply (nodes_trans T t u Nt Ut)).
        apply (Step _ u v E); auto using In_nodes_root. unfold split_t_parts. apply in_map_iff. exists u. split; [reflexivity|]. apply filter_In. split; [eapply nth_error_In, Hu|].
        rewrite (tok u (or_introl eq_refl)), (Hr u v Nu Ns (In_nodes_root u) Vs). cbn [negb andb].
        pose proof (nodes_inside t (fun x Hx => pt_node _ _ HT x (nodes_trans T t x Nt Hx)) u Ut). apply contains_iff. lia.
    - (* only the columns *)
      subst t. destruct (is_leaf u) eqn:Lu.
      + assert (E : branch B u s = inr (split_s B u s)). { unfold branch. rewrite (LR (or_intror Es)), Lu, (LS Es). reflexivity. }
        destruct (towards S _ v s HS NS Hv Ns Es Vs) as (k & Hk & Vk & Nk & Q).
        apply (Step _ u k E); auto. unfold split_s. apply in_map_iff. exists k. split; [reflexivity|]. apply filter_In. split; [exact Hk|].
        rewrite (Hr u k Nt Nk Ut Vk). reflexivity.
      + assert (E : branch B u s = inr (split_s_parts B u s)).
        { unfold branch. rewrite (LR (or_intror Es)), Lu, (LS Es), Hc. cbn [andb]. replace (c_rank u <? 0)%Z with false by (symmetry; apply Z.ltb_ge; lia).
          replace (c_rank s <? 0)%Z with true by (symmetry; apply Z.ltb_lt; exact Es). replace (0 <=? c_rank u)%Z with true by (symmetry; apply Z.leb_le; lia). reflexivity. }
        assert (Nv : In v (ct_nodes S)) by (apply (nodes_trans S s v Ns Vs)).
        apply (Step _ u v E); auto using In_nodes_root. unfold split_s_parts. apply in_map_iff. exists v. split; [reflexivity|]. apply filter_In. split; [eapply nth_error_In, Hv|].
        rewrite (Hr u v Nt Nv Ut (In_nodes_root v)). cbn [negb andb].
        pose proof (nodes_inside s (fun x Hx => pt_node _ _ HS x (nodes_trans S s x Ns Hx)) v Vs). apply contains_iff. lia.
    - (* both *)
      assert (E : branch B t s = inr (split_ts B t s)).
      { unfold branch. rewrite (LR (or_introl Et)), (LT Et), (LS Es), Hc. cbn [andb]. replace (0 <=? c_rank t)%Z with false by (symmetry; apply Z.leb_gt; exact Et).
        replace (0 <=? c_rank s)%Z with false by (symmetry; apply Z.leb_gt; exact Es). rewrite !andb_false_r. reflexivity. }
      destruct (towards T _ u t HT NT Hu Nt Et Ut) as (k & Hk & Uk & Nk & Q).
      destruct (towards S _ v s HS NS Hv Ns Es Vs) as (k' & Hk' & Vk' & Nk' & Q').
      apply (Step _ k k' E); auto. unfold split_ts. apply in_concat. eexists. split; [apply in_map_iff; exists k; split; [reflexivity|exact Hk]|].
      apply in_map_iff. exists k'. split; [reflexivity|]. apply filter_In. split; [exact Hk'|]. rewrite (tok k Q), (Hr k k' Nk Nk' Uk Vk'). reflexivity.
  Qed.

  (** collecting the blocks of part p keeps it *)
  Lemma reset_keeps : forall (x : btree), c_rank (b_t (rt_val x)) = Z.of_nat p -> forall fuel stack acc r, reset_run fuel p stack acc = Some r ->
    (exists c, In c acc /\ In x (preorder c)) \/ (exists b, In b stack /\ In x (preorder b) /\ (c_rank (b_t (rt_val b)) =? Z.of_nat p)%Z = false) ->
    exists c, In c r /\ In x (preorder c).
  Proof.
    intros x Hx. induction fuel as [|f IH]; intros stack acc r H Hin.
    - destruct stack as [|b st]; [|discriminate]. cbn in H. injection H as <-. destruct Hin as [Q|(b & [] & _)]. exact Q.
    - destruct stack as [|b st]; [cbn in H; injection H as <-; destruct Hin as [Q|(b & [] & _)]; exact Q|].
      cbn [reset_run] in H. apply (IH _ _ _ H). destruct Hin as [(c & Q1 & Q2)|(b' & [->|Hb] & Hxb & Nb)].
      + left. exists c. split; [apply in_app_iff; left; exact Q1|exact Q2].
      + destruct (in_preorder_inv _ _ _ Hxb) as [->|(c & Hcc & Hxc)]; [rewrite Hx, Z.eqb_refl in Nb; discriminate|].
        destruct (c_rank (b_t (rt_val c)) =? Z.of_nat p)%Z eqn:Ec.
        * left. exists c. split; [|exact Hxc]. apply in_app_iff. right. apply filter_In. split; assumption.
        * right. exists c. split; [|split; assumption]. apply in_app_iff. left. apply -> in_rev. apply filter_In. rewrite Ec. split; [exact Hcc|reflexivity].
      + right. exists b'. split; [apply in_app_iff; right; exact Hb|split; assumption].
  Qed.
  Lemma reset_sub : forall fuel stack acc r, reset_run fuel p stack acc = Some r -> forall c, In c r ->
    In c acc \/ exists b, In b stack /\ In c (preorder b).
  Proof.
    induction fuel as [|f IH]; intros stack acc r H c Hcr.
    - destruct stack as [|b st]; [|discriminate]. cbn in H. injection H as <-. left. exact Hcr.
    - destruct stack as [|b st]; [cbn in H; injection H as <-; left; exact Hcr|]. cbn [reset_run] in H.
      destruct (IH _ _ _ H c Hcr) as [Q|(b' & Q & Qc)].
      + apply in_app_iff in Q. destruct Q as [Q|Q]; [left; exact Q|]. apply filter_In in Q. right. exists b. split; [left; reflexivity|]. exact (in_preorder_child _ b c c (proj1 Q) (in_preorder_root _ c)).
      + right. apply in_app_iff in Q. destruct Q as [Q|Q].
        * apply in_rev in Q. apply filter_In in Q. exists b. split; [left; reflexivity|]. exact (in_preorder_child _ b b' c (proj1 Q) Qc).
        * exists b'. split; [right; exact Q|exact Qc].
  Qed.

  Lemma preorder_trans : forall A (a b c : rtree A), In b (preorder a) -> In c (preorder b) -> In c (preorder a).
  Proof.
    intros A. induction a as [i cs IH] using rtree_ind'. intros b c Hb Hcc. destruct (in_preorder_inv _ _ _ Hb) as [->|(k & Hk & Hbk)]; [exact Hcc|].
    apply (in_preorder_child _ _ k); [exact Hk|]. exact (IH k Hk b c Hbk Hcc).
  Qed.

  Hypothesis Hut : In u (ct_nodes T).
  Hypothesis Hvs : In v (ct_nodes S).
  (** the rows, or both the rows and the columns, are distributed over several parts, or nothing is *)
  Hypothesis Hroot : T = u \/ (c_rank T < 0)%Z.
  Hypothesis Hsroot : S = v \/ (c_rank S < 0)%Z.
  Hypothesis Hboth : T = u \/ (c_rank S < 0)%Z.
  Hypothesis HtD : forall w, In w (ct_nodes T) -> depth_ok w.
  Hypothesis HsD : forall w, In w (ct_nodes S) -> depth_ok w.

  (** In the tree returned by the builder there is a node with the clusters (u,v) and every node that get_sub_hmatrix takes for
      it is what the builder returns when it is called on these clusters. *)
  Lemma diag_block : part_valid B T -> forall fuel root, build_root B fuel T S = Some root ->
    (exists x, In x (preorder root) /\ b_t (rt_val x) = u /\ b_s (rt_val x) = v) /\
    (forall x, In x (preorder root) -> ceq u (b_t (rt_val x)) = true -> ceq v (b_s (rt_val x)) = true ->
       b_t (rt_val x) = u /\ b_s (rt_val x) = v /\ exists f, build_root B f u v = Some x).
  Proof.
    intros HV fuel root HB. pose proof (build_root_shape B T S HT HS HV fuel root HB) as HR.
    assert (Sub : forall f0 root0, build_block_tree B f0 T S = Some root0 -> forall x, In x (preorder root0) -> ceq u (b_t (rt_val x)) = true -> ceq v (b_s (rt_val x)) = true ->
      b_t (rt_val x) = u /\ b_s (rt_val x) = v /\ exists f, build_root B f u v = Some x).
    { intros f0 root0 H0 x Hx Q1 Q2. destruct (build_facts B T S HT HS f0 T S root0 (tN_root T) (sN_root S) (root_t_ok B T HT HV) H0) as (_ & _ & F).
      destruct (F x Hx) as (N1 & N2 & _ & Sy & _).
      assert (E1 : u = b_t (rt_val x)) by (apply (same_cluster T (pt_node _ _ HT) HtD NT); assumption).
      assert (E2 : v = b_s (rt_val x)) by (apply (same_cluster S (pt_node _ _ HS) HsD NS); assumption).
      split; [auto|]. split; [auto|]. destruct (build_node f0 T S root0 H0 x Hx) as (f & Hf). exists f. rewrite E1, E2.
      unfold build_root. rewrite Hf. destruct x as [i cs]. cbn [rt_val] in *. unfold reset_root. cbn [rt_val].
      assert (Ip : in_part B (b_t i) = true). { rewrite <- E1. unfold in_part. destruct Hp as [->| ->]; [rewrite rank_u; apply Z.eqb_refl|reflexivity]. }
      rewrite Ip. f_equal. f_equal. destruct i as [it is itk isy]. cbn [b_t b_s b_task b_sym] in *. rewrite <- Sy. reflexivity. }
    destruct HR as [f0 Hi H0|f0 root0 p' w cs f1 Ep Ew H0 Hi Hcs ->].
    - split; [|exact (Sub f0 root H0)]. apply (diag_exists f0 T S root (root_in T) (root_in S) Hut Hvs Hroot Hsroot H0).
    - assert (p' = p) by (destruct Hp; congruence). subst p'. assert (w = u) by congruence. subst w.
      assert (NTu : T <> u). { intros E. unfold in_part in Hi. rewrite Ep, E, rank_u, Z.eqb_refl in Hi. discriminate. }
      destruct (build_root_info B _ _ _ root0 H0) as [R1 R2].
      assert (Nr : (c_rank (b_t (rt_val root0)) =? Z.of_nat p)%Z = false). { rewrite R1. unfold in_part in Hi. rewrite Ep in Hi. rewrite Z.eqb_sym. exact Hi. }
      split.
      + destruct (diag_exists f0 T S root0 (root_in T) (root_in S) Hut Hvs Hroot Hsroot H0) as (x & Hx & E1 & E2).
        destruct (reset_keeps x) with (fuel := f1) (stack := [root0]) (acc := @nil btree) (r := cs) as (c & Hcc & Hxc).
        * rewrite E1. exact rank_u.
        * exact Hcs.
        * right. exists root0. split; [left; reflexivity|]. split; [exact Hx|exact Nr].
        * exists x. split; [exact (in_preorder_child _ (RNode _ cs) c x Hcc Hxc)|]. split; assumption.
      + intros x Hx Q1 Q2. destruct (in_preorder_inv _ _ _ Hx) as [->|(c & Hcc & Hxc)].
        * exfalso. cbn [rt_val b_s] in Q2. pose proof (same_cluster S (pt_node _ _ HS) HsD NS v S Hvs (root_in S) Q2) as E.
          destruct Hboth as [Q|Q]; [contradiction|]. rewrite <- E, rank_v in Q. lia.
        * cbn [rt_children] in Hcc. destruct (reset_sub f1 [root0] [] cs Hcs c Hcc) as [[]|(b & [<-|[]] & Hb)].
          apply (Sub f0 root0 H0); auto. exact (preorder_trans _ _ _ _ Hb Hxc).
  Qed.
End Built.

(** ** Sub-trees *)
Lemma partitioned_sub : forall T parts t, partitioned T parts -> In t (ct_nodes T) -> partitioned t parts.
Proof.
  intros T parts t [H1 H2 H3 H4 H5 H6] Ht. constructor.
  - intros w Hw. apply H1, (nodes_trans T t w Ht Hw).
  - intros w Hw. apply H2, (nodes_trans T t w Ht Hw).
  - exact H3.
  - exact H4.
  - intros w Hw. apply H5, (nodes_trans T t w Ht Hw).
  - intros w k Hw. apply H6, (nodes_trans T t w Ht Hw).
Qed.
Lemma nonempty_sub : forall T t, nonempty T -> In t (ct_nodes T) -> nonempty t.
Proof. intros T t H Ht w Hw. apply H, (nodes_trans T t w Ht Hw). Qed.

Lemma preorder_hfill : forall K sy B gen compress b, preorder (hfill K sy B gen compress b) = map (hfill K sy B gen compress) (preorder b).
Proof.
  intros K sy B gen compress. induction b as [i cs IH] using rtree_ind'. rewrite (preorder_eq _ (RNode i cs)), preorder_eq. cbn [map]. f_equal.
  cbn [hfill rt_children]. rewrite concat_map, !map_map. f_equal. apply map_ext_in. exact IH.
Qed.
