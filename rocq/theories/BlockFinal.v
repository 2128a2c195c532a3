(** * Block trees: the properties of the built tree. *)

From Coq Require Import List Arith ZArith Bool Lia Permutation.
From Verif Require Import ClusterModel ClusterSpec ClusterProofs ClusterPartition ClusterMore IOModel IOSpec IOProofs
  BlockModel BlockSpec BlockProofs.
Import ListNotations.

Lemma root_in : forall t, In t (ct_nodes t).
Proof. intros [c ts]. apply In_nodes_root. Qed.

Section Final.
  Variable B : bbuild.
  Variables T S : ctree.
  Hypothesis HT : partitioned T (bb_tparts B).
  Hypothesis HS : partitioned S (bb_sparts B).
  Hypothesis NT : nonempty T.
  Hypothesis NS : nonempty S.

  Notation tN t := (In t (ct_nodes T)).
  Notation sN s := (In s (ct_nodes S)).

  (** Every pair of clusters that is not removed contains an entry that must be kept. *)
  Definition witnessed : Prop := forall t s, tN t -> sN s -> removed B t s = false ->
    exists i j, in_iv i (interval t) = true /\ in_iv j (interval s) = true /\ NR B T S i j.

  (** Facts on all the nodes of a built tree. *)
  Definition full_facts (u : btree) : Prop :=
    node_facts B T S u /\ removed B (b_t (rt_val u)) (b_s (rt_val u)) = false /\
    forall i j, cnt i j u <= X B i j (b_t (rt_val u), b_s (rt_val u)) /\
                (NR B T S i j -> cnt i j u = X B i j (b_t (rt_val u), b_s (rt_val u))).

  Lemma build_sub : forall fuel t s b c, build_block_tree B fuel t s = Some b -> In c (rt_children b) ->
    exists l, branch B t s = inr l /\ In (b_t (rt_val c), b_s (rt_val c)) l /\
      exists f, build_block_tree B f (b_t (rt_val c)) (b_s (rt_val c)) = Some c.
  Proof.
    intros [|f] t s b c H Hc; [discriminate|]. cbn [build_block_tree] in H.
    destruct (branch B t s) as [k|l]; [injection H as <-; contradiction|].
    destruct (omap _ l) as [bs|] eqn:E; [|discriminate]. injection H as <-. cbn [rt_children] in Hc.
    exists l. split; [reflexivity|]. apply omap_Forall2 in E.
    assert (R : forall f t s b, build_block_tree B f t s = Some b -> b_t (rt_val b) = t /\ b_s (rt_val b) = s).
    { clear. intros [|f] t s b H; [discriminate|]. cbn [build_block_tree] in H. destruct (branch B t s).
      - injection H as <-. auto.
      - destruct (omap _ l); [|discriminate]. injection H as <-. auto. }
    induction E as [|[t' s'] b l bs Hb E IH]; [contradiction|]. cbn [fst snd] in Hb.
    destruct Hc as [<-|Hc].
    - destruct (R _ _ _ _ Hb) as [-> ->]. split; [left; reflexivity|]. exists f. exact Hb.
    - destruct (IH Hc) as [A1 A2]. split; [right; exact A1|exact A2].
  Qed.

  Lemma build_root_info : forall f t s b, build_block_tree B f t s = Some b -> b_t (rt_val b) = t /\ b_s (rt_val b) = s.
  Proof.
    intros [|f] t s b H; [discriminate|]. cbn [build_block_tree] in H. destruct (branch B t s).
    - injection H as <-. auto.
    - destruct (omap _ l); [|discriminate]. injection H as <-. auto.
  Qed.

  (** Induction over the nodes of a built tree. *)
  Lemma build_nodes : forall (Q : btree -> Prop),
    (forall fuel t s b, tN t -> sN s -> t_ok B t = true -> removed B t s = false -> build_block_tree B fuel t s = Some b -> Q b) ->
    forall fuel t s b, tN t -> sN s -> t_ok B t = true -> removed B t s = false -> build_block_tree B fuel t s = Some b ->
    forall u, In u (preorder b) -> Q u.
  Proof.
    intros Q HQ. induction fuel as [|f IH]; intros t s b Ht Hs Hok Hr H u Hu; [discriminate|].
    rewrite preorder_eq in Hu. destruct Hu as [<-|Hu]; [eapply HQ; eauto|].
    apply in_concat in Hu. destruct Hu as (x & Hx & Hu). apply in_map_iff in Hx. destruct Hx as (c & <- & Hc).
    cbn [build_block_tree] in H. destruct (branch B t s) as [k|l] eqn:Eb; [injection H as <-; contradiction|].
    destruct (omap _ l) as [bs|] eqn:E; [|discriminate]. injection H as <-. cbn [rt_children] in Hc.
    pose proof (branch_kids B T S HT HS t s l Ht Hs Hok Eb) as K. apply omap_Forall2 in E.
    pose proof (ko_node _ _ _ _ _ _ K) as K1. pose proof (ko_ok _ _ _ _ _ _ K) as K2. pose proof (ko_rem _ _ _ _ _ _ K) as K3.
    clear - E Hc K1 K2 K3 IH Hu. induction E as [|[t' s'] b l bs Hb E IHE]; [contradiction|].
    destruct Hc as [<-|Hc].
    - destruct (K1 _ (or_introl eq_refl)) as (A1 & A2 & _). specialize (K2 _ (or_introl eq_refl)). specialize (K3 _ (or_introl eq_refl)).
      eapply (IH t' s' b); eauto.
    - apply IHE; auto; intros; [apply K1|apply K2|apply K3]; right; assumption.
  Qed.

  Lemma build_full : forall fuel t s b, tN t -> sN s -> t_ok B t = true -> removed B t s = false -> build_block_tree B fuel t s = Some b ->
    forall u, In u (preorder b) -> full_facts u.
  Proof.
    apply build_nodes. intros fuel t s b Ht Hs Hok Hr H.
    destruct (build_facts B T S HT HS fuel t s b Ht Hs Hok H) as (E1 & E2 & F).
    split; [|split].
    - apply F. rewrite preorder_eq. left; reflexivity.
    - rewrite E1, E2. exact Hr.
    - rewrite E1, E2. apply (build_count B T S HT HS fuel t s b Ht Hs Hok H).
  Qed.

  (** Inside a part, the leaves are exactly the blocks with a task. *)
  Lemma leaves_tasks : witnessed -> forall b, (forall u, In u (preorder b) -> full_facts u) ->
    (forall u, In u (preorder b) -> bb_tpart B = None \/ (in_part B (b_t (rt_val u)) = true /\ (0 <= c_rank (b_t (rt_val u)))%Z)) ->
    rleaves b = tasks b /\ forall i, In i (rleaves b) -> b_task i <> None.
  Proof.
    intros W b. induction b as [i cs IH] using rtree_ind'. intros HF HP.
    assert (Hsub : forall c, In c cs -> forall u, In u (preorder c) -> In u (preorder (RNode i cs))).
    { intros c Hc u Hu. rewrite preorder_eq. right. apply in_concat. exists (preorder c). split; [apply in_map, Hc|exact Hu]. }
    assert (IH' : forall c, In c cs -> rleaves c = tasks c /\ forall i, In i (rleaves c) -> b_task i <> None).
    { intros c Hc. apply IH; [exact Hc| |]; intros u Hu; [apply HF|apply HP]; eapply Hsub; eauto. }
    assert (Hself : In (RNode i cs) (preorder (RNode i cs))) by (rewrite preorder_eq; left; reflexivity).
    destruct (HF _ Hself) as ((Ft & Fs & Fok & Fsym & Ftask) & Frem & Fcnt). cbn [rt_val rt_children] in *.
    cbn [tasks]. destruct (b_task i) as [k|] eqn:Et.
    - destruct Ftask as (-> & _). cbn. split; [reflexivity|]. intros x [<-|[]]. congruence.
    - destruct cs as [|c cs].
      + exfalso. destruct (W _ _ Ft Fs Frem) as (x & y & Hx & Hy & Hnr).
        destruct (Fcnt x y) as [_ Q]. specialize (Q Hnr). unfold cnt in Q. cbn [tasks] in Q. rewrite Et in Q.
        unfold X in Q. cbn [fst snd] in Q. rewrite Hx, Hy in Q.
        assert (Hrow : rowp B x = true).
        { destruct (HP _ Hself) as [E|[E1 E2]]; [unfold rowp; rewrite E; reflexivity|].
          cbn [rt_val] in E1, E2. eapply in_part_row; eauto. }
        rewrite Hrow in Q. cbn in Q. discriminate.
      + cbn [rleaves]. split.
        * f_equal. apply map_ext_in. intros x Hx. apply IH', Hx.
        * intros x Hx. apply in_concat in Hx. destruct Hx as (l & Hl & Hx). apply in_map_iff in Hl. destruct Hl as (y & <- & Hy).
          apply (IH' y Hy), Hx.
  Qed.

  (** Ranks below a block of a part. *)
  Lemma kids_rank : forall t s l k, tN t -> sN s -> t_ok B t = true -> (0 <= c_rank t)%Z -> branch B t s = inr l -> In k l ->
    c_rank (fst k) = c_rank t.
  Proof.
    intros t s l k Ht Hs Hok Hr H Hk. unfold branch in H.
    assert (Hch : forall c, In c (ct_children t) -> c_rank c = c_rank t) by apply (proj2 (pt_below _ _ HT t Ht Hr)).
    assert (A1 : In k (split_t B t s) -> c_rank (fst k) = c_rank t).
    { intros Q. apply in_map_iff in Q. destruct Q as (c & <- & Q). apply filter_In in Q. apply Hch, Q. }
    assert (A2 : In k (split_ts B t s) -> c_rank (fst k) = c_rank t).
    { intros Q. apply in_concat in Q. destruct Q as (x & Hx & Q). apply in_map_iff in Hx. destruct Hx as (c & <- & Hc).
      apply in_map_iff in Q. destruct Q as (d & <- & Q). apply Hch, Hc. }
    assert (A3 : forall f (l : list ctree), In k (map (fun k => (t, k)) (filter f l)) -> c_rank (fst k) = c_rank t).
    { intros f l' Q. apply in_map_iff in Q. destruct Q as (c & <- & Q). reflexivity. }
    destruct (low_rank_task B t s); [discriminate|].
    destruct (is_leaf s) eqn:Ls, (is_leaf t) eqn:Lt; cbn [andb] in H; try discriminate.
    - injection H as <-. auto.
    - injection H as <-. eapply A3, Hk.
    - assert (Er : (c_rank t <? 0)%Z = false) by (apply Z.ltb_ge, Hr). rewrite Er in H. cbn [andb] in H.
      destruct (bb_cons B).
      + destruct ((c_rank s <? 0)%Z && (0 <=? c_rank t)%Z); injection H as <-; [eapply A3, Hk|auto].
      + destruct (c_size t <? c_size s); [injection H as <-; eapply A3, Hk|].
        destruct (c_size s <? c_size t); injection H as <-; auto.
  Qed.

  Lemma build_rank_nodes : forall fuel t s b, tN t -> sN s -> t_ok B t = true -> (0 <= c_rank t)%Z ->
    build_block_tree B fuel t s = Some b -> forall u, In u (preorder b) ->
    c_rank (b_t (rt_val u)) = c_rank t.
  Proof.
    intros fuel t s b Ht Hs Hok Hr H. revert Hr.
    refine (build_ind B T S HT HS (fun t s b => (0 <= c_rank t)%Z -> forall u, In u (preorder b) -> c_rank (b_t (rt_val u)) = c_rank t) _ _ fuel t s b Ht Hs Hok H).
    - intros t0 s0 k _ _ _ _ _ u [<-|[]]. reflexivity.
    - intros t0 s0 l bs Ht0 Hs0 Hok0 Hb K F Hr0 u Hu. rewrite preorder_eq in Hu. destruct Hu as [<-|Hu]; [reflexivity|].
      cbn [rt_children] in Hu. apply in_concat in Hu. destruct Hu as (x & Hx & Hu). apply in_map_iff in Hx. destruct Hx as (c & <- & Hc).
      assert (KR : forall k, In k l -> c_rank (fst k) = c_rank t0) by (intros k Hk; eapply kids_rank; eauto).
      clear - F KR Hc Hu Hr0. induction F as [|k b l bs Hk F IH]; [contradiction|].
      destruct Hc as [<-|Hc].
      + rewrite <- (KR k (or_introl eq_refl)). apply Hk; [rewrite (KR k (or_introl eq_refl)); exact Hr0|exact Hu].
      + apply IH; auto. intros k' Hk'. apply KR. right; exact Hk'.
  Qed.

  (** *** The reset keeps track of what was built *)
  Lemma reset_inv : forall p (Pst Pcol : btree -> Prop),
    (forall b c, Pst b -> In c (rt_children b) -> (c_rank (b_t (rt_val c)) =? Z.of_nat p)%Z = false -> Pst c) ->
    (forall b c, Pst b -> In c (rt_children b) -> (c_rank (b_t (rt_val c)) =? Z.of_nat p)%Z = true -> Pcol c) ->
    forall fuel stack acc r, (forall b, In b stack -> Pst b) -> (forall b, In b acc -> Pcol b) ->
    reset_run fuel p stack acc = Some r -> forall b, In b r -> Pcol b.
  Proof.
    intros p Pst Pcol H1 H2. induction fuel as [|f IH]; intros stack acc r Hst Hacc H b Hb.
    - destruct stack; [|discriminate]. cbn in H. injection H as <-. auto.
    - destruct stack as [|a st]; [cbn in H; injection H as <-; auto|]. cbn [reset_run] in H.
      eapply IH; [| |exact H|exact Hb].
      + intros c Hc. apply in_app_or in Hc. destruct Hc as [Hc|Hc].
        * apply in_rev in Hc. apply filter_In in Hc. destruct Hc as [Hc Q]. apply negb_true_iff in Q.
          eapply H1; [apply Hst; left; reflexivity|exact Hc|exact Q].
        * apply Hst. right; exact Hc.
      + intros c Hc. apply in_app_or in Hc. destruct Hc as [Hc|Hc]; [auto|].
        apply filter_In in Hc. destruct Hc as [Hc Q]. eapply H2; [apply Hst; left; reflexivity|exact Hc|exact Q].
  Qed.

  Lemma part_rank : forall p u, bb_tpart B = Some p -> nth_error (bb_tparts B) p = Some u -> c_rank u = Z.of_nat p.
  Proof. intros p u _ H. apply (pt_rank _ _ HT _ _ H). Qed.

  (** The root that is returned. *)
  Inductive final_root (root : btree) : Prop :=
  | FR_same : forall fuel, in_part B T = true -> build_block_tree B fuel T S = Some root -> final_root root
  | FR_reset : forall fuel root0 p u cs f, bb_tpart B = Some p -> nth_error (bb_tparts B) p = Some u ->
      build_block_tree B fuel T S = Some root0 -> in_part B T = false -> reset_run f p [root0] [] = Some cs ->
      root = RNode (mkBinfo u S None (has_sym B u S)) cs -> final_root root.

  Lemma tN_root : tN T. Proof. exact (root_in T). Qed.
  Lemma sN_root : sN S. Proof. exact (root_in S). Qed.

  Lemma root_t_ok : part_valid B T -> t_ok B T = true.
  Proof.
    intros H. unfold part_valid in H. unfold t_ok, in_part. destruct (bb_tpart B) as [p|] eqn:Ep; [|reflexivity].
    destruct (nth_error (bb_tparts B) p) as [u|] eqn:E; [|contradiction]. destruct H as [->|[H _]].
    - rewrite (part_rank p T Ep E), Z.eqb_refl. reflexivity.
    - apply orb_true_iff. right. apply Z.ltb_lt, H.
  Qed.

  Lemma build_root_shape : part_valid B T -> forall fuel root, build_root B fuel T S = Some root -> final_root root.
  Proof.
    intros HV fuel root H. unfold build_root in H.
    destruct (build_block_tree B fuel T S) as [[b cs]|] eqn:E; [|discriminate].
    pose proof (build_facts B T S HT HS fuel T S _ tN_root sN_root (root_t_ok HV) E) as (E1 & E2 & F).
    cbn [rt_val] in E1, E2. unfold reset_root in H. cbn [rt_val] in H. rewrite E1 in H.
    assert (Hself : node_facts B T S (RNode b cs)) by (apply F; rewrite preorder_eq; left; reflexivity).
    assert (Same : in_part B T = true -> Some (RNode (mkBinfo (b_t b) (b_s b) (b_task b) (has_sym B (b_t b) (b_s b))) cs) = Some root -> final_root root).
    { intros Hp Q. injection Q as <-. apply FR_same with fuel; [exact Hp|]. rewrite E. f_equal. f_equal.
      destruct Hself as (_ & _ & _ & Q & _). cbn [rt_val] in Q. rewrite <- Q. destruct b; reflexivity. }
    destruct (in_part B T) eqn:Ip; [auto|].
    destruct (bb_tpart B) as [p|] eqn:Ep; [|unfold in_part in Ip; rewrite Ep in Ip; discriminate].
    destruct (reset_run fuel p [RNode b cs] []) as [cs'|] eqn:Er; [|discriminate].
    destruct (nth_error (bb_tparts B) p) as [u|] eqn:Eu; [|discriminate]. injection H as <-. cbn [b_t b_s b_task].
    rewrite E2. eapply FR_reset; eauto. f_equal. f_equal.
    destruct Hself as (_ & _ & _ & _ & Q). cbn [rt_val rt_children] in Q.
    destruct (b_task b); [|reflexivity]. destruct Q as (_ & _ & Q & _). rewrite E1 in Q. congruence.
  Qed.

  Definition Col p (b : btree) : Prop :=
    (exists f, build_block_tree B f (b_t (rt_val b)) (b_s (rt_val b)) = Some b) /\
    tN (b_t (rt_val b)) /\ sN (b_s (rt_val b)) /\ t_ok B (b_t (rt_val b)) = true /\
    removed B (b_t (rt_val b)) (b_s (rt_val b)) = false /\ c_rank (b_t (rt_val b)) = Z.of_nat p.

  Definition Sta (b : btree) : Prop :=
    (exists f, build_block_tree B f (b_t (rt_val b)) (b_s (rt_val b)) = Some b) /\
    tN (b_t (rt_val b)) /\ sN (b_s (rt_val b)) /\ t_ok B (b_t (rt_val b)) = true /\
    removed B (b_t (rt_val b)) (b_s (rt_val b)) = false /\ (c_rank (b_t (rt_val b)) < 0)%Z.

  Lemma Sta_child : forall p b c, bb_tpart B = Some p -> Sta b -> In c (rt_children b) ->
    if (c_rank (b_t (rt_val c)) =? Z.of_nat p)%Z then Col p c else Sta c.
  Proof.
    intros p b c Ep ((f & Hf) & Ht & Hs & Hok & Hr & Hneg) Hc.
    destruct (build_sub _ _ _ _ _ Hf Hc) as (l & Hb & Hin & f' & Hf').
    pose proof (branch_kids B T S HT HS _ _ l Ht Hs Hok Hb) as K.
    destruct (ko_node _ _ _ _ _ _ K _ Hin) as (A1 & A2 & _). cbn [fst snd] in *.
    pose proof (ko_ok _ _ _ _ _ _ K _ Hin) as A3. pose proof (ko_rem _ _ _ _ _ _ K _ Hin) as A4. cbn [fst snd] in *.
    destruct (Z.eqb_spec (c_rank (b_t (rt_val c))) (Z.of_nat p)) as [E|E].
    - repeat split; eauto.
    - unfold Sta. assert (c_rank (b_t (rt_val c)) < 0)%Z; [|repeat split; eauto].
      unfold t_ok, in_part in A3. rewrite Ep in A3. apply orb_true_iff in A3. destruct A3 as [A3|A3].
      + apply Z.eqb_eq in A3. congruence.
      + apply Z.ltb_lt, A3.
  Qed.

  Lemma reset_Col : forall p f root0 cs, bb_tpart B = Some p -> Sta root0 -> reset_run f p [root0] [] = Some cs ->
    forall b, In b cs -> Col p b.
  Proof.
    intros p f root0 cs Ep H0 Hr. apply (reset_inv p Sta (Col p)) with (5 := Hr).
    - intros b c H Hc Q. pose proof (Sta_child p b c Ep H Hc) as R. rewrite Q in R. exact R.
    - intros b c H Hc Q. pose proof (Sta_child p b c Ep H Hc) as R. rewrite Q in R. exact R.
    - intros b [<-|[]]. exact H0.
    - intros b [].
  Qed.

  Lemma not_in_part_neg : part_valid B T -> in_part B T = false -> (c_rank T < 0)%Z.
  Proof.
    intros HV H. pose proof (root_t_ok HV) as Q. unfold t_ok in Q. rewrite H in Q. cbn in Q. apply Z.ltb_lt, Q.
  Qed.

  Lemma Sta_root : part_valid B T -> removed B T S = false -> in_part B T = false -> forall fuel root0, build_block_tree B fuel T S = Some root0 -> Sta root0.
  Proof.
    intros HV Hr Hi fuel root0 H. destruct (build_root_info _ _ _ _ H) as [E1 E2]. unfold Sta. rewrite E1, E2.
    repeat split; eauto using tN_root, sN_root, root_t_ok, not_in_part_neg.
  Qed.

  Lemma row_in_X : forall i j, X B i j (T, S) = if row_in B T i && in_iv j (interval S) then 1 else 0.
  Proof.
    intros i j. unfold X, row_in. cbn [fst snd]. change (match bb_tpart B with Some p => _ | None => true end) with (rowp B i).
    destruct (in_iv i (interval T)), (rowp B i), (in_iv j (interval S)); reflexivity.
  Qed.

  (** *** The leaves of the final root *)
  Lemma final_leaves : part_valid B T -> removed B T S = false ->
    (forall p u, bb_tpart B = Some p -> nth_error (bb_tparts B) p = Some u -> removed B u S = false) -> witnessed -> forall root, final_root root ->
    (forall i j, count (covers i j) (rleaves root) <= X B i j (T, S) /\
       (NR B T S i j -> count (covers i j) (rleaves root) = X B i j (T, S))) /\
    (forall x, In x (rleaves root) -> exists k, b_task x = Some k /\ tN (b_t x) /\ sN (b_s x) /\ branch B (b_t x) (b_s x) = inl k /\
       in_part B (b_t x) = true /\ (0 <= c_rank (b_t x))%Z /\ removed B (b_t x) (b_s x) = false).
  Proof.
    intros HV Hrem Hru W root HR.
    assert (Leaf : forall b, (forall u, In u (preorder b) -> full_facts u) -> (forall i, In i (rleaves b) -> b_task i <> None) ->
      forall x, In x (rleaves b) -> exists k, b_task x = Some k /\ tN (b_t x) /\ sN (b_s x) /\ branch B (b_t x) (b_s x) = inl k /\
       in_part B (b_t x) = true /\ (0 <= c_rank (b_t x))%Z /\ removed B (b_t x) (b_s x) = false).
    { intros b HF HK x Hx.
      assert (exists u, In u (preorder b) /\ rt_val u = x) as (u & Hu & Eu).
      { clear - Hx. induction b as [i cs IH] using rtree_ind'. destruct cs as [|c cs].
        - destruct Hx as [<-|[]]. exists (RNode i []). split; [left; reflexivity|reflexivity].
        - cbn [rleaves] in Hx. apply in_concat in Hx. destruct Hx as (l & Hl & Hx). apply in_map_iff in Hl. destruct Hl as (y & <- & Hy).
          destruct (IH y Hy Hx) as (u & Hu & Eu). exists u. split; [|exact Eu]. rewrite preorder_eq. right. apply in_concat.
          exists (preorder y). split; [apply in_map, Hy|exact Hu]. }
      destruct (HF u Hu) as ((F1 & F2 & F3 & _ & F4) & F5 & _). rewrite Eu in *. specialize (HK x Hx).
      destruct (b_task x) as [k|]; [|congruence]. destruct F4 as (_ & F4 & F6 & F7). exists k. auto 10. }
    destruct HR as [fuel Hi HB|fuel root0 p u cs f Ep Eu HB Hi Hreset ->].
    - pose proof (build_full fuel T S root tN_root sN_root (root_t_ok HV) Hrem HB) as HF.
      destruct (leaves_tasks W root HF) as [L1 L2].
      { intros u Hu. pose proof (root_t_ok HV) as RT. unfold in_part in Hi |- *.
        destruct (bb_tpart B) as [p|] eqn:Ep; [right|left; reflexivity]. apply Z.eqb_eq in Hi.
        assert (Hr : (0 <= c_rank T)%Z) by lia.
        rewrite (build_rank_nodes fuel T S root tN_root sN_root RT Hr HB u Hu), <- Hi, Z.eqb_refl. split; [reflexivity|lia]. }
      split; [|apply Leaf; assumption].
      intros i j. pose proof (build_count B T S HT HS fuel T S root tN_root sN_root (root_t_ok HV) HB i j) as Q.
      unfold cnt in Q. rewrite <- L1 in Q. exact Q.
    - pose proof (Sta_root HV Hrem Hi fuel root0 HB) as HS0.
      pose proof (reset_Col p f root0 cs Ep HS0 Hreset) as HC.
      assert (HF : forall b, In b cs -> forall u, In u (preorder b) -> full_facts u).
      { intros b Hb. destruct (HC b Hb) as ((f' & A1) & A2 & A3 & A4 & A5 & _). eapply build_full; eauto. }
      assert (HL : forall b, In b cs -> rleaves b = tasks b /\ forall i, In i (rleaves b) -> b_task i <> None).
      { intros b Hb. apply (leaves_tasks W b (HF b Hb)). intros v Hv. right.
        destruct (HC b Hb) as ((f' & A1) & A2 & A3 & A4 & A5 & A6).
        assert (Hr : (0 <= c_rank (b_t (rt_val b)))%Z) by lia.
        unfold in_part. rewrite Ep, (build_rank_nodes f' _ _ b A2 A3 A4 Hr A1 v Hv), A6, Z.eqb_refl. split; [reflexivity|lia]. }
      assert (HN : forall b v, In b [root0] -> In v (preorder b) -> node_facts B T S v).
      { intros b v [<-|[]] Hv. apply (build_full fuel T S root0 tN_root sN_root (root_t_ok HV) Hrem HB v Hv). }
      destruct (reset_run_ok B T S p f [root0] [] cs HN) as [P1 _].
      { intros b [<-|[]]. apply HS0. }
      { intros t Hok. unfold t_ok, in_part in Hok. rewrite Ep in Hok. apply orb_true_iff in Hok.
        destruct Hok as [Hok|Hok]; [left; apply Z.eqb_eq in Hok; congruence|right; apply Z.ltb_lt, Hok]. }
      { exact Hreset. }
      cbn [map concat app] in P1. rewrite app_nil_r in P1.
      assert (Hcnt : forall i j, count (covers i j) (concat (map tasks cs)) <= X B i j (T, S) /\
         (NR B T S i j -> count (covers i j) (concat (map tasks cs)) = X B i j (T, S))).
      { intros i j. rewrite (count_perm _ _ _ _ P1). apply (build_count B T S HT HS fuel T S root0 tN_root sN_root (root_t_ok HV) HB i j). }
      assert (Hne : cs <> []).
      { intros ->. unfold part_valid in HV. rewrite Ep, Eu in HV. destruct HV as [->|[Hneg Hcont]].
        - unfold in_part in Hi. rewrite Ep, (part_rank p T Ep Eu), Z.eqb_refl in Hi. discriminate.
        - destruct (pt_above _ _ HT T tN_root Hneg) as (_ & Hd & _ & _).
          destruct (Hd u) as (k & Hk & Hu); [apply filter_In; split; [eapply nth_error_In; eauto|exact Hcont]|].
          assert (Hun : tN u) by (eapply nodes_trans; [apply nodes_kid, Hk|exact Hu]).
          destruct (W u S Hun sN_root (Hru p u Ep Eu)) as (x & y & Hx & Hy & Hnr).
          destruct (Hcnt x y) as [_ Q]. specialize (Q Hnr). unfold X, rowp in Q. cbn [fst snd] in Q.
          rewrite Ep, Eu, Hx, Hy in Q.
          assert (Hxt : in_iv x (interval T) = true).
          { unfold contains, in_iv, interval, c_off, c_size in *. cbn [fst snd] in *.
            apply andb_true_iff in Hcont. destruct Hcont as [C1 C2]. apply Nat.leb_le in C1, C2.
            apply andb_true_iff in Hx. destruct Hx as [C3 C4]. apply Nat.leb_le in C3. apply Nat.ltb_lt in C4.
            apply andb_true_iff. split; [apply Nat.leb_le|apply Nat.ltb_lt]; lia. }
          rewrite Hxt in Q. cbn in Q. discriminate. }
      assert (E : rleaves (RNode (mkBinfo u S None (has_sym B u S)) cs) = concat (map tasks cs)).
      { destruct cs as [|c cs]; [congruence|]. cbn [rleaves]. f_equal. apply map_ext_in. intros b Hb. apply HL, Hb. }
      rewrite E. split; [exact Hcnt|]. intros x Hx. apply in_concat in Hx. destruct Hx as (l & Hl & Hx).
      apply in_map_iff in Hl. destruct Hl as (b & <- & Hb). destruct (HL b Hb) as [E1 E2]. rewrite <- E1 in Hx.
      eapply Leaf; eauto.
  Qed.
End Final.
