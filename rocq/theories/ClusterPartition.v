(** * Proofs about the partition of a cluster tree (ranks, clusters on partition). *)

From Coq Require Import List Arith ZArith Bool Permutation Lia.
From Verif Require Import ClusterModel ClusterSpec ClusterProofs.
Import ListNotations.


(** ** pv_write *)

Lemma list_set_length : forall A (l : list A) i x, length (list_set l i x) = length l.
Proof.
  intros A l i x. unfold list_set. rewrite app_length.
  rewrite <- (firstn_skipn i l) at 3. rewrite app_length.
  destruct (skipn i l); reflexivity.
Qed.

Lemma list_set_cons : forall A (l : list A) i x y, list_set (y :: l) (S i) x = y :: list_set l i x.
Proof. reflexivity. Qed.

Lemma list_set_nth : forall A (l : list A) i x j d, i < length l ->
  nth j (list_set l i x) d = if j =? i then x else nth j l d.
Proof.
  induction l as [|y l IH]; intros i x j d H; [simpl in H; lia|].
  destruct i as [|i].
  - unfold list_set. simpl. destruct j; reflexivity.
  - rewrite list_set_cons. destruct j; [reflexivity|]. simpl in H.
    cbn [nth Nat.eqb]. apply IH. lia.
Qed.

Lemma pv_write_length : forall pv r c, length (pv_write pv r c) = Nat.max (length pv) (S r).
Proof.
  intros pv r c. unfold pv_write. rewrite list_set_length.
  destruct (Nat.ltb_spec (length pv) (r + 1)); [rewrite app_length, repeat_length|]; lia.
Qed.

Lemma nth_repeat_None : forall A n j, nth j (repeat (@None A) n) None = None.
Proof. induction n as [|n IH]; intros [|j]; simpl; auto. Qed.

Lemma pv_write_nth : forall pv r c j,
  nth j (pv_write pv r c) None = if j =? r then Some c else nth j pv None.
Proof.
  intros pv r c j. unfold pv_write. rewrite list_set_nth.
  - destruct (j =? r); auto. destruct (length pv <? r + 1); auto.
    destruct (Nat.lt_ge_cases j (length pv)).
    + apply app_nth1. lia.
    + rewrite app_nth2 by lia. rewrite nth_repeat_None. rewrite nth_overflow by lia. reflexivity.
  - destruct (Nat.ltb_spec (length pv) (r + 1)); [rewrite app_length, repeat_length|]; lia.
Qed.

(** [pvres b e nodes pv pv']: the entries [b,e) have been set to [nodes], which have these ranks. *)
Definition pvres (b e : nat) (nodes : list cinfo) (pv pv' : list (option cinfo)) : Prop :=
  b <= e /\ map ci_rank nodes = map Z.of_nat (seq b (e - b)) /\
  (forall r, nth r pv' None = if (b <=? r) && (r <? e) then nth_error nodes (r - b) else nth r pv None) /\
  length pv' = if b <? e then Nat.max (length pv) e else length pv.

Lemma pvres_length : forall b e nodes pv pv', pvres b e nodes pv pv' -> length nodes = e - b.
Proof.
  intros b e nodes pv pv' (_ & H & _). apply (f_equal (@length Z)) in H.
  rewrite !map_length, seq_length in H. exact H.
Qed.

Lemma pvres_nil : forall b pv, pvres b b [] pv pv.
Proof.
  intros b pv. repeat split.
  - lia.
  - rewrite Nat.sub_diag. reflexivity.
  - intros r. destruct (Nat.leb_spec b r), (Nat.ltb_spec r b); simpl; auto; lia.
  - rewrite Nat.ltb_irrefl. reflexivity.
Qed.

(** Sequential composition: the later part may be written first. *)
Lemma pvres_app : forall b m e n1 n2 pv pv1 pv2,
  pvres m e n2 pv pv1 -> pvres b m n1 pv1 pv2 -> pvres b e (n1 ++ n2) pv pv2.
Proof.
  intros b m e n1 n2 pv pv1 pv2 H2 H1.
  pose proof (pvres_length _ _ _ _ _ H1) as L1. pose proof (pvres_length _ _ _ _ _ H2) as L2.
  destruct H1 as (B1 & R1 & N1 & S1), H2 as (B2 & R2 & N2 & S2).
  split; [lia|]. split; [|split].
  - rewrite map_app, R1, R2, <- map_app. f_equal.
    replace (e - b) with ((m - b) + (e - m)) by lia. rewrite seq_app. repeat f_equal. lia.
  - intros r. rewrite N1, N2.
    destruct (Nat.leb_spec b r), (Nat.ltb_spec r m), (Nat.leb_spec m r), (Nat.ltb_spec r e);
      cbn [andb]; try lia; auto.
    + rewrite nth_error_app1 by lia. reflexivity.
    + rewrite nth_error_app2 by lia. f_equal. lia.
  - rewrite S1, S2. destruct (Nat.ltb_spec b m), (Nat.ltb_spec m e), (Nat.ltb_spec b e); lia.
Qed.

Lemma register_pvres : forall kids b pv,
  map ci_rank kids = map Z.of_nat (seq b (length kids)) ->
  pvres b (b + length kids) kids pv
    (fold_left (fun v k => pv_write v (Z.to_nat (ci_rank k)) k) kids pv).
Proof.
  induction kids as [|k ks IH] using rev_ind; intros b pv H.
  - simpl. rewrite Nat.add_0_r. apply pvres_nil.
  - rewrite app_length in *. cbn [length] in *. rewrite seq_app, !map_app in H.
    cbn [map seq] in H.
    apply app_inj_tail in H. destruct H as [H1 H2].
    rewrite fold_left_app. cbn [fold_left].
    specialize (IH b pv H1). destruct IH as (B & R & N & S0).
    set (pv1 := fold_left _ ks pv) in *.
    rewrite H2, Nat2Z.id.
    replace (b + length ks - b) with (length ks) in R by lia.
    split; [lia|]. split; [|split].
    + rewrite map_app, R. cbn [map]. rewrite H2.
      replace (b + (length ks + 1) - b) with (length ks + 1) by lia.
      rewrite seq_app, map_app. reflexivity.
    + intros r. rewrite pv_write_nth, N.
      destruct (Nat.eqb_spec r (b + length ks)) as [->|Hr].
      * destruct (Nat.leb_spec b (b + length ks)), (Nat.ltb_spec (b + length ks) (b + (length ks + 1)));
          cbn [andb]; try lia.
        rewrite nth_error_app2 by lia. replace (b + length ks - b - length ks) with 0 by lia. reflexivity.
      * destruct (Nat.leb_spec b r), (Nat.ltb_spec r (b + length ks)), (Nat.ltb_spec r (b + (length ks + 1)));
          cbn [andb]; try lia; auto.
        rewrite nth_error_app1 by lia. reflexivity.
    + rewrite pv_write_length, S0.
      destruct (Nat.ltb_spec b (b + length ks)), (Nat.ltb_spec b (b + (length ks + 1))); lia.
Qed.

(** ** Depth of the nodes *)

Lemma child_infos_depth : forall P c perm l p k, In k (child_infos P c perm p l) -> ci_depth k = S (ci_depth c).
Proof.
  induction l as [|[o s] l IH]; simpl; intros p k H; [contradiction|].
  destruct H as [<-|H]; simpl; eauto.
Qed.

Lemma child_infos_ranks_on : forall P c perm l p, on_level P c = true ->
  map ci_rank (child_infos P c perm p l) = map Z.of_nat (seq (ci_counter c * level_children P + p) (length l)).
Proof.
  induction l as [|[o s] l IH]; simpl; intros p H; auto.
  rewrite H. f_equal. rewrite IH by exact H. do 2 f_equal. lia.
Qed.

Lemma child_infos_rank_off : forall P c perm l p k, on_level P c = false ->
  In k (child_infos P c perm p l) -> ci_rank k = ci_rank c.
Proof.
  induction l as [|[o s] l IH]; simpl; intros p k H Hk; [contradiction|].
  destruct Hk as [<-|Hk]; [|eauto]. simpl. rewrite H. reflexivity.
Qed.

Lemma child_infos_counters : forall P c perm l p, on_level P c = false ->
  map ci_counter (child_infos P c perm p l) = seq (ci_counter c * current_nc P c + p) (length l).
Proof.
  induction l as [|[o s] l IH]; simpl; intros p H; auto.
  rewrite H. f_equal. rewrite IH by exact H. f_equal. lia.
Qed.


Lemma level_deep : forall t, (forall u, In u (ct_nodes t) -> depth_ok u) ->
  forall u, In u (ct_nodes t) -> ci_depth (ct_info t) <= ci_depth (ct_info u).
Proof.
  intros t. induction t as [c ts IH] using ctree_ind'; intros H u Hu.
  destruct (In_nodes_inv _ _ _ Hu) as [->|(t & Ht & Hu')]; [lia|].
  pose proof (H _ (In_nodes_root _) t Ht) as Hd. simpl in Hd.
  specialize (IH t Ht (fun v Hv => H v (In_nodes_child _ _ _ _ Ht Hv)) u Hu'). simpl. lia.
Qed.

Lemma filter_none : forall A (p : A -> bool) l, (forall x, In x l -> p x = false) -> filter p l = [].
Proof.
  induction l as [|x l IH]; simpl; intros H; auto.
  rewrite (H x) by (left; reflexivity). apply IH. intros y Hy. apply H. right; exact Hy.
Qed.

Lemma level_self : forall d t, (forall u, In u (ct_nodes t) -> depth_ok u) ->
  ci_depth (ct_info t) = d -> level d t = [t].
Proof.
  intros d [c ts] H Hd. unfold level. cbn [ct_nodes filter]. cbn [ct_info] in *. rewrite Hd, Nat.eqb_refl. f_equal.
  apply filter_none. intros u Hu. apply Nat.eqb_neq.
  apply in_concat in Hu. destruct Hu as (x & Hx & Hu). apply in_map_iff in Hx. destruct Hx as (t & <- & Ht).
  pose proof (H _ (In_nodes_root _) t Ht) as Hk. simpl in Hk.
  pose proof (level_deep t (fun v Hv => H v (In_nodes_child _ _ _ _ Ht Hv)) u Hu). lia.
Qed.

Lemma level_above : forall d c ts, ci_depth c <> d -> level d (CNode c ts) = concat (map (level d) ts).
Proof.
  intros d c ts Hd. unfold level. cbn [ct_nodes filter ct_info].
  destruct (Nat.eqb_spec (ci_depth c) d); [contradiction|].
  rewrite filter_concat, map_map. reflexivity.
Qed.

(** The nodes at depth [d] tile the tree when every node above has children. *)
Lemma level_tiles : forall d t,
  (forall u, In u (ct_nodes t) -> node_ok u /\ depth_ok u) ->
  (forall u, In u (ct_nodes t) -> ci_depth (ct_info u) < d -> ct_children u <> []) ->
  ci_depth (ct_info t) <= d ->
  tiles (ci_off (ct_info t)) (ci_off (ct_info t) + ci_size (ct_info t)) (map interval (level d t)).
Proof.
  intros d t. induction t as [c ts IH] using ctree_ind'; intros H Hc Hd.
  destruct (Nat.eq_dec (ci_depth c) d) as [E|E].
  - rewrite level_self; [|intros u Hu; apply H, Hu|exact E]. simpl. auto.
  - rewrite level_above by exact E. cbn [ct_info] in *. apply tiles_concat.
    + destruct (proj1 (H _ (In_nodes_root _))) as [F|F]; [|exact F].
      exfalso. apply (Hc _ (In_nodes_root _)); [simpl; lia|exact F].
    + intros t Ht. apply (IH t Ht).
      * intros u Hu. apply H. eapply In_nodes_child; eauto.
      * intros u Hu. apply Hc. eapply In_nodes_child; eauto.
      * pose proof (proj2 (H _ (In_nodes_root _)) t Ht) as Hk. simpl in Hk. lia.
Qed.

Section Partition.
  Variable sorter : cinfo -> list nat -> list nat.
  Variable splitter : cinfo -> list nat -> nat -> option (list (nat * nat)).
  Variable P : bparams.
  Notation step := (step sorter splitter P).
  Notation build := (build sorter splitter P).
  Notation build_list := (build_list sorter splitter P).

  (** What a step does to ranks, depths and the partition vector. *)
  Lemma step_links : forall st c st' kids, step st c = Some (st', kids) ->
    exists perm1 spl, splitter c perm1 (current_nc P c) = Some spl /\
      kids = child_infos P c perm1 0 spl /\
      st_pv st' = register P c kids (st_pv st) /\ st_perm st' = perm1 /\
      st_errors st' = st_errors st + (match kids with [] => if (ci_rank c <? 0)%Z then 1 else 0 | _ => 0 end).
  Proof.
    intros st c st' kids H. unfold ClusterModel.step in H.
    set (perm1 := set_slice _ _ _ _) in *.
    destruct (splitter c perm1 (current_nc P c)) as [spl|] eqn:E; [|discriminate].
    exists perm1, spl. destruct (child_infos P c perm1 0 spl) as [|k0 ks] eqn:Ek.
    - destruct (ci_rank c <? 0)%Z; injection H as <- <-; cbn [st_pv st_perm st_errors];
        repeat split; auto; try lia; unfold register; destruct (on_level P c); reflexivity.
    - injection H as <- <-. cbn [st_pv st_perm st_errors]. repeat split; auto.
  Qed.

  Lemma build_depth : forall f,
    (forall st c s t, build f st c = Some (s, t) -> forall u, In u (ct_nodes t) -> depth_ok u) /\
    (forall ks st s ts, build_list f st ks = Some (s, ts) -> forall t u, In t ts -> In u (ct_nodes t) -> depth_ok u).
  Proof.
    assert (HL : forall f,
      (forall st c s t, build f st c = Some (s, t) -> forall u, In u (ct_nodes t) -> depth_ok u) ->
      (forall ks st s ts, build_list f st ks = Some (s, ts) -> forall t u, In t ts -> In u (ct_nodes t) -> depth_ok u)).
    { intros f HB. induction ks as [|k ks IH]; cbn [ClusterModel.build_list]; intros st s ts H t u Ht Hu.
      - injection H as <- <-. contradiction.
      - destruct (build_list f st ks) as [[s1 ts1]|] eqn:E; [|discriminate].
        destruct (build f s1 k) as [[s2 t2]|] eqn:E2; [|discriminate].
        injection H as <- <-. destruct Ht as [<-|Ht]; eauto. }
    induction f as [|f [IHb IHl]].
    - split; [intros; discriminate|]. apply HL. intros; discriminate.
    - match goal with |- ?A /\ _ => assert (HB : A) end.
      { intros st c s t H u Hu. rewrite build_S in H.
        destruct (step st c) as [[st' kids]|] eqn:Es; [|discriminate].
        destruct (build_list f st' kids) as [[s1 ts]|] eqn:El; [|discriminate].
        injection H as <- <-. destruct (In_nodes_inv _ _ _ Hu) as [->|(t & Ht & Hu')]; [|eauto].
        intros k Hk. cbn [ct_info ct_children] in *.
        destruct (step_links _ _ _ _ Es) as (perm1 & spl & _ & -> & _).
        apply (in_map ct_info) in Hk. rewrite (build_list_info _ _ _ _ _ _ _ _ El) in Hk.
        eapply child_infos_depth; eauto. }
      split; [exact HB|]. apply HL, HB.
  Qed.

  (** Below the partition the rank is inherited and the partition vector is not modified. *)
  Lemma build_below : forall d, (forall c, on_level P c = true -> S (ci_depth c) = d) ->
   forall f,
    (forall st c s t, build f st c = Some (s, t) -> d <= ci_depth c ->
       st_pv s = st_pv st /\ forall u, In u (ct_nodes t) -> ci_rank (ct_info u) = ci_rank c) /\
    (forall ks st s ts, build_list f st ks = Some (s, ts) -> (forall k, In k ks -> d <= ci_depth k) ->
       st_pv s = st_pv st /\ forall t u, In t ts -> In u (ct_nodes t) -> ci_rank (ct_info u) = ci_rank (ct_info t)).
  Proof.
    intros d Hd.
    assert (HL : forall f,
      (forall st c s t, build f st c = Some (s, t) -> d <= ci_depth c ->
       st_pv s = st_pv st /\ forall u, In u (ct_nodes t) -> ci_rank (ct_info u) = ci_rank c) ->
      (forall ks st s ts, build_list f st ks = Some (s, ts) -> (forall k, In k ks -> d <= ci_depth k) ->
       st_pv s = st_pv st /\ forall t u, In t ts -> In u (ct_nodes t) -> ci_rank (ct_info u) = ci_rank (ct_info t))).
    { intros f HB. induction ks as [|k ks IH]; cbn [ClusterModel.build_list]; intros st s ts H Hk.
      - injection H as <- <-. split; [reflexivity|]. intros t u [].
      - destruct (build_list f st ks) as [[s1 ts1]|] eqn:E; [|discriminate].
        destruct (build f s1 k) as [[s2 t2]|] eqn:E2; [|discriminate].
        injection H as <- <-.
        destruct (IH _ _ _ E (fun k' Hk' => Hk k' (or_intror Hk'))) as [A B].
        destruct (HB _ _ _ _ E2 (Hk k (or_introl eq_refl))) as [A2 B2].
        split; [congruence|]. intros t u [<-|Ht] Hu; [|eauto].
        rewrite (B2 u Hu). rewrite (build_info _ _ _ _ _ _ _ _ E2). reflexivity. }
    induction f as [|f [IHb IHl]].
    - split; [intros; discriminate|]. apply HL. intros; discriminate.
    - match goal with |- ?A /\ _ => assert (HB : A) end.
      { intros st c s t H Hc. rewrite build_S in H.
        destruct (step st c) as [[st' kids]|] eqn:Es; [|discriminate].
        destruct (build_list f st' kids) as [[s1 ts]|] eqn:El; [|discriminate].
        injection H as <- <-.
        destruct (step_links _ _ _ _ Es) as (perm1 & spl & _ & Ek & Hpv & _).
        assert (Hoff : on_level P c = false).
        { destruct (on_level P c) eqn:Eo; auto. apply Hd in Eo. lia. }
        destruct (IHl _ _ _ _ El) as [A B].
        { intros k Hk. rewrite Ek in Hk. apply child_infos_depth in Hk. lia. }
        split.
        - rewrite A, Hpv. unfold register. rewrite Hoff. reflexivity.
        - intros u Hu. destruct (In_nodes_inv _ _ _ Hu) as [->|(t & Ht & Hu')]; [reflexivity|].
          rewrite (B t u Ht Hu').
          apply (in_map ct_info) in Ht. rewrite (build_list_info _ _ _ _ _ _ _ _ El), Ek in Ht.
          eapply child_infos_rank_off; eauto. }
      split; [exact HB|]. apply HL, HB.
  Qed.

  (** *** Above the partition *)

  Hypothesis Hgiven : bp_given P = None.
  Hypothesis Hlen : forall c perm nc l, splitter c perm nc = Some l -> l = [] \/ length l = nc.
  Variable d : nat.
  Hypothesis Hd : part_depth P = S d.
  Hypothesis Hnc : 1 <= bp_nc P.
  Hypothesis Hlc : 1 <= level_children P.

  Notation nc := (bp_nc P).
  Definition width (delta : nat) : nat := nc ^ (d - delta) * level_children P.
  Definition bnd (kappa delta : nat) : nat :=
    if kappa =? nc ^ delta then nc ^ delta * width delta + additional P else kappa * width delta.

  Lemma pow_pos : forall k, 1 <= nc ^ k.
  Proof. intros k. pose proof (Nat.pow_nonzero nc k). lia. Qed.

  Lemma bnd_refine : forall kappa delta, delta < d -> bnd (kappa * nc) (S delta) = bnd kappa delta.
  Proof.
    intros kappa delta H. unfold bnd, width. cbn [Nat.pow].
    replace (d - delta) with (S (d - S delta)) by lia. cbn [Nat.pow].
    pose proof (pow_pos delta).
    destruct (Nat.eqb_spec kappa (nc ^ delta)) as [E|Hk].
    - destruct (Nat.eqb_spec (kappa * nc) (nc * nc ^ delta)); nia.
    - destruct (Nat.eqb_spec (kappa * nc) (nc * nc ^ delta)) as [E|E]; [|nia].
      exfalso. apply Hk. nia.
  Qed.

  Lemma on_level_d : forall c, on_level P c = true <-> ci_depth c = d.
  Proof.
    intros c. unfold on_level. rewrite Hgiven, Hd. rewrite Nat.eqb_eq. lia.
  Qed.

  Lemma build_above : forall f,
    (forall st c s t, build f st c = Some (s, t) -> ci_depth c <= d -> ci_counter c < nc ^ ci_depth c ->
       (forall u, In u (ct_nodes t) -> ci_depth (ct_info u) <= d -> ct_children u <> []) ->
       pvres (bnd (ci_counter c) (ci_depth c)) (bnd (S (ci_counter c)) (ci_depth c))
             (map ct_info (level (S d) t)) (st_pv st) (st_pv s) /\
       (forall u v, In u (level (S d) t) -> In v (ct_nodes u) -> ci_rank (ct_info v) = ci_rank (ct_info u))) /\
    (forall delta, delta <= d -> forall ks kappa st s ts, build_list f st ks = Some (s, ts) ->
       (forall k, In k ks -> ci_depth k = delta) ->
       map ci_counter ks = seq kappa (length ks) -> kappa + length ks <= nc ^ delta ->
       (forall t u, In t ts -> In u (ct_nodes t) -> ci_depth (ct_info u) <= d -> ct_children u <> []) ->
       pvres (bnd kappa delta) (bnd (kappa + length ks) delta)
             (map ct_info (concat (map (level (S d)) ts))) (st_pv st) (st_pv s) /\
       (forall t u v, In t ts -> In u (level (S d) t) -> In v (ct_nodes u) -> ci_rank (ct_info v) = ci_rank (ct_info u))).
  Proof.
    assert (HL : forall f,
      (forall st c s t, build f st c = Some (s, t) -> ci_depth c <= d -> ci_counter c < nc ^ ci_depth c ->
       (forall u, In u (ct_nodes t) -> ci_depth (ct_info u) <= d -> ct_children u <> []) ->
       pvres (bnd (ci_counter c) (ci_depth c)) (bnd (S (ci_counter c)) (ci_depth c))
             (map ct_info (level (S d) t)) (st_pv st) (st_pv s) /\
       (forall u v, In u (level (S d) t) -> In v (ct_nodes u) -> ci_rank (ct_info v) = ci_rank (ct_info u))) ->
      (forall delta, delta <= d -> forall ks kappa st s ts, build_list f st ks = Some (s, ts) ->
       (forall k, In k ks -> ci_depth k = delta) ->
       map ci_counter ks = seq kappa (length ks) -> kappa + length ks <= nc ^ delta ->
       (forall t u, In t ts -> In u (ct_nodes t) -> ci_depth (ct_info u) <= d -> ct_children u <> []) ->
       pvres (bnd kappa delta) (bnd (kappa + length ks) delta)
             (map ct_info (concat (map (level (S d)) ts))) (st_pv st) (st_pv s) /\
       (forall t u v, In t ts -> In u (level (S d) t) -> In v (ct_nodes u) -> ci_rank (ct_info v) = ci_rank (ct_info u)))).
    { intros f HB delta Hdel. induction ks as [|k ks IH]; cbn [ClusterModel.build_list];
        intros kappa st s ts H Hdep Hcnt Hle Hne.
      - injection H as <- <-. simpl. rewrite Nat.add_0_r. split; [apply pvres_nil|]. intros t u v [].
      - destruct (build_list f st ks) as [[s1 ts1]|] eqn:E; [|discriminate].
        destruct (build f s1 k) as [[s2 t2]|] eqn:E2; [|discriminate].
        injection H as <- <-. cbn [length map seq] in *. injection Hcnt as Hc0 Hcnt.
        destruct (IH (S kappa) _ _ _ E) as [A B].
        { intros k' Hk'. apply Hdep. right; exact Hk'. }
        { exact Hcnt. } { lia. }
        { intros t u Ht. apply Hne. right; exact Ht. }
        assert (Hdk : ci_depth k = delta) by (apply Hdep; left; reflexivity).
        destruct (HB _ _ _ _ E2) as [A2 B2].
        { lia. } { rewrite Hdk, Hc0. lia. } { intros u. apply Hne. left; reflexivity. }
        rewrite Hc0, Hdk in A2.
        split.
        + cbn [map concat]. rewrite map_app. eapply pvres_app.
          * replace (kappa + S (length ks)) with (S kappa + length ks) by lia. exact A.
          * exact A2.
        + intros t u v [<-|Ht]; eauto. }
    induction f as [|f [IHb IHl]].
    - split; [intros; discriminate|]. apply HL. intros; discriminate.
    - match goal with |- ?A /\ _ => assert (HB : A) end.
      { intros st c s t H Hc Hcnt Hne.
        pose proof (proj1 (build_depth (S f)) _ _ _ _ H) as Hdep.
        rewrite build_S in H.
        destruct (step st c) as [[st' kids]|] eqn:Es; [|discriminate].
        destruct (build_list f st' kids) as [[s1 ts]|] eqn:El; [|discriminate].
        injection H as <- <-.
        destruct (step_links _ _ _ _ Es) as (perm1 & spl & Hspl & Ek & Hpv & _).
        pose proof (build_list_info _ _ _ _ _ _ _ _ El) as Hki.
        assert (Hkne : kids <> []).
        { intros ->. apply (Hne _ (In_nodes_root _)); [exact Hc|]. simpl.
          destruct ts; [reflexivity|discriminate]. }
        assert (Hsl : length spl = current_nc P c).
        { destruct (Hlen _ _ _ _ Hspl) as [->|L]; [|exact L]. simpl in Ek. congruence. }
        rewrite level_above by lia.
        destruct (on_level P c) eqn:Eo.
        - (* children are on the partition *)
          pose proof (proj1 (on_level_d c) Eo) as Edc.
          assert (Hbelow : forall c', on_level P c' = true -> S (ci_depth c') = S d).
          { intros c' Hc'. apply on_level_d in Hc'. lia. }
          destruct (proj2 (build_below (S d) Hbelow f) _ _ _ _ El) as [A B].
          { intros k Hk. rewrite Ek in Hk. apply child_infos_depth in Hk. lia. }
          assert (Hlv : concat (map (level (S d)) ts) = ts).
          { assert (Q : forall l, (forall x, In x l -> In x ts) -> concat (map (level (S d)) l) = l).
            { induction l as [|x l IHx]; intros Hin; [reflexivity|]. cbn [map concat].
              rewrite IHx by (intros y Hy; apply Hin; right; exact Hy).
              rewrite level_self; [reflexivity| |].
              - intros u Hu. apply Hdep. eapply In_nodes_child; [|exact Hu]. apply Hin. left; reflexivity.
              - assert (Hx : In x ts) by (apply Hin; left; reflexivity).
                pose proof (Hdep _ (In_nodes_root _) x Hx) as Q. simpl in Q. lia. }
            apply Q. auto. }
          split.
          + rewrite Hlv, Hki, A, Hpv. unfold register. rewrite Eo.
            assert (Hr : map ci_rank kids = map Z.of_nat (seq (ci_counter c * level_children P) (length kids))).
            { rewrite Ek at 1. rewrite child_infos_ranks_on by exact Eo.
              rewrite Ek, child_infos_length. do 2 f_equal. lia. }
            pose proof (register_pvres kids _ (st_pv st) Hr) as R.
            assert (Hb1 : bnd (ci_counter c) (ci_depth c) = ci_counter c * level_children P).
            { unfold bnd, width. rewrite Edc in *. rewrite Nat.sub_diag.
              destruct (Nat.eqb_spec (ci_counter c) (nc ^ d)); [lia|]. simpl. lia. }
            assert (Hb2 : bnd (S (ci_counter c)) (ci_depth c) = ci_counter c * level_children P + length kids).
            { rewrite Ek, child_infos_length, Hsl. unfold current_nc. rewrite Eo. unfold bnd, width. rewrite Edc in *.
              rewrite Nat.sub_diag. cbn [Nat.pow].
              destruct (Nat.eqb_spec (S (ci_counter c)) (nc ^ d)) as [E1|E1],
                (Nat.eqb_spec (ci_counter c) (nc ^ d - 1)) as [E2|E2]; try lia. }
            rewrite Hb1, Hb2. exact R.
          + intros u v Hu Hv. rewrite Hlv in Hu. eauto.
        - (* strictly above *)
          assert (Hlt : ci_depth c < d).
          { destruct (Nat.eq_dec (ci_depth c) d) as [Q|Q]; [|lia].
            apply on_level_d in Q. congruence. }
          assert (Hcur : current_nc P c = nc) by (unfold current_nc; rewrite Eo; reflexivity).
          assert (Hkl : length kids = nc) by (rewrite Ek, child_infos_length; congruence).
          destruct (IHl (S (ci_depth c)) ltac:(lia) _ (ci_counter c * nc) _ _ _ El) as [A B].
          { intros k Hk. rewrite Ek in Hk. eapply child_infos_depth; eauto. }
          { rewrite Ek at 1. rewrite child_infos_counters by exact Eo. rewrite Hcur, Hkl, Hsl.
            rewrite Hcur. f_equal. lia. }
          { rewrite Hkl. cbn [Nat.pow]. nia. }
          { intros t u Ht Hu. apply Hne. eapply In_nodes_child; eauto. }
          split.
          + rewrite Hkl in A. replace (ci_counter c * nc + nc) with (S (ci_counter c) * nc) in A by lia.
            rewrite !bnd_refine in A by exact Hlt.
            unfold register in Hpv. rewrite Eo in Hpv. rewrite Hpv in A. exact A.
          + intros u v Hu Hv. apply in_concat in Hu. destruct Hu as (x & Hx & Hu).
            apply in_map_iff in Hx. destruct Hx as (t & <- & Ht). eauto. }
      split; [exact HB|]. apply HL, HB.
  Qed.
End Partition.
