(** * Block trees: proofs. *)

From Coq Require Import List Arith ZArith Bool Lia Permutation.
From Verif Require Import ClusterModel ClusterSpec ClusterProofs ClusterPartition ClusterMore IOModel IOSpec IOProofs
  BlockModel BlockSpec.
Import ListNotations.

Definition sumn (l : list nat) : nat := fold_right plus 0 l.
Definition b2n (b : bool) : nat := if b then 1 else 0.

Lemma sumn_app : forall a b, sumn (a ++ b) = sumn a + sumn b.
Proof. induction a as [|x a IH]; intros b; [reflexivity|]. cbn. rewrite IH. unfold sumn. lia. Qed.

Lemma count_app : forall A (f : A -> bool) a b, count f (a ++ b) = count f a + count f b.
Proof. intros. unfold count. rewrite filter_app, app_length. reflexivity. Qed.

Lemma count_concat : forall A (f : A -> bool) ls, count f (concat ls) = sumn (map (count f) ls).
Proof. intros A f. induction ls as [|l ls IH]; [reflexivity|]. cbn [concat map]. rewrite count_app, IH. reflexivity. Qed.

Lemma count_perm : forall A (f : A -> bool) a b, Permutation a b -> count f a = count f b.
Proof.
  intros A f a b H. unfold count. induction H; cbn [filter]; try lia.
  - destruct (f x); cbn; lia.
  - destruct (f x), (f y); reflexivity.
Qed.

Lemma sumn_concat : forall ls, sumn (concat ls) = sumn (map sumn ls).
Proof. induction ls as [|l ls IH]; [reflexivity|]. cbn [concat map]. rewrite sumn_app, IH. reflexivity. Qed.

Lemma sum_filter_le : forall A (ok : A -> bool) (v : A -> nat) l, sumn (map v (filter ok l)) <= sumn (map v l).
Proof. induction l as [|x l IH]; [reflexivity|]. cbn [filter map]. destruct (ok x); cbn [map sumn fold_right]; fold (sumn (map v l)); fold (sumn (map v (filter ok l))); lia. Qed.

Lemma sum_filter_eq : forall A (ok : A -> bool) (v : A -> nat) l, (forall x, In x l -> ok x = false -> v x = 0) ->
  sumn (map v (filter ok l)) = sumn (map v l).
Proof.
  intros A ok v. induction l as [|x l IH]; intros H; [reflexivity|]. cbn [filter map].
  assert (Q : sumn (map v (filter ok l)) = sumn (map v l)) by (apply IH; intros y Hy; apply H; right; exact Hy).
  destruct (ok x) eqn:E; cbn [map sumn fold_right]; fold (sumn (map v l)); fold (sumn (map v (filter ok l))).
  - lia.
  - rewrite (H x (or_introl eq_refl) E). lia.
Qed.

Lemma sum_in : forall lo hi l i, tiles lo hi (map interval l) ->
  sumn (map (fun k => b2n (in_iv i (interval k))) l) = b2n (in_iv i (lo, hi - lo)).
Proof.
  intros lo hi l. revert lo. induction l as [|k l IH]; intros lo i H.
  - cbn in H. subst hi. unfold in_iv. cbn [fst snd map sumn fold_right]. rewrite Nat.sub_diag, Nat.add_0_r.
    destruct (Nat.leb_spec lo i), (Nat.ltb_spec i lo); cbn [andb b2n]; try lia; reflexivity.
  - cbn [map] in H. destruct (interval k) as [o s] eqn:E. destruct H as [-> H].
    cbn [map sumn fold_right]. fold (sumn (map (fun k => b2n (in_iv i (interval k))) l)).
    rewrite (IH _ _ H), E. pose proof (tiles_le _ _ _ H) as Hle.
    unfold in_iv. cbn [fst snd].
    destruct (Nat.leb_spec lo i), (Nat.ltb_spec i (lo + s)), (Nat.leb_spec (lo + s) i),
      (Nat.ltb_spec i (lo + s + (hi - (lo + s)))), (Nat.ltb_spec i (lo + (hi - lo))); cbn; lia.
Qed.

Lemma sum_mul : forall A (v : A -> nat) c l, sumn (map (fun x => v x * c) l) = sumn (map v l) * c.
Proof. induction l as [|x l IH]; [reflexivity|]. cbn [map sumn fold_right]. fold (sumn (map v l)). fold (sumn (map (fun x => v x * c) l)). rewrite IH. lia. Qed.

Lemma sum_ext : forall A (f g : A -> nat) l, (forall x, In x l -> f x = g x) -> sumn (map f l) = sumn (map g l).
Proof. intros A f g l H. f_equal. apply map_ext_in, H. Qed.

Lemma b2n_and : forall a b, b2n (a && b) = b2n a * b2n b.
Proof. intros [] []; reflexivity. Qed.

(** Number of nodes. *)
Lemma nn_pos : forall t, 0 < nn t.
Proof. intros [c ts]. unfold nn. cbn. lia. Qed.

Lemma nn_child : forall t k, In k (ct_children t) -> nn k < nn t.
Proof.
  intros [c ts] k H. cbn in H. unfold nn. cbn [ct_nodes length].
  apply in_split in H. destruct H as (a & b & ->). rewrite map_app, concat_app. cbn [map concat].
  rewrite !app_length. lia.
Qed.

Lemma nn_node : forall t u, In u (ct_nodes t) -> nn u <= nn t.
Proof.
  intros t. induction t as [c ts IH] using ctree_ind'. intros u Hu.
  destruct (In_nodes_inv _ _ _ Hu) as [->|(k & Hk & Hu')]; [lia|].
  specialize (IH k Hk u Hu'). pose proof (nn_child (CNode c ts) k Hk). lia.
Qed.

Lemma nodes_trans : forall t u v, In u (ct_nodes t) -> In v (ct_nodes u) -> In v (ct_nodes t).
Proof.
  intros t. induction t as [c ts IH] using ctree_ind'. intros u v Hu Hv.
  destruct (In_nodes_inv _ _ _ Hu) as [->|(k & Hk & Hu')]; [exact Hv|].
  eapply In_nodes_child; [exact Hk|]. eapply IH; eauto.
Qed.

Lemma nodes_kid : forall t k, In k (ct_children t) -> In k (ct_nodes t).
Proof. intros [c ts] k H. eapply In_nodes_child; [exact H|]. apply In_nodes_root. Qed.

Lemma is_leaf_children : forall t, is_leaf t = true <-> ct_children t = [].
Proof. intros t. unfold is_leaf. destruct (ct_children t); split; congruence. Qed.

(** Blocks with a task, recursively. *)
Fixpoint tasks (b : btree) : list binfo :=
  match b with
  | RNode i cs => match b_task i with Some _ => [i] | None => concat (map tasks cs) end
  end.

Section Block.
  Variable B : bbuild.
  Variables T S : ctree.
  Hypothesis HT : partitioned T (bb_tparts B).
  Hypothesis HS : partitioned S (bb_sparts B).

  Notation tN t := (In t (ct_nodes T)).
  Notation sN s := (In s (ct_nodes S)).
  Notation removed := (removed B).
  Notation t_ok := (t_ok B).
  Notation in_part := (in_part B).

  Definition rowp (i : nat) : bool :=
    match bb_tpart B with
    | None => true
    | Some p => match nth_error (bb_tparts B) p with Some u => in_iv i (interval u) | None => false end
    end.
  Definition X (i j : nat) (ts : ctree * ctree) : nat :=
    b2n (in_iv i (interval (fst ts))) * (b2n (rowp i) * b2n (in_iv j (interval (snd ts)))).

  Definition NR (i j : nat) : Prop := forall t s, tN t -> sN s -> removed t s = true ->
    in_iv i (interval t) && in_iv j (interval s) = false.

  Lemma NR_X : forall i j t s, NR i j -> tN t -> sN s -> removed t s = true -> X i j (t, s) = 0.
  Proof.
    intros i j t s H Ht Hs Hr. specialize (H t s Ht Hs Hr). unfold X. cbn [fst snd].
    destruct (in_iv i (interval t)), (in_iv j (interval s)); cbn in *; try discriminate; lia.
  Qed.

  Lemma not_t_ok_X : forall i j t s, tN t -> t_ok t = false -> X i j (t, s) = 0.
  Proof.
    intros i j t s Ht H. unfold BlockModel.t_ok, BlockModel.in_part in H. unfold X. cbn [fst snd].
    destruct (in_iv i (interval t)) eqn:Ei; [|reflexivity]. unfold rowp.
    destruct (bb_tpart B) as [p|]; [|discriminate].
    apply orb_false_iff in H. destruct H as [H1 H2].
    apply Z.eqb_neq in H1. apply Z.ltb_ge in H2.
    destruct (pt_below _ _ HT t Ht H2) as [(v & Hv & Hsub) _].
    destruct (nth_error (bb_tparts B) p) as [u|] eqn:Eu; [|reflexivity].
    destruct (in_iv i (interval u)) eqn:Ej; [|reflexivity]. exfalso.
    pose proof (pt_disjoint _ _ HT _ _ _ _ i Eu Hv Ej (Hsub i Ei)). subst p. unfold c_rank in *. lia.
  Qed.

  Lemma in_part_row : forall i t, tN t -> in_part t = true -> (0 <= c_rank t)%Z -> in_iv i (interval t) = true -> rowp i = true.
  Proof.
    intros i t Ht H Hr Hi. unfold rowp. unfold BlockModel.in_part in H. destruct (bb_tpart B) as [p|]; [|reflexivity].
    apply Z.eqb_eq in H. destruct (pt_below _ _ HT t Ht Hr) as [(v & Hv & Hsub) _].
    unfold c_rank in H. rewrite <- H, Nat2Z.id in Hv. rewrite Hv. apply Hsub, Hi.
  Qed.

  Lemma task_X : forall i j t s, tN t -> in_part t = true -> (0 <= c_rank t)%Z ->
    b2n (in_iv i (interval t) && in_iv j (interval s)) = X i j (t, s).
  Proof.
    intros i j t s Ht Hp Hr. unfold X. cbn [fst snd]. rewrite b2n_and.
    destruct (in_iv i (interval t)) eqn:Ei; [|reflexivity]. rewrite (in_part_row i t Ht Hp Hr Ei). cbn. lia.
  Qed.

  Lemma leaf_rank : forall t, tN t -> is_leaf t = true -> (0 <= c_rank t)%Z.
  Proof.
    intros t Ht Hl. destruct (Z.ltb_spec (c_rank t) 0) as [Q|Q]; [|exact Q]. exfalso.
    apply (proj1 (pt_above _ _ HT t Ht Q)). apply is_leaf_children, Hl.
  Qed.

  Lemma t_ok_pos : forall t, t_ok t = true -> (0 <= c_rank t)%Z -> in_part t = true.
  Proof.
    intros t H Hr. unfold BlockModel.t_ok in H. apply orb_true_iff in H. destruct H as [H|H]; [exact H|].
    apply Z.ltb_lt in H. lia.
  Qed.

  Lemma node_tiles : forall R parts u, partitioned R parts -> In u (ct_nodes R) -> is_leaf u = false ->
    tiles (fst (interval u)) (fst (interval u) + snd (interval u)) (map interval (ct_children u)).
  Proof.
    intros R parts u H Hu Hl. destruct (pt_node _ _ H u Hu) as [Q|Q]; [|exact Q].
    apply is_leaf_children in Q. congruence.
  Qed.

  Lemma in_iv_whole : forall i u, in_iv i (fst (interval u), fst (interval u) + snd (interval u) - fst (interval u)) = in_iv i (interval u).
  Proof. intros i u. replace (fst (interval u) + snd (interval u) - fst (interval u)) with (snd (interval u)) by lia. destruct (interval u); reflexivity. Qed.

  (** *** The children lists *)

  Record kids_ok (t s : ctree) (l : list (ctree * ctree)) : Prop := {
    ko_node : forall k, In k l -> tN (fst k) /\ sN (snd k) /\ nn (fst k) + nn (snd k) < nn t + nn s;
    ko_ok : forall k, In k l -> t_ok (fst k) = true;
    ko_rem : forall k, In k l -> removed (fst k) (snd k) = false;
    ko_le : forall i j, sumn (map (X i j) l) <= X i j (t, s);
    ko_eq : forall i j, NR i j -> sumn (map (X i j) l) = X i j (t, s)
  }.

  Lemma X_t : forall i j l lo hi s, tiles lo hi (map interval l) ->
    sumn (map (fun k => X i j (k, s)) l) = b2n (in_iv i (lo, hi - lo)) * (b2n (rowp i) * b2n (in_iv j (interval s))).
  Proof.
    intros i j l lo hi s H. rewrite <- (sum_in lo hi l i H). rewrite <- sum_mul. apply sum_ext. intros x _. reflexivity.
  Qed.

  Lemma X_s : forall i j l lo hi t, tiles lo hi (map interval l) ->
    sumn (map (fun k => X i j (t, k)) l) = b2n (in_iv i (interval t)) * (b2n (rowp i) * b2n (in_iv j (lo, hi - lo))).
  Proof.
    intros i j l lo hi t H. rewrite <- (sum_in lo hi l j H). rewrite !Nat.mul_assoc. rewrite (Nat.mul_comm _ (sumn _)).
    rewrite <- sum_mul. apply sum_ext. intros x _. unfold X. cbn [fst snd]. lia.
  Qed.

  Lemma split_t_gen : forall t s (l : list ctree) (extra : ctree -> bool), tN t -> sN s ->
    (forall k, In k l -> extra k = true -> tN k /\ nn k < nn t) ->
    tiles (fst (interval t)) (fst (interval t) + snd (interval t)) (map interval (filter extra l)) ->
    kids_ok t s (map (fun k => (k, s)) (filter (fun k => t_ok k && negb (removed k s) && extra k) l)).
  Proof.
    intros t s l extra Ht Hs Hk Htl.
    assert (Hff : filter (fun k => t_ok k && negb (removed k s) && extra k) l =
                  filter (fun k => t_ok k && negb (removed k s)) (filter extra l)).
    { clear. induction l as [|x l IH]; [reflexivity|]. cbn [filter].
      destruct (extra x); cbn [filter]; destruct (t_ok x && negb (removed x s)); cbn [andb]; rewrite ?IH; reflexivity. }
    rewrite Hff. set (l' := filter extra l) in *.
    assert (Hk' : forall k, In k l' -> tN k /\ nn k < nn t).
    { intros k Q. apply filter_In in Q. destruct Q. auto. }
    assert (HX : forall i j, sumn (map (fun k => X i j (k, s)) l') = X i j (t, s)).
    { intros i j. rewrite (X_t i j l' _ _ s Htl). rewrite in_iv_whole. reflexivity. }
    split.
    - intros k Hin. apply in_map_iff in Hin. destruct Hin as (x & <- & Hx). cbn [fst snd].
      apply filter_In in Hx. destruct (Hk' x (proj1 Hx)). repeat split; auto. lia.
    - intros k Hin. apply in_map_iff in Hin. destruct Hin as (x & <- & Hx). cbn [fst snd].
      apply filter_In in Hx. destruct Hx as [_ Hx]. apply andb_true_iff in Hx. apply Hx.
    - intros k Hin. apply in_map_iff in Hin. destruct Hin as (x & <- & Hx). cbn [fst snd].
      apply filter_In in Hx. destruct Hx as [_ Hx]. apply andb_true_iff in Hx. destruct Hx as [_ Hx].
      apply negb_true_iff in Hx. exact Hx.
    - intros i j. rewrite map_map, <- HX. apply sum_filter_le.
    - intros i j Hnr. rewrite map_map, <- HX. apply sum_filter_eq. intros k Hin Hf.
      destruct (Hk' k Hin) as [Hkn _]. apply andb_false_iff in Hf. destruct Hf as [Hf|Hf].
      + apply not_t_ok_X; assumption.
      + apply negb_false_iff in Hf. apply NR_X; assumption.
  Qed.

  Lemma filter_true : forall A (l : list A), filter (fun _ => true) l = l.
  Proof. induction l as [|x l IH]; [reflexivity|]. cbn. rewrite IH. reflexivity. Qed.

  Lemma split_t_ok : forall t s, tN t -> sN s -> is_leaf t = false -> kids_ok t s (split_t B t s).
  Proof.
    intros t s Ht Hs Hl. unfold split_t.
    pose proof (split_t_gen t s (ct_children t) (fun _ => true) Ht Hs) as Q. cbv beta in Q.
    assert (E : filter (fun k => t_ok k && negb (removed k s) && true) (ct_children t) =
                filter (fun k => t_ok k && negb (removed k s)) (ct_children t)).
    { apply filter_ext. intros k. apply andb_true_r. }
    rewrite E, filter_true in Q. apply Q.
    - intros k Hk _. split; [eapply nodes_trans; [exact Ht|apply nodes_kid, Hk]|apply nn_child, Hk].
    - eapply node_tiles; [exact HT|exact Ht|exact Hl].
  Qed.

  Lemma split_t_parts_ok : forall t s, tN t -> sN s -> (c_rank t < 0)%Z -> kids_ok t s (split_t_parts B t s).
  Proof.
    intros t s Ht Hs Hr. destruct (pt_above _ _ HT t Ht Hr) as (_ & Hd & _ & Htl).
    apply split_t_gen; auto. intros k Hk Hc.
    destruct (Hd k) as (c & Hc' & Hin); [apply filter_In; auto|].
    pose proof (nn_child t c Hc'). pose proof (nn_node c k Hin).
    split; [|lia]. eapply nodes_trans; [exact Ht|]. eapply nodes_trans; [apply nodes_kid, Hc'|exact Hin].
  Qed.

  Lemma split_s_gen : forall t s (l : list ctree) (extra : ctree -> bool), tN t -> sN s -> t_ok t = true ->
    (forall k, In k l -> extra k = true -> sN k /\ nn k < nn s) ->
    tiles (fst (interval s)) (fst (interval s) + snd (interval s)) (map interval (filter extra l)) ->
    kids_ok t s (map (fun k => (t, k)) (filter (fun k => negb (removed t k) && extra k) l)).
  Proof.
    intros t s l extra Ht Hs Hok Hk Htl.
    assert (Hff : filter (fun k => negb (removed t k) && extra k) l = filter (fun k => negb (removed t k)) (filter extra l)).
    { clear. induction l as [|x l IH]; [reflexivity|]. cbn [filter].
      destruct (extra x); cbn [filter]; destruct (negb (removed t x)); cbn [andb]; rewrite ?IH; reflexivity. }
    rewrite Hff. set (l' := filter extra l) in *.
    assert (Hk' : forall k, In k l' -> sN k /\ nn k < nn s).
    { intros k Q. apply filter_In in Q. destruct Q. auto. }
    assert (HX : forall i j, sumn (map (fun k => X i j (t, k)) l') = X i j (t, s)).
    { intros i j. rewrite (X_s i j l' _ _ t Htl). rewrite in_iv_whole. reflexivity. }
    split.
    - intros k Hin. apply in_map_iff in Hin. destruct Hin as (x & <- & Hx). cbn [fst snd].
      apply filter_In in Hx. destruct (Hk' x (proj1 Hx)). repeat split; auto. lia.
    - intros k Hin. apply in_map_iff in Hin. destruct Hin as (x & <- & Hx). exact Hok.
    - intros k Hin. apply in_map_iff in Hin. destruct Hin as (x & <- & Hx). cbn [fst snd].
      apply filter_In in Hx. destruct Hx as [_ Hx]. apply negb_true_iff in Hx. exact Hx.
    - intros i j. rewrite map_map, <- HX. apply sum_filter_le.
    - intros i j Hnr. rewrite map_map, <- HX. apply sum_filter_eq. intros k Hin Hf.
      destruct (Hk' k Hin) as [Hkn _]. apply negb_false_iff in Hf. apply NR_X; assumption.
  Qed.

  Lemma split_s_ok : forall t s, tN t -> sN s -> t_ok t = true -> is_leaf s = false -> kids_ok t s (split_s B t s).
  Proof.
    intros t s Ht Hs Hok Hl. unfold split_s.
    pose proof (split_s_gen t s (ct_children s) (fun _ => true) Ht Hs Hok) as Q. cbv beta in Q.
    assert (E : filter (fun k => negb (removed t k) && true) (ct_children s) =
                filter (fun k => negb (removed t k)) (ct_children s)).
    { apply filter_ext. intros k. apply andb_true_r. }
    rewrite E, filter_true in Q. apply Q.
    - intros k Hk _. split; [eapply nodes_trans; [exact Hs|apply nodes_kid, Hk]|apply nn_child, Hk].
    - eapply node_tiles; [exact HS|exact Hs|exact Hl].
  Qed.

  Lemma split_s_checked_ok : forall t s, tN t -> sN s -> t_ok t = true -> is_leaf s = false -> kids_ok t s (split_s_checked B t s).
  Proof.
    intros t s Ht Hs Hok Hl. pose proof (split_s_ok t s Ht Hs Hok Hl) as Q. unfold split_s_checked, split_s in *.
    rewrite (filter_ext _ (fun k => negb (removed t k))); [exact Q|]. intros k. rewrite Hok. reflexivity.
  Qed.

  Lemma split_s_parts_ok : forall t s, tN t -> sN s -> t_ok t = true -> (c_rank s < 0)%Z -> kids_ok t s (split_s_parts B t s).
  Proof.
    intros t s Ht Hs Hok Hr. destruct (pt_above _ _ HS s Hs Hr) as (_ & Hd & _ & Htl).
    apply split_s_gen; auto. intros k Hk Hc.
    destruct (Hd k) as (c & Hc' & Hin); [apply filter_In; auto|].
    pose proof (nn_child s c Hc'). pose proof (nn_node c k Hin).
    split; [|lia]. eapply nodes_trans; [exact Hs|]. eapply nodes_trans; [apply nodes_kid, Hc'|exact Hin].
  Qed.

  Lemma split_ts_ok : forall t s, tN t -> sN s -> is_leaf t = false -> is_leaf s = false -> kids_ok t s (split_ts B t s).
  Proof.
    intros t s Ht Hs Hlt Hls. unfold split_ts.
    assert (Hin : forall k, In k (concat (map (fun k => map (fun l => (k, l)) (filter (fun l => t_ok k && negb (removed k l)) (ct_children s))) (ct_children t))) ->
       In (fst k) (ct_children t) /\ In (snd k) (ct_children s) /\ t_ok (fst k) = true /\ removed (fst k) (snd k) = false).
    { intros k Hk. apply in_concat in Hk. destruct Hk as (x & Hx & Hk). apply in_map_iff in Hx.
      destruct Hx as (a & <- & Ha). apply in_map_iff in Hk. destruct Hk as (b & <- & Hb). cbn [fst snd].
      apply filter_In in Hb. destruct Hb as [Hb Q]. apply andb_true_iff in Q. destruct Q as [Q1 Q2].
      apply negb_true_iff in Q2. auto. }
    pose proof (node_tiles T _ t HT Ht Hlt) as Tt. pose proof (node_tiles S _ s HS Hs Hls) as Ts.
    assert (HX : forall i j, sumn (map (fun k => sumn (map (fun l => X i j (k, l)) (ct_children s))) (ct_children t)) = X i j (t, s)).
    { intros i j. rewrite (sum_ext _ _ (fun k => X i j (k, s))).
      - rewrite (X_t i j _ _ _ s Tt). rewrite in_iv_whole. reflexivity.
      - intros k _. rewrite (X_s i j _ _ _ k Ts). rewrite in_iv_whole. reflexivity. }
    assert (HY : forall i j, sumn (map (X i j) (concat (map (fun k => map (fun l => (k, l)) (filter (fun l => t_ok k && negb (removed k l)) (ct_children s))) (ct_children t))))
      = sumn (map (fun k => sumn (map (fun l => X i j (k, l)) (filter (fun l => t_ok k && negb (removed k l)) (ct_children s)))) (ct_children t))).
    { intros i j. rewrite concat_map, sumn_concat, !map_map. apply sum_ext. intros k _. rewrite map_map. reflexivity. }
    split.
    - intros k Hk. destruct (Hin k Hk) as (A & C & _).
      pose proof (nn_child _ _ A). pose proof (nn_child _ _ C). repeat split.
      + eapply nodes_trans; [exact Ht|apply nodes_kid, A].
      + eapply nodes_trans; [exact Hs|apply nodes_kid, C].
      + lia.
    - intros k Hk. apply (Hin k Hk).
    - intros k Hk. apply (Hin k Hk).
    - intros i j. rewrite HY, <- HX.
      generalize (ct_children t). intros L. induction L as [|k L IH]; [reflexivity|].
      cbn [map sumn fold_right]. unfold sumn in *. 
      pose proof (sum_filter_le _ (fun l => t_ok k && negb (removed k l)) (fun l => X i j (k, l)) (ct_children s)) as Q.
      unfold sumn in Q. lia.
    - intros i j Hnr. rewrite HY, <- HX. apply sum_ext. intros k Hk. apply sum_filter_eq. intros l Hl Hf.
      assert (Hkn : tN k) by (eapply nodes_trans; [exact Ht|apply nodes_kid, Hk]).
      assert (Hln : sN l) by (eapply nodes_trans; [exact Hs|apply nodes_kid, Hl]).
      apply andb_false_iff in Hf. destruct Hf as [Hf|Hf].
      + apply not_t_ok_X; assumption.
      + apply negb_false_iff in Hf. apply NR_X; assumption.
  Qed.

  Lemma branch_kids : forall t s l, tN t -> sN s -> t_ok t = true -> branch B t s = inr l -> kids_ok t s l.
  Proof.
    intros t s l Ht Hs Hok H. unfold branch in H.
    destruct (low_rank_task B t s); [discriminate|].
    destruct (is_leaf s) eqn:Ls, (is_leaf t) eqn:Lt; cbn [andb] in H; try discriminate.
    - injection H as <-. apply split_t_ok; auto.
    - injection H as <-. apply split_s_ok; auto.
    - destruct (bb_cons B).
      + destruct ((c_rank t <? 0)%Z && (0 <=? c_rank s)%Z) eqn:E1.
        { injection H as <-. apply andb_true_iff in E1. destruct E1 as [E1 _]. apply Z.ltb_lt in E1. apply split_t_parts_ok; auto. }
        destruct ((c_rank s <? 0)%Z && (0 <=? c_rank t)%Z) eqn:E2.
        { injection H as <-. apply andb_true_iff in E2. destruct E2 as [E2 _]. apply Z.ltb_lt in E2. apply split_s_parts_ok; auto. }
        injection H as <-. apply split_ts_ok; auto.
      + destruct (c_rank t <? 0)%Z eqn:E1.
        { injection H as <-. apply Z.ltb_lt in E1. apply split_t_parts_ok; auto. }
        destruct (c_size t <? c_size s).
        { injection H as <-. apply split_s_checked_ok; auto. }
        destruct (c_size s <? c_size t); injection H as <-; [apply split_t_ok|apply split_ts_ok]; auto.
  Qed.

  Lemma branch_task : forall t s k, tN t -> sN s -> t_ok t = true -> branch B t s = inl k ->
    in_part t = true /\ (0 <= c_rank t)%Z.
  Proof.
    intros t s k Ht Hs Hok H. unfold branch in H.
    destruct (low_rank_task B t s) eqn:E.
    - unfold low_rank_task in E. repeat (apply andb_true_iff in E; destruct E as [E ?]).
      split; [assumption|]. apply Z.leb_le. assumption.
    - destruct (is_leaf s) eqn:Ls, (is_leaf t) eqn:Lt; cbn [andb] in H; try discriminate.
      + pose proof (leaf_rank t Ht Lt). split; [apply t_ok_pos; auto|auto].
      + destruct (bb_cons B).
        * destruct ((c_rank t <? 0)%Z && (0 <=? c_rank s)%Z); [discriminate|].
          destruct ((c_rank s <? 0)%Z && (0 <=? c_rank t)%Z); discriminate.
        * destruct (c_rank t <? 0)%Z; [discriminate|]. destruct (c_size t <? c_size s); [discriminate|].
          destruct (c_size s <? c_size t); discriminate.
  Qed.

  Lemma omap_Forall2 : forall A C (f : A -> option C) l r, omap f l = Some r -> Forall2 (fun x y => f x = Some y) l r.
  Proof.
    induction l as [|x l IH]; intros r H; cbn in H.
    - injection H as <-. constructor.
    - destruct (f x) eqn:E; [|discriminate]. destruct (omap f l) eqn:E2; [|discriminate]. injection H as <-.
      constructor; auto.
  Qed.

  Lemma omap_total : forall A C (f : A -> option C) l, (forall x, In x l -> exists y, f x = Some y) -> exists r, omap f l = Some r.
  Proof.
    induction l as [|x l IH]; intros H; [exists []; reflexivity|].
    destruct (H x (or_introl eq_refl)) as [y Hy]. destruct IH as [r Hr]; [intros z Hz; apply H; right; exact Hz|].
    exists (y :: r). cbn. rewrite Hy, Hr. reflexivity.
  Qed.

  Lemma build_total : forall fuel t s, tN t -> sN s -> t_ok t = true -> nn t + nn s <= fuel ->
    exists b, build_block_tree B fuel t s = Some b.
  Proof.
    induction fuel as [|f IH]; intros t s Ht Hs Hok Hf.
    - pose proof (nn_pos t). lia.
    - cbn [build_block_tree]. destruct (branch B t s) as [k|l] eqn:E; [eexists; reflexivity|].
      pose proof (branch_kids t s l Ht Hs Hok E) as K.
      destruct (omap_total _ _ (fun ts => build_block_tree B f (fst ts) (snd ts)) l) as [r Hr].
      { intros x Hx. destruct (ko_node _ _ _ K x Hx) as (A & C & D). apply IH; auto; [apply (ko_ok _ _ _ K x Hx)|lia]. }
      rewrite Hr. eexists; reflexivity.
  Qed.

  (** Induction principle on the built tree. *)
  Lemma build_ind : forall (Q : ctree -> ctree -> btree -> Prop),
    (forall t s k, tN t -> sN s -> t_ok t = true -> branch B t s = inl k ->
       Q t s (RNode (mkBinfo t s (Some k) (has_sym B t s)) [])) ->
    (forall t s l bs, tN t -> sN s -> t_ok t = true -> branch B t s = inr l -> kids_ok t s l ->
       Forall2 (fun ts b => Q (fst ts) (snd ts) b) l bs ->
       Q t s (RNode (mkBinfo t s None (has_sym B t s)) bs)) ->
    forall fuel t s b, tN t -> sN s -> t_ok t = true -> build_block_tree B fuel t s = Some b -> Q t s b.
  Proof.
    intros Q H1 H2. induction fuel as [|f IH]; intros t s b Ht Hs Hok H; [discriminate|].
    cbn [build_block_tree] in H. destruct (branch B t s) as [k|l] eqn:E.
    - injection H as <-. apply H1; auto.
    - destruct (omap _ l) as [bs|] eqn:Eo; [|discriminate]. injection H as <-.
      pose proof (branch_kids t s l Ht Hs Hok E) as K.
      eapply H2; eauto. apply omap_Forall2 in Eo.
      pose proof (ko_node _ _ _ K) as K1. pose proof (ko_ok _ _ _ K) as K2. clear - Eo K1 K2 IH.
      induction Eo as [|x y l bs Hxy Hr IHr]; constructor.
      + destruct (K1 x (or_introl eq_refl)) as (A & C & _). apply IH; auto. apply K2. left; reflexivity.
      + apply IHr; intros; [apply K1|apply K2]; right; assumption.
  Qed.

  Definition cnt (i j : nat) (b : btree) : nat := count (covers i j) (tasks b).

  Lemma tasks_sub : forall t s y bs i j, cnt i j (RNode (mkBinfo t s None y) bs) = sumn (map (cnt i j) bs).
  Proof. intros. unfold cnt. cbn [tasks b_task]. rewrite count_concat, map_map. reflexivity. Qed.

  Lemma build_count : forall fuel t s b, tN t -> sN s -> t_ok t = true -> build_block_tree B fuel t s = Some b ->
    forall i j, cnt i j b <= X i j (t, s) /\ (NR i j -> cnt i j b = X i j (t, s)).
  Proof.
    apply (build_ind (fun t s b => forall i j, cnt i j b <= X i j (t, s) /\ (NR i j -> cnt i j b = X i j (t, s)))).
    - intros t s k Ht Hs Hok Hb i j.
      destruct (branch_task t s k Ht Hs Hok Hb) as [Hp Hr].
      assert (E : cnt i j (RNode (mkBinfo t s (Some k) (has_sym B t s)) []) = X i j (t, s)).
      { rewrite <- (task_X i j t s Ht Hp Hr). unfold cnt, count, covers. cbn [tasks b_task filter b_t b_s].
        destruct (in_iv i (interval t) && in_iv j (interval s)); reflexivity. }
      rewrite E. split; auto.
    - intros t s l bs Ht Hs Hok Hb K F i j. rewrite tasks_sub.
      assert (A : sumn (map (cnt i j) bs) <= sumn (map (X i j) l) /\ (NR i j -> sumn (map (cnt i j) bs) = sumn (map (X i j) l))).
      { clear - F. induction F as [|[t s] b l bs H F [IH1 IH2]]; [split; auto|].
        cbn [map sumn fold_right]. unfold sumn in *. cbn [fst snd] in H. destruct (H i j) as [H1 H2]. split; [lia|].
        intros Hnr. rewrite (H2 Hnr), (IH2 Hnr). reflexivity. }
      pose proof (ko_le _ _ _ K i j). pose proof (ko_eq _ _ _ K i j). destruct A as [A1 A2]. split; [lia|].
      intros Hnr. rewrite (A2 Hnr). auto.
  Qed.

  (** What is known of every node of the block tree. *)
  Definition node_facts (b : btree) : Prop :=
    let i := rt_val b in
    tN (b_t i) /\ sN (b_s i) /\ t_ok (b_t i) = true /\ b_sym i = has_sym B (b_t i) (b_s i) /\
    match b_task i with
    | Some k => rt_children b = [] /\ branch B (b_t i) (b_s i) = inl k /\ in_part (b_t i) = true /\ (0 <= c_rank (b_t i))%Z
    | None => exists l, branch B (b_t i) (b_s i) = inr l /\ map (fun c => (b_t (rt_val c), b_s (rt_val c))) (rt_children b) = l
    end.

  Lemma build_facts : forall fuel t s b, tN t -> sN s -> t_ok t = true -> build_block_tree B fuel t s = Some b ->
    b_t (rt_val b) = t /\ b_s (rt_val b) = s /\ forall u, In u (preorder b) -> node_facts u.
  Proof.
    apply (build_ind (fun t s b => b_t (rt_val b) = t /\ b_s (rt_val b) = s /\ forall u, In u (preorder b) -> node_facts u)).
    - intros t s k Ht Hs Hok Hb. split; [reflexivity|split; [reflexivity|]]. intros u [<-|[]].
      unfold node_facts. cbn. destruct (branch_task t s k Ht Hs Hok Hb). repeat split; auto.
    - intros t s l bs Ht Hs Hok Hb K F. split; [reflexivity|split; [reflexivity|]]. intros u Hu. rewrite preorder_eq in Hu.
      destruct Hu as [<-|Hu].
      + unfold node_facts. cbn. repeat split; auto. exists l. split; [exact Hb|].
        clear - F. induction F as [|[t s] b l bs (H1 & H2 & _) F IH]; [reflexivity|]. cbn [map].
        cbn [fst snd] in *. rewrite IH, H1, H2. reflexivity.
      + cbn [rt_children] in Hu. apply in_concat in Hu. destruct Hu as (x & Hx & Hu). apply in_map_iff in Hx.
        destruct Hx as (b & <- & Hb'). clear - F Hu Hb'. induction F as [|ts b' l bs (_ & _ & H) F IH]; [contradiction|].
        destruct Hb' as [->|Hb']; auto.
  Qed.

  (** *** Leaves of a tree *)

  Fixpoint rleaves (b : btree) : list binfo :=
    match b with
    | RNode i [] => [i]
    | RNode i cs => concat (map rleaves cs)
    end.

  Fixpoint sleaves (anc : bool) (b : btree) : list binfo :=
    match b with
    | RNode i cs =>
        (match cs with [] => if anc && negb (c_off (b_t i) =? c_off (b_s i)) then [i] else [] | _ => [] end)
        ++ concat (map (sleaves (b_sym i || anc)) cs)
    end.

  Lemma rleaves_eq : forall i cs, rleaves (RNode i cs) = match cs with [] => [i] | _ => [] end ++ concat (map rleaves cs).
  Proof. intros i [|c cs]; reflexivity. Qed.

  Lemma leaves_run_ok : forall fuel stack lv sy L Y, leaves_run fuel stack lv sy = Some (L, Y) ->
    Permutation L (lv ++ concat (map (fun p => rleaves (fst p)) stack)) /\
    Permutation Y (sy ++ concat (map (fun p => sleaves (snd p) (fst p)) stack)).
  Proof.
    induction fuel as [|f IH]; intros stack lv sy L Y H.
    - destruct stack as [|[b a] st]; [|discriminate]. cbn in H. injection H as <- <-. cbn. rewrite !app_nil_r. auto.
    - destruct stack as [|[b anc] st]; [cbn in H; injection H as <- <-; cbn; rewrite !app_nil_r; auto|].
      cbn [leaves_run] in H. apply IH in H. destruct H as [H1 H2]. destruct b as [i cs]. cbn [rt_val rt_children] in *.
      split.
      + rewrite H1. cbn [map concat fst]. rewrite rleaves_eq. rewrite map_app, concat_app.
        assert (P1 : Permutation (concat (map (fun p => rleaves (fst p)) (rev (map (fun c => (c, b_sym i || anc)) cs)))) (concat (map rleaves cs))).
        { rewrite map_rev, map_map. cbn [fst]. clear. change (map (fun x => rleaves x) cs) with (map rleaves cs). generalize (map rleaves cs). intros l.
          induction l as [|x l IH]; [reflexivity|]. cbn [rev concat]. rewrite concat_app. cbn [concat]. rewrite app_nil_r, IH.
          apply Permutation_app_comm. }
        rewrite P1. destruct cs as [|c cs]; cbn [map concat app]; rewrite <- ?app_assoc; reflexivity.
      + rewrite H2. cbn [map concat fst snd sleaves]. rewrite map_app, concat_app.
        assert (P1 : Permutation (concat (map (fun p => sleaves (snd p) (fst p)) (rev (map (fun c => (c, b_sym i || anc)) cs)))) (concat (map (sleaves (b_sym i || anc)) cs))).
        { rewrite map_rev, map_map. cbn [fst snd]. clear. change (map (fun x => sleaves (b_sym i || anc) x) cs) with (map (sleaves (b_sym i || anc)) cs). generalize (map (sleaves (b_sym i || anc)) cs). intros l.
          induction l as [|x l IH]; [reflexivity|]. cbn [rev concat]. rewrite concat_app. cbn [concat]. rewrite app_nil_r, IH.
          apply Permutation_app_comm. }
        rewrite P1. destruct cs as [|c cs]; cbn [map concat app andb].
        * destruct (anc && negb (c_off (b_t i) =? c_off (b_s i))); rewrite <- ?app_assoc; reflexivity.
        * rewrite <- ?app_assoc; reflexivity.
  Qed.

  Lemma leaves_run_total : forall fuel stack lv sy,
    sumn (map (fun p => length (preorder (fst p))) stack) <= fuel -> exists r, leaves_run fuel stack lv sy = Some r.
  Proof.
    induction fuel as [|f IH]; intros stack lv sy H.
    - destruct stack as [|[b a] st]; [eexists; reflexivity|]. cbn [map sumn fold_right fst] in H.
      rewrite preorder_eq in H. cbn in H. lia.
    - destruct stack as [|[b a] st]; [eexists; reflexivity|]. cbn [leaves_run]. apply IH.
      cbn [map sumn fold_right fst] in H. fold (sumn (map (fun p : btree * bool => length (preorder (fst p))) st)) in H.
      rewrite preorder_eq in H. cbn [length] in H. rewrite map_app, sumn_app.
      assert (E : sumn (map (fun p : btree * bool => length (preorder (fst p))) (rev (map (fun c => (c, b_sym (rt_val b) || a)) (rt_children b))))
        = length (concat (map preorder (rt_children b)))).
      { rewrite map_rev, map_map. cbn [fst]. clear. generalize (rt_children b). intros l.
        induction l as [|x l IH]; [reflexivity|]. cbn [map rev concat]. rewrite sumn_app, app_length, IH. cbn. lia. }
      eapply Nat.le_trans; [apply Nat.add_le_mono_r, Nat.eq_le_incl; exact E|]. clear E. revert H. generalize (length (concat (map preorder (rt_children b)))).
      unfold sumn in *. intros. lia.
  Qed.

  (** *** Reset of the root *)

  Lemma reset_run_ok : forall p fuel stack acc r,
    (forall b u, In b stack -> In u (preorder b) -> node_facts u) ->
    (forall b, In b stack -> (c_rank (b_t (rt_val b)) < 0)%Z) ->
    (forall t, t_ok t = true -> c_rank t = Z.of_nat p \/ (c_rank t < 0)%Z) ->
    reset_run fuel p stack acc = Some r ->
    Permutation (concat (map tasks r)) (concat (map tasks acc) ++ concat (map tasks stack)) /\
    (forall b, In b r -> In b acc \/ (c_rank (b_t (rt_val b)) = Z.of_nat p /\ forall u, In u (preorder b) -> node_facts u)).
  Proof.
    intros p. induction fuel as [|f IH]; intros stack acc r HF HR HP H.
    - destruct stack; [|discriminate]. cbn in H. injection H as <-. cbn. rewrite app_nil_r. auto.
    - destruct stack as [|b st]; [cbn in H; injection H as <-; cbn; rewrite app_nil_r; auto|].
      cbn [reset_run] in H. set (here := fun c : btree => (c_rank (b_t (rt_val c)) =? Z.of_nat p)%Z) in *.
      assert (HFb : node_facts b). { apply (HF b); [left; reflexivity|]. rewrite preorder_eq. left; reflexivity. }
      assert (HRb := HR b (or_introl eq_refl)).
      assert (Hsub : forall c, In c (rt_children b) -> forall u, In u (preorder c) -> node_facts u).
      { intros c Hc u Hu. apply (HF b); [left; reflexivity|]. rewrite preorder_eq. right. apply in_concat.
        exists (preorder c). split; [apply in_map, Hc|exact Hu]. }
      assert (Hcf : forall c, In c (rt_children b) -> node_facts c).
      { intros c Hc. apply (Hsub c Hc). rewrite preorder_eq. left; reflexivity. }
      apply IH in H.
      + destruct H as [H1 H2]. split.
        * rewrite H1. rewrite !map_app, !concat_app. cbn [map concat].
          assert (Eb : tasks b = concat (map tasks (rt_children b))).
          { destruct b as [i cs]. cbn [rt_children rt_val] in *. cbn [tasks].
            destruct HFb as (_ & _ & _ & _ & Q). cbn [rt_val] in Q. destruct (b_task i); [|reflexivity].
            destruct Q as (_ & _ & _ & Q). lia. }
          rewrite Eb, <- !app_assoc. apply Permutation_app_head.
          rewrite !app_assoc. apply Permutation_app_tail.
          rewrite map_rev.
          assert (Pr : Permutation (concat (rev (map tasks (filter (fun c => negb (here c)) (rt_children b)))))
                                   (concat (map tasks (filter (fun c => negb (here c)) (rt_children b))))).
          { generalize (map tasks (filter (fun c => negb (here c)) (rt_children b))). clear. intros l.
            induction l as [|x l IH]; [reflexivity|]. cbn [rev concat]. rewrite concat_app. cbn [concat].
            rewrite app_nil_r, IH. apply Permutation_app_comm. }
          etransitivity; [apply Permutation_app_head; exact Pr|]. clear. induction (rt_children b) as [|c cs IH]; [reflexivity|].
          cbn [filter]. destruct (here c); cbn [negb map concat].
          -- rewrite <- app_assoc. rewrite IH. reflexivity.
          -- rewrite <- IH. rewrite !app_assoc. apply Permutation_app_tail, Permutation_app_comm.
        * intros x Hx. destruct (H2 x Hx) as [Q|Q]; [|right; exact Q].
          apply in_app_or in Q. destruct Q as [Q|Q]; [left; exact Q|right].
          apply filter_In in Q. destruct Q as [Q1 Q2]. split; [apply Z.eqb_eq, Q2|apply Hsub, Q1].
      + intros c u Hc Hu. apply in_app_or in Hc. destruct Hc as [Hc|Hc].
        * apply in_rev in Hc. apply filter_In in Hc. eapply Hsub; [apply Hc|exact Hu].
        * apply (HF c); [right; exact Hc|exact Hu].
      + intros c Hc. apply in_app_or in Hc. destruct Hc as [Hc|Hc].
        * apply in_rev in Hc. apply filter_In in Hc. destruct Hc as [Hc Hn].
          unfold here in Hn. apply negb_true_iff, Z.eqb_neq in Hn.
          destruct (Hcf c Hc) as (_ & _ & Hok & _). destruct (HP _ Hok); [contradiction|assumption].
        * apply HR. right; exact Hc.
      + exact HP.
  Qed.

  Lemma reset_run_total : forall p fuel stack acc, sumn (map (fun b => length (preorder b)) stack) <= fuel ->
    exists r, reset_run fuel p stack acc = Some r.
  Proof.
    intros p. induction fuel as [|f IH]; intros stack acc H.
    - destruct stack as [|b st]; [eexists; reflexivity|]. cbn [map sumn fold_right] in H.
      rewrite preorder_eq in H. cbn in H. lia.
    - destruct stack as [|b st]; [eexists; reflexivity|]. cbn [reset_run]. apply IH.
      cbn [map sumn fold_right] in H. fold (sumn (map (fun b : btree => length (preorder b)) st)) in H.
      rewrite preorder_eq in H. cbn [length] in H. rewrite map_app, sumn_app.
      assert (E : forall g, sumn (map (fun b : btree => length (preorder b)) (rev (filter g (rt_children b))))
        <= length (concat (map preorder (rt_children b)))).
      { intros g. rewrite map_rev.
        assert (Er : forall l, sumn (rev l) = sumn l).
        { clear. induction l as [|x l IH]; [reflexivity|]. cbn [rev]. rewrite sumn_app, IH. cbn. unfold sumn. lia. }
        rewrite Er. clear. induction (rt_children b) as [|c cs IH]; [cbn; lia|]. cbn [filter map concat].
        rewrite app_length. destruct (g c); cbn [map sumn fold_right]; unfold sumn in *; lia. }
      specialize (E (fun c => negb (c_rank (b_t (rt_val c)) =? Z.of_nat p)%Z)). lia.
  Qed.
End Block.
