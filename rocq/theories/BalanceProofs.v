(** * Sizes, depths and number of the clusters of a tree whose nodes are divided evenly: proofs (property C82). *)

From Coq Require Import List Arith ZArith Bool Lia Permutation.
From Verif Require Import ClusterModel ClusterSpec ClusterProofs ClusterPartition ClusterMore ClusterFinal ClusterIO ClusterDepth.
Import ListNotations.

(** One node divided by RegularSplitting into [m] children (C05). *)
Definition even (m mn : nat) (v : ctree) : Prop :=
  depth_ok v /\ (ct_children v = [] -> ci_size (ct_info v) / m <= mn) /\
  (ct_children v <> [] -> mn < ci_size (ct_info v) / m) /\
  forall k, In k (ct_children v) -> ci_size (ct_info v) / m <= ci_size (ct_info k) <= ci_size (ct_info v) / m + ci_size (ct_info v) mod m.

Section Even.
  Variables m mn : nat.
  Hypothesis Hm : 2 <= m.

  Lemma pow_pos : forall j, 1 <= m ^ j.
  Proof. intros j. pose proof (Nat.pow_nonzero m j). lia. Qed.

  Lemma child_upper : forall v k, even m mn v -> In k (ct_children v) -> m * ci_size (ct_info k) + 2 * m <= ci_size (ct_info v) + m * m + 1.
  Proof.
    intros v k (_ & _ & _ & H) Hk. destruct (H k Hk) as [_ H2]. pose proof (Nat.div_mod (ci_size (ct_info v)) m ltac:(lia)). pose proof (Nat.mod_upper_bound (ci_size (ct_info v)) m ltac:(lia)). nia.
  Qed.

  Lemma even_sizes : forall p, (forall v, In v (ct_nodes p) -> even m mn v) -> forall u, In u (ct_nodes p) ->
    exists j, ci_depth (ct_info u) = ci_depth (ct_info p) + j /\ ci_size (ct_info p) / m ^ j <= ci_size (ct_info u) /\
      m ^ j * ci_size (ct_info u) + m <= ci_size (ct_info p) + (m - 1) * m ^ j + 1.
  Proof.
    intros p. induction p as [c ts IH] using ctree_ind'. intros H u Hu. destruct (In_nodes_inv _ _ _ Hu) as [->|(t & Ht & Hu')].
    - exists 0. cbn [Nat.pow]. rewrite Nat.div_1_r. lia.
    - pose proof (H _ (In_nodes_root _)) as E0. assert (Hk : In t (ct_children (CNode c ts))) by exact Ht.
      destruct (IH t Ht) with (u := u) as (j & D & L & U); [|exact Hu'|].
      { intros v Hv. apply H. cbn [ct_nodes]. right. apply in_concat. exists (ct_nodes t). split; [apply in_map; exact Ht|exact Hv]. }
      exists (S j). pose proof (child_upper _ _ E0 Hk) as CU. destruct E0 as (Ed & _ & _ & Es). destruct (Es t Hk) as [Es1 _].
      split; [rewrite D, (Ed t Hk); lia|]. split.
      + cbn [Nat.pow]. rewrite <- Nat.div_div by (try apply Nat.pow_nonzero; lia). eapply Nat.le_trans; [apply Nat.div_le_mono; [apply Nat.pow_nonzero; lia|exact Es1]|exact L].
      + cbn [Nat.pow]. pose proof (pow_pos j). set (x := m ^ j) in *. clearbody x. set (a := ci_size (ct_info u)) in *. set (b := ci_size (ct_info t)) in *. set (e := ci_size (ct_info (CNode c ts))) in *. clearbody a b e.
        destruct m as [|n]; [lia|]. cbn [Nat.sub] in *. rewrite Nat.sub_0_r in *. nia.
  Qed.

  Lemma even_depth : forall p, (forall v, In v (ct_nodes p) -> even m mn v) -> forall u j, In u (ct_nodes p) -> ci_depth (ct_info u) = ci_depth (ct_info p) + S j ->
    m ^ j * (m * mn + 1) + m <= ci_size (ct_info p) + 1.
  Proof.
    intros p. induction p as [c ts IH] using ctree_ind'. intros H u j Hu D. destruct (In_nodes_inv _ _ _ Hu) as [->|(t & Ht & Hu')]; [lia|].
    pose proof (H _ (In_nodes_root _)) as E0. assert (Hk : In t (ct_children (CNode c ts))) by exact Ht. pose proof (child_upper _ _ E0 Hk) as CU.
    destruct E0 as (Ed & _ & Eq & _). specialize (Ed t Hk). destruct j as [|j].
    - cbn [Nat.pow]. assert (Q : ct_children (CNode c ts) <> []) by (intros Q; rewrite Q in Hk; exact Hk). specialize (Eq Q). pose proof (Nat.div_mod (ci_size (ct_info (CNode c ts))) m ltac:(lia)). nia.
    - assert (Q : m ^ j * (m * mn + 1) + m <= ci_size (ct_info t) + 1).
      { apply (IH t Ht) with (u := u); [|exact Hu'|lia]. intros v Hv. apply H. cbn [ct_nodes]. right. apply in_concat. exists (ct_nodes t). split; [apply in_map; exact Ht|exact Hv]. }
      cbn [Nat.pow]. set (x := m ^ j) in *. clearbody x. set (b := ci_size (ct_info t)) in *. set (e := ci_size (ct_info (CNode c ts))) in *. clearbody b e. nia.
  Qed.

  Lemma even_leaves : forall p, (forall v, In v (ct_nodes p) -> even m mn v) -> forall u, In u (ct_leaves p) ->
    ci_size (ct_info p) < m ^ S (ci_depth (ct_info u) - ci_depth (ct_info p)) * (mn + 1).
  Proof.
    intros p H u Hu. apply filter_In in Hu. destruct Hu as [Hu Hl]. destruct (even_sizes p H u Hu) as (j & D & L & _). rewrite D. replace (_ + j - _) with j by lia.
    destruct (H u Hu) as (_ & E & _). unfold is_leaf in Hl. destruct (ct_children u) eqn:Ec; [|discriminate]. specialize (E eq_refl).
    assert (ci_size (ct_info u) < m * (mn + 1)). { pose proof (Nat.div_mod (ci_size (ct_info u)) m ltac:(lia)). pose proof (Nat.mod_upper_bound (ci_size (ct_info u)) m ltac:(lia)). nia. }
    cbn [Nat.pow]. pose proof (pow_pos j). pose proof (Nat.div_mod (ci_size (ct_info p)) (m ^ j) ltac:(lia)). pose proof (Nat.mod_upper_bound (ci_size (ct_info p)) (m ^ j) ltac:(lia)). nia.
  Qed.

  Lemma even_two_levels : forall p, (forall v, In v (ct_nodes p) -> even m mn v) -> forall u v, In u (ct_leaves p) -> In v (ct_nodes p) -> ci_depth (ct_info v) <= S (ci_depth (ct_info u)).
  Proof.
    intros p H u v Hu Hv. pose proof (even_leaves p H u Hu) as Lu. assert (Hu' : In u (ct_nodes p)) by (apply filter_In in Hu; apply Hu).
    destruct (even_sizes p H u Hu') as (j & Dj & _). destruct (even_sizes p H v Hv) as (k & Dk & _). rewrite Dj in Lu. replace (_ + j - _) with j in Lu by lia. rewrite Dk, Dj.
    destruct (le_lt_dec k (S j)) as [|G]; [lia|]. exfalso. destruct k as [|[|k]]; [lia|lia|]. pose proof (even_depth p H v (S k) Hv ltac:(lia)) as Q.
    assert (m ^ j <= m ^ k) by (apply Nat.pow_le_mono_r; lia). cbn [Nat.pow] in *. assert (m * m ^ j * (mn + 1) <= m * m ^ k * (m * mn + 1)) by (apply Nat.mul_le_mono; [apply Nat.mul_le_mono_l; assumption|nia]). lia.
  Qed.
End Even.

(** ** Number of clusters *)
Lemma tiles_total : forall l lo hi, tiles lo hi l -> lo + fold_right plus 0 (map snd l) = hi.
Proof. induction l as [|[o s] l IH]; intros lo hi H; cbn in *; [lia|]. destruct H as [-> H]. specialize (IH _ _ H). lia. Qed.

Lemma leaves_count : forall mn p, (forall v, In v (ct_nodes p) -> node_ok v /\ forall k, In k (ct_children v) -> mn < ci_size (ct_info k)) -> mn < ci_size (ct_info p) ->
  length (ct_leaves p) * (mn + 1) <= ci_size (ct_info p).
Proof.
  intros mn p. induction p as [c ts IH] using ctree_ind'. intros H Hp. destruct (H _ (In_nodes_root _)) as [Ho Hs]. destruct ts as [|t0 ts0].
  - cbn. cbn in Hp. lia.
  - destruct Ho as [Ho|Ho]; [discriminate|]. cbn [ct_children] in *. apply tiles_total in Ho. rewrite leaves_node.
    assert (G : forall l, incl l (t0 :: ts0) -> length (concat (map ct_leaves l)) * (mn + 1) <= fold_right plus 0 (map snd (map interval l))).
    { induction l as [|x l IHl]; intros Hi; [cbn; lia|]. cbn [map concat fold_right]. rewrite app_length. cbn [interval snd].
      assert (Hx : In x (t0 :: ts0)) by (apply Hi; left; reflexivity). assert (Hx' : length (ct_leaves x) * (mn + 1) <= ci_size (ct_info x)).
      { apply (IH x Hx); [|apply Hs; exact Hx]. intros v Hv. apply H. cbn [ct_nodes]. right. apply in_concat. exists (ct_nodes x). split; [apply in_map; exact Hx|exact Hv]. }
      specialize (IHl (fun y Hy => Hi y (or_intror Hy))). nia. }
    specialize (G _ (incl_refl _)). unfold interval in *. cbn [ct_info] in *. nia.
Qed.

Lemma nodes_count : forall p, (forall v, In v (ct_nodes p) -> ct_children v = [] \/ 2 <= length (ct_children v)) -> length (ct_nodes p) + 1 <= 2 * length (ct_leaves p).
Proof.
  intros p. induction p as [c ts IH] using ctree_ind'. intros H. destruct (H _ (In_nodes_root _)) as [Ho|Ho]; cbn [ct_children] in Ho.
  - subst ts. cbn. lia.
  - destruct ts as [|t1 ts]; [cbn in Ho; lia|]. rewrite leaves_node. cbn [ct_nodes].  change (length (CNode c (t1 :: ts) :: concat (map ct_nodes (t1 :: ts)))) with (S (length (concat (map ct_nodes (t1 :: ts))))).
    assert (G : forall l, incl l (t1 :: ts) -> length (concat (map ct_nodes l)) + length l <= 2 * length (concat (map ct_leaves l))).
    { induction l as [|x l IHl]; intros Hi; [cbn; lia|]. cbn [map concat length]. rewrite !app_length. assert (Hx : In x (t1 :: ts)) by (apply Hi; left; reflexivity).
      assert (Q : length (ct_nodes x) + 1 <= 2 * length (ct_leaves x)).
      { apply (IH x Hx). intros v Hv. apply H. cbn [ct_nodes]. right. apply in_concat. exists (ct_nodes x). split; [apply in_map; exact Hx|exact Hv]. }
      specialize (IHl (fun y Hy => Hi y (or_intror Hy))). lia. }
    specialize (G _ (incl_refl _)). lia.
Qed.
