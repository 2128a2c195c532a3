(** * C82: RegularSplitting makes balanced trees; number of clusters of any tree.

    Vocabulary: ClusterModel.v ([cluster_tree sorter strat P fuel]: the builder; [bp_nc]: number of children, [bp_sp]: number of parts, [bp_min]: minimal size, [part_depth]: depth of
    the partition; [ct_nodes], [ct_leaves]: clusters, leaves of a tree).  All divisions and powers are those of natural numbers. *)

From Coq Require Import List Arith ZArith Bool Lia Permutation.
From Verif Require Import ClusterModel ClusterSpec ClusterProofs ClusterPartition ClusterMore ClusterFinal ClusterIO ClusterDepth P_Cluster P_IO BalanceProofs.
Import ListNotations.

(** [below t u]: cluster [u] is on the level of the partition or deeper. *)
Definition below (P : bparams) (t u : ctree) : Prop := In u (ct_nodes t) /\ part_depth P <= ci_depth (ct_info u) /\ 1 <= ci_depth (ct_info u).
(** Every cluster of the tree, not only below the partition, has [bp_nc] children: no given partition, and the number of parts is a power of the number of children. *)
Definition uniform (P : bparams) : Prop := bp_given P = None /\ bp_nc P <= bp_sp P /\ bp_sp P = bp_nc P ^ bp_logdepth P.

Section Links.
  Lemma deeper : forall t u, (forall v, In v (ct_nodes t) -> depth_ok v) -> In u (ct_nodes t) -> ci_depth (ct_info t) <= ci_depth (ct_info u).
  Proof.
    intros t. induction t as [c ts IH] using ctree_ind'. intros u H Hu. destruct (In_nodes_inv _ _ _ Hu) as [->|(t & Ht & Hu')]; [lia|].
    pose proof (H _ (In_nodes_root _) t Ht) as D. cbn [ct_info] in *. specialize (IH t Ht u (fun v Hv => H v (In_nodes_child _ _ _ _ Ht Hv)) Hu'). lia.
  Qed.
  Lemma nodes_trans' : forall t u v, In u (ct_nodes t) -> In v (ct_nodes u) -> In v (ct_nodes t).
  Proof.
    intros t. induction t as [c ts IH] using ctree_ind'. intros u v Hu Hv. destruct (In_nodes_inv _ _ _ Hu) as [->|(t & Ht & Hu')]; [exact Hv|].
    eapply In_nodes_child; [exact Ht|]. eapply IH; eauto.
  Qed.
  Lemma below_processed : forall sorter strat P fuel s t loc u, cluster_tree sorter strat P fuel = Some (s, t, loc) -> below P t u -> processed P t u.
  Proof.
    intros sorter strat P fuel s t loc u H (Hu & _ & H1). unfold processed. destruct (bp_given P); [|exact Hu]. destruct (final_depth_ok _ _ _ _ _ _ _ H) as [Hr _].
    destruct t as [c ts]. destruct (In_nodes_inv _ _ _ Hu) as [->|(t & Ht & Hu')]; [|eauto]. rewrite Hr in H1. cbn in H1. lia.
  Qed.
  Lemma below_down : forall sorter strat P fuel s t loc u v, cluster_tree sorter strat P fuel = Some (s, t, loc) -> below P t u -> In v (ct_nodes u) -> below P t v.
  Proof.
    intros sorter strat P fuel s t loc u v H (Hu & H1 & H2) Hv. destruct (final_depth_ok _ _ _ _ _ _ _ H) as [_ Hd].
    pose proof (deeper u v (fun w Hw => Hd w (nodes_trans' _ _ _ Hu Hw)) Hv). split; [exact (nodes_trans' _ _ _ Hu Hv)|]. lia.
  Qed.
  Lemma below_nc : forall P t u, below P t u -> current_nc P (ct_info u) = bp_nc P.
  Proof. intros P t u (_ & H1 & _). apply C05_number_of_children. lia. Qed.
  Lemma uniform_nc : forall P c, uniform P -> current_nc P c = bp_nc P.
  Proof.
    intros P c (Hg & H1 & H2). unfold current_nc, level_children, additional. rewrite Hg. rewrite (proj2 (Nat.leb_le _ _) H1), H2, Nat.sub_diag. destruct (on_level P c); [|reflexivity]. destruct (_ =? _); lia.
  Qed.
  Lemma node_even : forall sorter P fuel s t loc v, 2 <= bp_nc P -> cluster_tree sorter Regular P fuel = Some (s, t, loc) -> processed P t v -> current_nc P (ct_info v) = bp_nc P -> In v (ct_nodes t) ->
    even (bp_nc P) (bp_min P) v.
  Proof.
    intros sorter P fuel s t loc v H2 H Hp Hc Hv. destruct (C05_regular_sizes sorter P fuel s t loc v H Hp) as [R1 R2]. rewrite Hc in R1, R2. destruct (final_depth_ok _ _ _ _ _ _ _ H) as [_ Hd].
    split; [exact (Hd v Hv)|]. split; [exact R1|]. split; [intros Q; apply (R2 Q)|]. intros k Hk. assert (Q : ct_children v <> []) by (intros Q; rewrite Q in Hk; exact Hk).
    destruct (R2 Q) as (_ & _ & R3). apply In_nth_error in Hk. destruct Hk as (j & Hj). rewrite (R3 j k Hj). destruct (S j =? bp_nc P); lia.
  Qed.
End Links.

(** A cluster [p] all of whose descendants are divided into [bp_nc] children. *)
Definition regular_root (P : bparams) (t p : ctree) : Prop := below P t p \/ (uniform P /\ In p (ct_nodes t)).

Lemma regular_even : forall sorter P fuel s t loc p, 2 <= bp_nc P -> cluster_tree sorter Regular P fuel = Some (s, t, loc) -> regular_root P t p ->
  forall v, In v (ct_nodes p) -> even (bp_nc P) (bp_min P) v.
Proof.
  intros sorter P fuel s t loc p H2 H [Hb|[Hu Hp]] v Hv.
  - pose proof (below_down _ _ _ _ _ _ _ _ _ H Hb Hv) as Hbv. apply (node_even sorter P fuel s t loc v H2 H); [eapply below_processed; eauto|eapply below_nc; eauto|apply Hbv].
  - assert (Hv' : In v (ct_nodes t)) by exact (nodes_trans' _ _ _ Hp Hv). apply (node_even sorter P fuel s t loc v H2 H); [|apply uniform_nc; exact Hu|exact Hv'].
    unfold processed. destruct Hu as [-> _]. exact Hv'.
Qed.

(** ** Sizes: the clusters [j] levels below a cluster of size [n] have between floor(n / m^j) and n / m^j + (m - 1) (1 - 1 / m^j) points. *)
Theorem C82_sizes : forall sorter P fuel s t loc p u, 2 <= bp_nc P -> cluster_tree sorter Regular P fuel = Some (s, t, loc) -> regular_root P t p -> In u (ct_nodes p) ->
  exists j, ci_depth (ct_info u) = ci_depth (ct_info p) + j /\ ci_size (ct_info p) / bp_nc P ^ j <= ci_size (ct_info u) /\
    bp_nc P ^ j * ci_size (ct_info u) <= ci_size (ct_info p) + (bp_nc P - 1) * (bp_nc P ^ j - 1).
Proof.
  intros sorter P fuel s t loc p u H2 H Hp Hu. destruct (even_sizes _ _ H2 p (regular_even _ _ _ _ _ _ _ H2 H Hp) u Hu) as (j & D & L & U). exists j. split; [exact D|]. split; [exact L|].
  pose proof (Nat.pow_nonzero (bp_nc P) j). rewrite Nat.mul_sub_distr_l, Nat.mul_1_r. assert (bp_nc P - 1 <= (bp_nc P - 1) * bp_nc P ^ j) by nia. lia.
Qed.
Print Assumptions C82_sizes.

(** With two children: floor or ceiling of n / 2^j. *)
Theorem C82_two_children : forall sorter P fuel s t loc p u, bp_nc P = 2 -> cluster_tree sorter Regular P fuel = Some (s, t, loc) -> regular_root P t p -> In u (ct_nodes p) ->
  exists j, ci_depth (ct_info u) = ci_depth (ct_info p) + j /\ (ci_size (ct_info u) = ci_size (ct_info p) / 2 ^ j \/ ci_size (ct_info u) = (ci_size (ct_info p) + 2 ^ j - 1) / 2 ^ j).
Proof.
  intros sorter P fuel s t loc p u H2 H Hp Hu. destruct (C82_sizes sorter P fuel s t loc p u ltac:(lia) H Hp Hu) as (j & D & L & U). rewrite H2 in *. exists j. split; [exact D|].
  pose proof (Nat.pow_nonzero 2 j ltac:(lia)) as Z. set (x := 2 ^ j) in *. clearbody x. set (a := ci_size (ct_info u)) in *. set (n := ci_size (ct_info p)) in *. clearbody a n.
  pose proof (Nat.div_mod n x Z). pose proof (Nat.mod_upper_bound n x Z). destruct (Nat.eq_dec a (n / x)) as [|Hn]; [auto|]. right.
  assert (a = S (n / x)) by nia. destruct (Nat.eq_dec (n mod x) 0) as [E|E]; [nia|]. apply (Nat.div_unique _ _ _ (n mod x - 1)); nia.
Qed.
Print Assumptions C82_two_children.

(** ** Depths: the leaves below [p] are on two consecutive levels, at most log_m(n) levels below *)
Theorem C82_depths : forall sorter P fuel s t loc p, 2 <= bp_nc P -> cluster_tree sorter Regular P fuel = Some (s, t, loc) -> regular_root P t p ->
  (forall u v, In u (ct_leaves p) -> In v (ct_leaves p) -> ci_depth (ct_info v) <= S (ci_depth (ct_info u))) /\
  (forall u j, In u (ct_leaves p) -> ci_depth (ct_info u) = ci_depth (ct_info p) + j ->
     ci_size (ct_info p) < bp_nc P ^ S j * (bp_min P + 1) /\ (1 <= j -> bp_nc P ^ j * bp_min P + bp_nc P ^ (j - 1) < ci_size (ct_info p))).
Proof.
  intros sorter P fuel s t loc p H2 H Hp. pose proof (regular_even _ _ _ _ _ _ _ H2 H Hp) as E. split.
  - intros u v Hu Hv. apply (even_two_levels _ _ H2 p E u v Hu). apply filter_In in Hv. apply Hv.
  - intros u j Hu D. split.
    + pose proof (even_leaves _ _ H2 p E u Hu) as Q. rewrite D in Q. replace (_ + j - _) with j in Q by lia. exact Q.
    + intros Hj. destruct j as [|j]; [lia|]. apply filter_In in Hu. pose proof (even_depth _ _ H2 p E u j (proj1 Hu) D) as Q. cbn [Nat.pow Nat.sub]. rewrite Nat.sub_0_r. nia.
Qed.
Print Assumptions C82_depths.

(** The depths stored with the tree (get_maximal_depth, get_minimal_depth) differ by at most one. *)
Theorem C82_reported_depths : forall sorter P fuel s t loc, 2 <= bp_nc P -> uniform P -> cluster_tree sorter Regular P fuel = Some (s, t, loc) -> st_errors s = 0 ->
  exists d, st_min s = Some d /\ d <= st_max s <= S d /\ (1 <= st_max s -> bp_nc P ^ st_max s * bp_min P + bp_nc P ^ (st_max s - 1) < bp_n P) /\ bp_n P < bp_nc P ^ S d * (bp_min P + 1).
Proof.
  intros sorter P fuel s t loc H2 Hu H H0. assert (Hg : forall part, bp_given P = Some part -> part <> []) by (intros part Q; destruct Hu; congruence).
  destruct (C45_depths_of_leaves sorter Regular P fuel s t loc Hg H) as [_ C]. destruct (C H0) as (A1 & (u & A2 & A3) & (d & A4 & A5 & (v & A6 & A7))).
  destruct (C82_depths sorter P fuel s t loc t H2 H (or_intror (conj Hu (In_nodes_root t)))) as [B1 B2]. destruct (final_depth_ok _ _ _ _ _ _ _ H) as [Hr _]. rewrite Hr in B2. cbn [ci_depth ci_size root_info plus] in B2.
  exists d. split; [exact A4|]. split; [split; [rewrite <- A3; apply A5; exact A2|]|].
  - rewrite <- A3, <- A7. apply B1; assumption.
  - split; [intros Hj; apply (proj2 (B2 u (st_max s) A2 A3) Hj)|]. apply (proj1 (B2 v d A6 A7)).
Qed.
Print Assumptions C82_reported_depths.

(** ** Number of clusters, for both strategies: below the partition, at most n / (min + 1) leaves and twice as many clusters *)
Theorem C82_number_of_clusters : forall sorter strat P fuel s t loc p, sorter_ok sorter -> (forall part, bp_given P = Some part -> tiles 0 (bp_n P) part) ->
  2 <= bp_nc P -> cluster_tree sorter strat P fuel = Some (s, t, loc) -> below P t p ->
  length (ct_nodes p) + 1 <= 2 * length (ct_leaves p) /\ (bp_min P < ci_size (ct_info p) -> length (ct_leaves p) * (bp_min P + 1) <= ci_size (ct_info p)).
Proof.
  intros sorter strat P fuel s t loc p Hs Hg H2 H Hb. assert (G : forall v, In v (ct_nodes p) -> below P t v) by (intros v Hv; eapply below_down; eauto). split.
  - apply nodes_count. intros v Hv. destruct (final_nb_children sorter strat P fuel s t loc v H (below_processed _ _ _ _ _ _ _ _ H (G v Hv))) as [Q|Q]; [auto|right]. rewrite Q, (below_nc P t v (G v Hv)). exact H2.
  - apply leaves_count. intros v Hv. split.
    + destruct (C02_children_tile sorter strat P fuel s t loc Hs Hg H) as (_ & T & _). exact (T v (proj1 (G v Hv))).
    + intros k Hk. apply (C05_min_size sorter strat P fuel s t loc v k H (below_processed _ _ _ _ _ _ _ _ H (G v Hv)) Hk).
Qed.
Print Assumptions C82_number_of_clusters.

(** ** Examples *)
Section Examples.
  (** 23 points in five parts, two children: hypotheses of the theorems for a cluster of the partition. *)
  Example C82_hyps : exists s t loc p, cluster_tree (isort ex_key) Regular exP 25 = Some (s, t, loc) /\ below exP t p /\ 2 <= ci_size (ct_info p).
  Proof.
    assert (Q : match cluster_tree (isort ex_key) Regular exP 25 with
      | Some (s, t, loc) => existsb (fun p => (part_depth exP <=? ci_depth (ct_info p)) && (1 <=? ci_depth (ct_info p)) && (2 <=? ci_size (ct_info p))) (ct_nodes t) | None => false end = true) by (vm_compute; reflexivity).
    destruct (cluster_tree (isort ex_key) Regular exP 25) as [[[s t] loc]|]; [|discriminate]. apply existsb_exists in Q. destruct Q as (p & Hp & Q). exists s, t, loc, p. split; [reflexivity|].
    apply andb_true_iff in Q. destruct Q as [Q Q3]. apply andb_true_iff in Q. destruct Q as [Q1 Q2]. apply Nat.leb_le in Q1, Q2, Q3. unfold below. auto.
  Qed.
  (** 23 points in four parts: the whole tree. *)
  Definition uP : bparams := mkBparams 23 2 4 1 None 2.
  Example C82_uniform_hyps : uniform uP /\ match cluster_tree (isort ex_key) Regular uP 25 with Some (s, t, loc) => (st_errors s, st_max s, st_min s) = (0, 3, Some 3) | None => False end.
  Proof. split; [repeat split; cbn; lia|vm_compute; reflexivity]. Qed.
  (** Two consecutive levels are needed: 15 points. *)
  Example C82_two_levels : match cluster_tree (isort ex_key) Regular (mkBparams 15 2 2 1 None 1) 25 with Some (s, t, loc) => (st_errors s, st_max s, st_min s) = (0, 3, Some 2) | None => False end.
  Proof. vm_compute. reflexivity. Qed.
End Examples.

(** ** Outside the guards *)
(** Seven parts with two children: the parts are not the same size (the last cluster above the partition gets three more children), the depths of the leaves differ by two. *)
Theorem C82_uneven_parts_refuted : match cluster_tree (isort ex_key) Regular (mkBparams 64 2 7 1 None 2) 100 with
  | Some (s, t, loc) => match st_min s with Some d => (st_errors s =? 0) && (S d <? st_max s) | None => false end | None => false end = true.
Proof. vm_compute. reflexivity. Qed.
(** GeometricSplitting: the depth is not bounded by the logarithm.  24 points on a line, in pairs at 10^k and 10^k + 1 (k = 1..12), sorted; the test of splitting.hpp 71 for a unit
    direction along the line: every division separates one pair from the rest, the depth of the leaves ranges from 2 to 12. *)
Definition on_line (i : nat) : Z := (10 ^ (Z.of_nat (i / 2) + 1) + Z.of_nat (i mod 2))%Z.
Definition along_line (c : cinfo) (perm : list nat) (nc first a : nat) : bool :=
  (on_line (nth (ci_off c + ci_size c - 1)%nat perm 0%nat) - on_line (nth (ci_off c) perm 0%nat) <? Z.of_nat nc * (on_line a - on_line first))%Z.
Theorem C82_geometric_refuted : match cluster_tree (isort (fun _ => on_line)) (Geometric along_line) (mkBparams 24 2 1 1 None 1) 60 with
  | Some (s, t, loc) => (st_errors s, st_max s, st_min s) = (0, 12, Some 2) | None => False end.
Proof. vm_compute. reflexivity. Qed.
