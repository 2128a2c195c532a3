(** * Properties C01-C08, C44: cluster trees.

    Vocabulary: ClusterModel.v (model), ClusterSpec.v (specification).
    [cluster_tree sorter strat P fuel = Some (s, t, loc)] reads: create_cluster_tree with the splitting strategy
    [strat] and the parameters [P] returned; [st_perm s] is get_permutation(), [st_pv s] is
    get_clusters_on_partition(), [t] is the tree and [loc] is is_permutation_local(). *)

From Coq Require Import List Arith ZArith Bool Permutation Sorted Lia.
From Verif Require Import ClusterModel ClusterSpec ClusterProofs ClusterPartition ClusterMore ClusterFinal.
Import ListNotations.

(** C01.  For a user-given partition the intervals must lie in [0,n). *)
Theorem C01_permutation_is_bijection :
  forall sorter strat P fuel s t loc,
    sorter_ok sorter ->
    (forall part, bp_given P = Some part -> forall os, In os part -> fst os + snd os <= bp_n P) ->
    cluster_tree sorter strat P fuel = Some (s, t, loc) ->
    Permutation (st_perm s) (seq 0 (bp_n P)).
Proof. intros sorter strat P fuel s t loc Hs. exact (final_perm sorter strat P Hs fuel s t loc). Qed.
Print Assumptions C01_permutation_is_bijection.

(** C02. *)
Theorem C02_children_tile :
  forall sorter strat P fuel s t loc,
    sorter_ok sorter ->
    (forall part, bp_given P = Some part -> tiles 0 (bp_n P) part) ->
    cluster_tree sorter strat P fuel = Some (s, t, loc) ->
    (interval t = (0, bp_n P)) /\
    (forall u, In u (ct_nodes t) ->
       ct_children u = [] \/
       tiles (fst (interval u)) (fst (interval u) + snd (interval u)) (map interval (ct_children u))) /\
    (forall i, i < bp_n P -> length (filter (fun u => in_iv i (interval u)) (ct_leaves t)) = 1) /\
    (forall u, In u (ct_nodes t) ->
       Permutation (ci_pts (ct_info u)) (slice (ci_off (ct_info u)) (ci_size (ct_info u)) (st_perm s))).
Proof.
  intros sorter strat P fuel s t loc Hs Hg H.
  destruct (final_nodes sorter strat P Hs fuel s t loc Hg H) as [Hr N].
  split; [unfold interval; rewrite Hr; reflexivity|].
  split; [intros u Hu; exact (proj1 (N u Hu))|].
  split; [exact (proj2 (final_leaves sorter strat P Hs fuel s t loc Hg H))|].
  intros u Hu. exact (proj2 (proj2 (N u Hu))).
Qed.
Print Assumptions C02_children_tile.

(** C03.  [bp_logdepth] is the value of the floating-point expression floor(log(sp)/log(nc)); it only has to be
    at least one and not to overshoot.  The last hypothesis says that no cluster above the partition became a leaf
    (otherwise an ERROR is logged, see [C03_small_refuted]). *)
Theorem C03_partition :
  forall sorter strat P fuel s t loc,
    sorter_ok sorter ->
    bp_given P = None -> 1 <= bp_nc P -> 1 <= bp_sp P ->
    (bp_nc P <= bp_sp P -> 1 <= bp_logdepth P /\ bp_nc P ^ bp_logdepth P <= bp_sp P) ->
    cluster_tree sorter strat P fuel = Some (s, t, loc) ->
    (forall u, In u (ct_nodes t) -> ci_depth (ct_info u) < part_depth P -> ct_children u <> []) ->
    let parts := level (part_depth P) t in
    st_pv s = map (fun u => Some (ct_info u)) parts /\
    map (fun u => ci_rank (ct_info u)) parts = map Z.of_nat (seq 0 (bp_sp P)) /\
    tiles 0 (bp_n P) (map interval parts) /\
    (forall u v, In u parts -> In v (ct_nodes u) -> ci_rank (ct_info v) = ci_rank (ct_info u)).
Proof. intros sorter strat P fuel s t loc Hs. exact (final_partition sorter strat P Hs fuel s t loc). Qed.
Print Assumptions C03_partition.

(** C04. *)
Theorem C04_given_partition_respected :
  forall sorter strat P fuel s t loc part,
    sorter_ok sorter ->
    bp_given P = Some part ->
    (forall os, In os part -> fst os + snd os <= bp_n P) ->
    ForallOrdPairs disjoint_iv part ->
    cluster_tree sorter strat P fuel = Some (s, t, loc) ->
    loc = true /\ length (st_pv s) = length part /\ length (ct_children t) = length part /\
    forall p os, nth_error part p = Some os ->
      exists k, nth_error (ct_children t) p = Some k /\ interval k = os /\
        nth_error (st_pv s) p = Some (Some (ct_info k)) /\
        (forall v, In v (ct_nodes k) -> ci_rank (ct_info v) = Z.of_nat p) /\
        Permutation (slice (fst os) (snd os) (st_perm s)) (seq (fst os) (snd os)).
Proof. intros sorter strat P fuel s t loc part Hs. exact (final_given sorter strat P Hs fuel s t loc part). Qed.
Print Assumptions C04_given_partition_respected.

(** C05.  [processed]: every cluster except the root of a tree with a given partition.
    [current_nc P c] is the number of children requested for [c]: number_of_children unless the children of [c]
    are the partition. *)
Theorem C05_regular_sizes :
  forall sorter P fuel s t loc u,
    cluster_tree sorter Regular P fuel = Some (s, t, loc) -> processed P t u ->
    let m := current_nc P (ct_info u) in
    let q := ci_size (ct_info u) / m in
    (ct_children u = [] -> q <= bp_min P) /\
    (ct_children u <> [] ->
       bp_min P < q /\ length (ct_children u) = m /\
       forall j k, nth_error (ct_children u) j = Some k ->
         ci_size (ct_info k) = if S j =? m then q + ci_size (ct_info u) mod m else q).
Proof. exact final_regular. Qed.
Print Assumptions C05_regular_sizes.

Theorem C05_number_of_children :
  forall P c, S (ci_depth c) <> part_depth P -> current_nc P c = bp_nc P.
Proof.
  intros P c H. unfold current_nc, on_level. destruct (bp_given P); [reflexivity|].
  destruct (Nat.eqb_spec (S (ci_depth c)) (part_depth P)); [contradiction|reflexivity].
Qed.
Print Assumptions C05_number_of_children.

(** For both strategies every cluster created by a split has more than minclustersize points. *)
Theorem C05_min_size :
  forall sorter strat P fuel s t loc u k,
    cluster_tree sorter strat P fuel = Some (s, t, loc) -> processed P t u ->
    In k (ct_children u) -> bp_min P < ci_size (ct_info k).
Proof. exact final_min. Qed.
Print Assumptions C05_min_size.

(** C06. *)
Theorem C06_terminates :
  forall sorter strat P, 2 <= bp_nc P -> 1 <= bp_sp P ->
    (bp_given P = None -> bp_nc P <= bp_sp P -> 1 <= bp_logdepth P) ->
    (forall part, bp_given P = Some part -> forall os, In os part -> fst os + snd os <= bp_n P) ->
    exists s t loc, cluster_tree sorter strat P (bp_n P + 2) = Some (s, t, loc).
Proof.
  intros sorter strat P Hnc Hsp Hlog Hr.
  destruct (cluster_tree sorter strat P (bp_n P + 2)) as [[[s t] loc]|] eqn:E; [eauto|exfalso].
  destruct (bp_given P) as [part|] eqn:Hg.
  - exact (final_terminates_given sorter strat P part Hg Hnc Hsp (Hr part eq_refl) E).
  - exact (final_terminates sorter strat P Hg Hnc Hsp (Hlog eq_refl) E).
Qed.
Print Assumptions C06_terminates.

Theorem C06_one_child_never_terminates :
  forall sorter P part, bp_given P = Some part -> bp_nc P = 1 ->
    (exists os, In os part /\ bp_min P < snd os) ->
    (forall fuel, cluster_tree sorter Regular P fuel = None) /\
    (forall st c, step sorter (splitting_of Regular (bp_min P)) P st c <> None).
Proof.
  intros sorter P part Hg Hnc He. split.
  - exact (final_diverges sorter P part Hg Hnc He).
  - intros st c. exact (nc_one_steps_defined sorter P part st c Hg Hnc).
Qed.
Print Assumptions C06_one_child_never_terminates.

(** The loop with the explicit stack, as in the code, and the recursion used above are the same program. *)
Theorem C06_stack_machine :
  forall sorter strat P, bp_given P = None ->
    (forall fuel s t loc, cluster_tree sorter strat P fuel = Some (s, t, loc) ->
       run sorter (splitting_of strat (bp_min P)) P (length (rlog t)) [root_info P] (init_state P) [] = Some (s, rlog t)) /\
    (forall g s log, run sorter (splitting_of strat (bp_min P)) P g [root_info P] (init_state P) [] = Some (s, log) ->
       exists fuel t, cluster_tree sorter strat P fuel = Some (s, t, false) /\ log = rlog t).
Proof. exact machine_agrees. Qed.
Print Assumptions C06_stack_machine.

(** C07 (root cluster). *)
Theorem C07_renumbering_round_trip :
  forall A n perm (x out out' : list A),
    Permutation perm (seq 0 n) -> length x = n -> length out = n -> length out' = n ->
    (exists y, user_to_cluster 0 n perm x out = Some y /\ length y = n /\
       (forall i, i < n -> nth_error y i = nth_error x (nth i perm 0)) /\
       cluster_to_user 0 n perm y out' = Some x) /\
    (exists y, cluster_to_user 0 n perm x out = Some y /\ length y = n /\
       (forall i, i < n -> nth_error y (nth i perm 0) = nth_error x i) /\
       user_to_cluster 0 n perm y out' = Some x).
Proof.
  intros A n perm x out out' Hp Hx Ho Ho'.
  assert (Hlen : length perm = n) by (rewrite (Permutation_length Hp), seq_length; reflexivity).
  assert (Hloc : Permutation (slice 0 n perm) (seq 0 n)).
  { unfold slice. cbn [skipn]. rewrite firstn_all2 by lia. exact Hp. }
  split.
  - destruct (u2c_c2u A n 0 n perm Hp (le_n n) Hloc x out out' Hx Ho Ho') as (y & H1 & H2 & H3 & H4).
    exists y. split; [exact H1|]. split; [exact H2|]. split; [|exact H4].
    intros i Hi. destruct (H3 i Hi) as (u & E1 & E2). rewrite Nat.sub_0_r in E2.
    apply nth_error_nth with (d := 0) in E1. simpl in E1. rewrite E1. exact E2.
  - destruct (c2u_u2c A n 0 n perm Hp (le_n n) Hloc x out out' Hx Ho Ho') as (y & H1 & H2 & H3 & H4).
    exists y. split; [exact H1|]. split; [exact H2|]. split; [|exact H4].
    intros i Hi. destruct (H3 i Hi) as (u & E1 & E2). rewrite Nat.sub_0_r in E2.
    apply nth_error_nth with (d := 0) in E1. simpl in E1. rewrite E1. exact E2.
Qed.
Print Assumptions C07_renumbering_round_trip.

(** C08 (cluster [off,off+sz) of the partition). *)
Theorem C08_local_renumbering :
  forall A n off sz perm (x out out' : list A),
    Permutation perm (seq 0 n) -> off + sz <= n -> length x = sz -> length out = sz -> length out' = sz ->
    (Permutation (slice off sz perm) (seq off sz) ->
       (exists y, user_to_cluster off sz perm x out = Some y /\ length y = sz /\
          cluster_to_user off sz perm y out' = Some x) /\
       (exists y, cluster_to_user off sz perm x out = Some y /\ length y = sz /\
          user_to_cluster off sz perm y out' = Some x)) /\
    (~ Permutation (slice off sz perm) (seq off sz) ->
       cluster_to_user off sz perm x out = None /\ user_to_cluster off sz perm x out = None).
Proof.
  intros A n off sz perm x out out' Hp Hb Hx Ho Ho'. split; [intros Hloc; split|].
  - destruct (u2c_c2u A n off sz perm Hp Hb Hloc x out out' Hx Ho Ho') as (y & H1 & H2 & _ & H4). eauto.
  - destruct (c2u_u2c A n off sz perm Hp Hb Hloc x out out' Hx Ho Ho') as (y & H1 & H2 & _ & H4). eauto.
  - intros Hn. exact (renum_only_local A n off sz perm x out Hp Hb Hx Ho Hn).
Qed.
Print Assumptions C08_local_renumbering.

(** C44.  [key c p]: projection of point [p] on the direction computed for cluster [c]; std::sort sorts by it. *)
Theorem C44_siblings_separated :
  forall sorter strat P (key : cinfo -> nat -> Z),
    sorter_ok sorter ->
    (forall c perm, ci_off c + ci_size c <= length perm ->
       StronglySorted (fun a b => (key c a <= key c b)%Z) (sorter c perm)) ->
    (forall part, bp_given P = Some part -> forall os, In os part -> fst os + snd os <= bp_n P) ->
    forall fuel s t loc u, cluster_tree sorter strat P fuel = Some (s, t, loc) -> processed P t u ->
    forall i j k1 k2 a b, i < j ->
      nth_error (ct_children u) i = Some k1 -> nth_error (ct_children u) j = Some k2 ->
      In a (ci_pts (ct_info k1)) -> In b (ci_pts (ct_info k2)) ->
      (key (ct_info u) a <= key (ct_info u) b)%Z.
Proof.
  intros sorter strat P key Hs Hk Hr fuel s t loc u.
  exact (final_separation sorter strat P Hs key Hk fuel s t loc u Hr).
Qed.
Print Assumptions C44_siblings_separated.

(** ** Non-vacuity: a concrete sorter and concrete trees *)

(** Insertion sort by an integer key. *)
Fixpoint insert (key : nat -> Z) (a : nat) (l : list nat) : list nat :=
  match l with
  | [] => [a]
  | b :: l' => if (key a <=? key b)%Z then a :: l else b :: insert key a l'
  end.
Definition isort (key : cinfo -> nat -> Z) (c : cinfo) (perm : list nat) : list nat :=
  fold_right (insert (key c)) [] (slice (ci_off c) (ci_size c) perm).

Lemma insert_perm : forall key a l, Permutation (insert key a l) (a :: l).
Proof.
  induction l as [|b l IH]; simpl; [reflexivity|]. destruct (_ <=? _)%Z; [reflexivity|].
  eapply perm_trans; [apply perm_skip, IH|apply perm_swap].
Qed.

Lemma isort_ok : forall key, sorter_ok (isort key).
Proof.
  intros key c perm _. unfold isort. induction (slice _ _ _) as [|a l IH]; simpl; [reflexivity|].
  eapply perm_trans; [apply insert_perm|]. apply perm_skip, IH.
Qed.

Lemma insert_sorted : forall key a l, StronglySorted (fun a b => (key a <= key b)%Z) l ->
  StronglySorted (fun a b => (key a <= key b)%Z) (insert key a l).
Proof.
  induction l as [|b l IH]; simpl; intros H; [repeat constructor|].
  inversion H as [|x y HS HF]; subst. destruct (Z.leb_spec (key a) (key b)).
  - constructor; [exact H|]. constructor; [lia|]. eapply Forall_impl; [|exact HF]. simpl. intros; lia.
  - constructor; [apply IH, HS|]. apply Forall_forall. intros x Hx.
    apply (Permutation_in _ (insert_perm key a l)) in Hx. destruct Hx as [<-|Hx]; [lia|].
    rewrite Forall_forall in HF. apply HF, Hx.
Qed.

Lemma isort_sorted : forall key c perm,
  StronglySorted (fun a b => (key c a <= key c b)%Z) (isort key c perm).
Proof.
  intros key c perm. unfold isort. induction (slice _ _ _) as [|a l IH]; simpl; [constructor|].
  apply insert_sorted, IH.
Qed.

(** 23 points, two children, 5 parts (not a power of two). *)
Definition ex_key (c : cinfo) (i : nat) : Z := (Z.of_nat i * 7 + Z.of_nat (ci_depth c) * 5 * Z.of_nat i) mod 23.
Definition exP : bparams := mkBparams 23 2 5 1 None 2.
Definition ex_tree := cluster_tree (isort ex_key) Regular exP 25.

Example ex_tree_exists : exists s t loc, ex_tree = Some (s, t, loc) /\
  st_perm s <> seq 0 23 /\ length (ct_leaves t) = 10 /\ st_errors s = 0 /\
  forallb (fun u => if ci_depth (ct_info u) <? part_depth exP then negb (is_leaf u) else true) (ct_nodes t) = true.
Proof.
  destruct ex_tree as [[[s t] loc]|] eqn:E; [|vm_compute in E; discriminate].
  exists s, t, loc. vm_compute in E. injection E as <- <- <-.
  repeat split; try reflexivity. discriminate.
Qed.

(** Geometric splitting, with a test that isolates the first points. *)
Definition ex_far (c : cinfo) (perm : list nat) (nc first a : nat) : bool := (ex_key c first + 12 <? ex_key c a)%Z.
Example ex_geometric : exists s t loc,
  cluster_tree (isort ex_key) (Geometric ex_far) exP 25 = Some (s, t, loc) /\ st_errors s = 0 /\
  map (fun k => ci_size (ct_info k)) (ct_children t) = [13; 10].
Proof.
  destruct (cluster_tree (isort ex_key) (Geometric ex_far) exP 25) as [[[s t] loc]|] eqn:E;
    [|vm_compute in E; discriminate].
  exists s, t, loc. vm_compute in E. injection E as <- <- <-. repeat split; reflexivity.
Qed.

(** A given partition into parts of different sizes. *)
Definition exG : bparams := mkBparams 12 2 3 1 (Some [(0, 3); (3, 5); (8, 4)]) 0.
Example ex_given : tiles 0 12 [(0, 3); (3, 5); (8, 4)] /\ ForallOrdPairs disjoint_iv [(0, 3); (3, 5); (8, 4)] /\
  exists s t, cluster_tree (isort ex_key) Regular exG 14 = Some (s, t, true) /\ st_perm s <> seq 0 12.
Proof.
  split; [simpl; auto|]. split; [repeat constructor; simpl; lia|].
  destruct (cluster_tree (isort ex_key) Regular exG 14) as [[[s t] loc]|] eqn:E; [|vm_compute in E; discriminate].
  exists s, t. vm_compute in E. injection E as <- <- <-. split; [reflexivity|discriminate].
Qed.

Example ex_diverges : bp_given (mkBparams 12 1 1 1 (Some [(0, 12)]) 0) = Some [(0, 12)] /\
  (exists os, In os [(0, 12)] /\ 1 < snd os).
Proof. split; [reflexivity|]. exists (0, 12). simpl. split; [auto|lia]. Qed.

(** Outside the hypothesis of C03: 4 points, 4 parts, minimal size 1: the tree has an ERROR and the partition
    vector has not the requested length. *)
Theorem C03_small_refuted : exists s t loc,
  cluster_tree (isort ex_key) Regular (mkBparams 4 2 4 1 None 2) 6 = Some (s, t, loc) /\
  st_errors s <> 0 /\ length (st_pv s) <> 4.
Proof.
  destruct (cluster_tree (isort ex_key) Regular (mkBparams 4 2 4 1 None 2) 6) as [[[s t] loc]|] eqn:E;
    [|vm_compute in E; discriminate].
  exists s, t, loc. vm_compute in E. injection E as <- <- <-. repeat split; discriminate.
Qed.
Print Assumptions C03_small_refuted.

(** A permutation that is not local to the interval [0,2): the local renumbering leaves the local vector. *)
Example ex_not_local : ~ Permutation (slice 0 2 [2; 0; 1]) (seq 0 2).
Proof.
  intros H. assert (Q : In 2 (seq 0 2)) by (apply (Permutation_in _ H); simpl; auto).
  apply in_seq in Q. lia.
Qed.

Example ex_local : Permutation (slice 2 2 [1; 0; 3; 2]) (seq 2 2).
Proof. simpl. apply perm_swap. Qed.
