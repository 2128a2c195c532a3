(** * Properties C14-C17: block trees.

    Vocabulary: BlockModel.v (model), BlockSpec.v (specification).
    [build_root B fuel T S = Some root]: HMatrixTreeBuilder::build with the parameters [B], target cluster [T] and source
    cluster [S] returned the hierarchical structure [root]; [get_leaves_from] lists its leaves and the leaves to be
    mirrored.  [covers i j b]: the pair (i,j), in cluster numbering, lies in the block [b].
    [partitioned T parts] and [nonempty T] describe the trees produced by ClusterTreeBuilder and their subtrees:
    see [C14_trees_satisfy_hypotheses]. *)

From Coq Require Import List Arith ZArith Bool Permutation Lia.
From Verif Require Import ClusterModel ClusterSpec ClusterFinal IOModel IOSpec IOProofs BlockModel BlockSpec BlockProofs
  BlockFinal BlockSym BlockLink P_Cluster.
Import ListNotations.

(** The hypotheses on the trees hold for the trees of ClusterTreeBuilder when no ERROR was logged, and for all their
    subtrees (a diagonal block is built on a subtree). *)
Theorem C14_trees_satisfy_hypotheses :
  forall sorter strat P fuel s t loc,
    sorter_ok sorter -> 1 <= bp_nc P -> 1 <= bp_sp P ->
    (bp_given P = None -> bp_nc P <= bp_sp P -> 1 <= bp_logdepth P /\ bp_nc P ^ bp_logdepth P <= bp_sp P) ->
    (forall part, bp_given P = Some part -> part <> [] /\ tiles 0 (bp_n P) part /\ forall os, In os part -> 0 < snd os) ->
    cluster_tree sorter strat P fuel = Some (s, t, loc) ->
    st_errors s = 0 ->
    let parts := level (part_depth P) t in
    st_pv s = map (fun u => Some (ct_info u)) parts /\ (c_rank t < 0)%Z /\
    forall u, In u (ct_nodes t) -> partitioned u parts /\ nonempty u.
Proof.
  intros sorter strat P fuel s t loc H1 H2 H3 H4 H5 H6 H7 parts.
  destruct (built_partitioned sorter strat P fuel s t loc H1 H2 H3 H4 H5 H6 H7) as (A & C & D & E).
  split; [exact E|]. split; [exact D|]. intros u Hu. split; [exact (partitioned_sub _ _ _ A Hu)|exact (nonempty_sub _ _ C Hu)].
Qed.
Print Assumptions C14_trees_satisfy_hypotheses.

(** C14.  The construction terminates; no leaf is mirrored; each pair of a row of the matrix (all the rows of [T], or
    those of the target part) and a column of [S] lies in exactly one leaf, and the leaves contain nothing else. *)
Theorem C14_leaves_tile :
  forall B T S,
    partitioned T (bb_tparts B) -> partitioned S (bb_sparts B) -> nonempty T -> nonempty S ->
    bb_uplo B = UpN -> part_valid B T ->
    exists n, forall fuel, n <= fuel -> exists root, build_root B fuel T S = Some root /\
      forall fuel', length (preorder root) <= fuel' -> exists L, get_leaves_from fuel' root = Some (L, []) /\
        forall i j, count (covers i j) L = if row_in B T i && in_iv j (interval S) then 1 else 0.
Proof.
  intros B T S HT HS NT NS HN HV. destruct (build_root_total B T S HT HS HV) as [n Hn]. exists n. intros fuel Hf.
  destruct (Hn fuel Hf) as [root Hroot]. exists root. split; [exact Hroot|]. intros fuel' Hf'.
  destruct (leaves_total fuel' root Hf') as [[L Y] HL].
  destruct (nosym_main B T S HT HS NT NS HN HV fuel root fuel' L Y Hroot HL) as [-> Hc].
  exists L. auto.
Qed.
Print Assumptions C14_leaves_tile.

(** Every leaf carries data: it was handed to the low-rank or to the dense generator. *)
Theorem C14_leaves_computed :
  forall B T S fuel root fuel' L Y,
    partitioned T (bb_tparts B) -> partitioned S (bb_sparts B) -> nonempty T -> nonempty S ->
    bb_uplo B = UpN -> part_valid B T -> build_root B fuel T S = Some root -> get_leaves_from fuel' root = Some (L, Y) ->
    forall x, In x L -> b_task x <> None.
Proof.
  intros B T S fuel root fuel' L Y HT HS NT NS HN HV HR HL x Hx. apply (build_root_shape B T S HT HS HV) in HR.
  apply leaves_run_ok in HL. cbn [map concat fst snd app] in HL. rewrite !app_nil_r in HL. destruct HL as [P1 _].
  destruct (BlockFinal.final_leaves B T S HT HS HV (removed_N B HN T S) (fun _ _ _ _ => removed_N B HN _ _) (witnessed_N B T S NT NS HN) root HR) as [_ H].
  apply (Permutation_in _ P1) in Hx. destruct (H x Hx) as (k & -> & _). discriminate.
Qed.
Print Assumptions C14_leaves_computed.

(** C15.  One cluster tree, symmetry with UPLO = L or U.  [R]: the cluster of the symmetric block, either the root (no
    target partition, no partition for symmetry) or the part [q] of the process (target partition = partition for symmetry
    = [q], what DefaultApproximationBuilder sets).  Each pair (i,j) with i in [R] is covered exactly once by the stored
    leaves together with the mirror images of the leaves reported for symmetry. *)
Theorem C15_symmetric_storage :
  forall B T R,
    partitioned T (bb_tparts B) -> bb_sparts B = bb_tparts B -> nonempty T ->
    bb_cons B = true -> bb_uplo B <> UpN ->
    ((bb_tpart B = None /\ bb_qpart B = None /\ R = T) \/
     (exists q, bb_tpart B = Some q /\ bb_qpart B = Some q /\ nth_error (bb_tparts B) q = Some R /\
        (R = T \/ ((c_rank T < 0)%Z /\ contains T R = true)))) ->
    exists n, forall fuel, n <= fuel -> exists root, build_root B fuel T T = Some root /\
      forall fuel', length (preorder root) <= fuel' -> exists L Y, get_leaves_from fuel' root = Some (L, Y) /\
        forall i j, in_iv i (interval R) = true -> in_iv j (interval T) = true ->
          count (covers i j) L + count (covers_mirror i j) Y = 1.
Proof.
  intros B T R HT HP NT HC HU HR.
  assert (HS : partitioned T (bb_sparts B)) by (rewrite HP; exact HT).
  destruct (build_root_total B T T HT HS (part_valid_S B T R HR)) as [n Hn].
  exists n. intros fuel Hf. destruct (Hn fuel Hf) as [root Hroot]. exists root. split; [exact Hroot|]. intros fuel' Hf'.
  destruct (leaves_total fuel' root Hf') as [[L Y] HL]. exists L, Y. split; [exact HL|].
  exact (sym_main B T HT HP NT HC R HR HU fuel root fuel' L Y Hroot HL).
Qed.
Print Assumptions C15_symmetric_storage.

(** C16. *)
Lemma branch_sound : forall B t s k, branch B t s = inl k ->
  match k with
  | TLowRank => bb_adm B t s = true /\ bb_mint B <= c_depth t /\ bb_mins B <= c_depth s /\ (0 <= c_rank t)%Z /\
                (bb_cons B = true -> (0 <= c_rank s)%Z)
  | TDense => ct_children t = [] /\ ct_children s = []
  end.
Proof.
  intros B t s k H. unfold branch in H. destruct (low_rank_task B t s) eqn:E.
  - injection H as <-. unfold low_rank_task in E. repeat (apply andb_true_iff in E; destruct E as [E ?]).
    repeat split; try assumption; try (apply Nat.leb_le; assumption); try (apply Z.leb_le; assumption).
    intros Hc. rewrite Hc in H. cbn in H. apply Z.leb_le, H.
  - destruct (is_leaf s) eqn:Ls, (is_leaf t) eqn:Lt; cbn [andb] in H; try discriminate.
    + injection H as <-. split; apply is_leaf_children; assumption.
    + destruct (bb_cons B).
      * destruct ((c_rank t <? 0)%Z && (0 <=? c_rank s)%Z); [discriminate|].
        destruct ((c_rank s <? 0)%Z && (0 <=? c_rank t)%Z); discriminate.
      * destruct (c_rank t <? 0)%Z; [discriminate|]. destruct (c_size t <? c_size s); [discriminate|].
        destruct (c_size s <? c_size t); discriminate.
Qed.

Lemma build_branch : forall B f t s b, build_block_tree B f t s = Some b -> forall u, In u (preorder b) ->
  match b_task (rt_val u) with Some k => branch B (b_t (rt_val u)) (b_s (rt_val u)) = inl k | None => True end.
Proof.
  intros B. induction f as [|f IH]; intros t s b H u Hu; [discriminate|]. cbn [build_block_tree] in H.
  destruct (branch B t s) as [k|l] eqn:E.
  - injection H as <-. destruct Hu as [<-|[]]. cbn. exact E.
  - destruct (omap _ l) as [bs|] eqn:Eo; [|discriminate]. injection H as <-. rewrite preorder_eq in Hu.
    destruct Hu as [<-|Hu]; [exact I|]. cbn [rt_children] in Hu. apply in_concat in Hu. destruct Hu as (x & Hx & Hu).
    apply in_map_iff in Hx. destruct Hx as (c & <- & Hc). apply omap_Forall2 in Eo.
    clear - Eo Hc Hu IH. induction Eo as [|y b l bs Hb Eo IHo]; [contradiction|]. destruct Hc as [<-|Hc]; [exact (IH _ _ _ Hb u Hu)|exact (IHo Hc)].
Qed.

(** Any symmetry, any partition setting.  "Rejected" low-rank blocks, which compute_blocks turns into dense ones, are
    low-rank tasks here. *)
Theorem C16_only_admissible_compressed :
  forall B T S fuel root,
    partitioned T (bb_tparts B) -> partitioned S (bb_sparts B) -> part_valid B T ->
    build_root B fuel T S = Some root ->
    forall u, In u (preorder root) ->
    (b_task (rt_val u) = Some TLowRank ->
       bb_adm B (b_t (rt_val u)) (b_s (rt_val u)) = true /\
       bb_mint B <= c_depth (b_t (rt_val u)) /\ bb_mins B <= c_depth (b_s (rt_val u)) /\
       (0 <= c_rank (b_t (rt_val u)))%Z /\ (bb_cons B = true -> (0 <= c_rank (b_s (rt_val u)))%Z)) /\
    (b_task (rt_val u) = Some TDense -> ct_children (b_t (rt_val u)) = [] /\ ct_children (b_s (rt_val u)) = []).
Proof.
  intros B T S fuel root HT HS HV H u Hu. apply (build_root_shape B T S HT HS HV) in H.
  assert (G : match b_task (rt_val u) with Some k => branch B (b_t (rt_val u)) (b_s (rt_val u)) = inl k | None => True end).
  { destruct H as [fuel0 Hi HB|fuel0 root0 p v cs f Ep Ev HB Hi Hreset ->].
    - exact (build_branch B _ _ _ _ HB u Hu).
    - rewrite preorder_eq in Hu. destruct Hu as [<-|Hu]; [exact I|]. cbn [rt_children] in Hu.
      apply in_concat in Hu. destruct Hu as (x & Hx & Hu). apply in_map_iff in Hx. destruct Hx as (c & <- & Hc).
      set (ok := fun b : btree => forall u, In u (preorder b) ->
        match b_task (rt_val u) with Some k => branch B (b_t (rt_val u)) (b_s (rt_val u)) = inl k | None => True end).
      assert (Hsub : forall b c, ok b -> In c (rt_children b) -> ok c).
      { intros b c' Hb Hc' w Hw. apply Hb. rewrite preorder_eq. right. apply in_concat. exists (preorder c').
        split; [apply in_map, Hc'|exact Hw]. }
      apply (reset_inv p ok ok) with (5 := Hreset) (b := c); [| | | |exact Hc|exact Hu].
      + intros b c' Hb Hc' _. exact (Hsub b c' Hb Hc').
      + intros b c' Hb Hc' _. exact (Hsub b c' Hb Hc').
      + intros b [<-|[]]. exact (build_branch B _ _ _ _ HB).
      + intros b []. }
  split; intros E; rewrite E in G; exact (branch_sound _ _ _ _ G).
Qed.
Print Assumptions C16_only_admissible_compressed.

(** C17.  [set_part B p]: the same parameters for the process [p]. *)
Definition set_part (B : bbuild) (p : nat) : bbuild :=
  mkBbuild (Some p) (bb_uplo B) (bb_qpart B) (bb_mint B) (bb_mins B) (bb_cons B) (bb_adm B) (bb_tparts B) (bb_sparts B).

Theorem C17_processes_cover :
  forall B T S fuel fuel' (leaves : nat -> list binfo),
    partitioned T (bb_tparts B) -> partitioned S (bb_sparts B) -> nonempty T -> nonempty S ->
    bb_uplo B = UpN -> (c_rank T < 0)%Z -> (forall u, In u (bb_tparts B) -> contains T u = true) ->
    (forall p, p < length (bb_tparts B) ->
       exists root sym, build_root (set_part B p) fuel T S = Some root /\ get_leaves_from fuel' root = Some (leaves p, sym)) ->
    forall i j, in_iv i (interval T) = true -> in_iv j (interval S) = true ->
      exists p, p < length (bb_tparts B) /\ count (covers i j) (leaves p) = 1 /\
        forall q, q < length (bb_tparts B) -> q <> p -> count (covers i j) (leaves q) = 0.
Proof.
  intros B T S fuel fuel' leaves HT HS NT NS HN Hr Hc HL i j Hi Hj.
  assert (E : forall p, p < length (bb_tparts B) ->
    count (covers i j) (leaves p) = if match nth_error (bb_tparts B) p with Some u => in_iv i (interval u) | None => false end then 1 else 0).
  { intros p Hp. destruct (HL p Hp) as (root & sym & H1 & H2).
    assert (HV : part_valid (set_part B p) T).
    { unfold part_valid. cbn. destruct (nth_error (bb_tparts B) p) as [u|] eqn:Eu; [|apply nth_error_None in Eu; lia].
      right. split; [exact Hr|]. apply Hc. eapply nth_error_In; eauto. }
    destruct (nosym_main (set_part B p) T S HT HS NT NS HN HV fuel root fuel' _ _ H1 H2) as [_ Q].
    rewrite Q. unfold row_in. cbn. rewrite Hi, Hj, andb_true_r. reflexivity. }
  destruct (pt_above _ _ HT T (root_in T) Hr) as (_ & _ & _ & Tl).
  assert (exists u, In u (bb_tparts B) /\ in_iv i (interval u) = true) as (u & Hu & Hiu).
  { destruct (tiles_find _ _ _ i Tl) as (k & Hk & Q).
    { unfold in_iv in Hi. apply andb_true_iff in Hi. destruct Hi as [I1 I2]. apply Nat.leb_le in I1. apply Nat.ltb_lt in I2. lia. }
    apply filter_In in Hk. exists k. split; [apply Hk|exact Q]. }
  destruct (In_nth_error _ _ Hu) as [p Hp].
  assert (Hpl : p < length (bb_tparts B)) by (apply nth_error_Some; congruence).
  exists p. split; [exact Hpl|]. rewrite (E p Hpl), Hp, Hiu. split; [reflexivity|].
  intros q Hq Hne. rewrite (E q Hq). destruct (nth_error (bb_tparts B) q) as [v|] eqn:Ev; [|reflexivity].
  destruct (in_iv i (interval v)) eqn:Ei; [|reflexivity]. exfalso. apply Hne.
  exact (pt_disjoint _ _ HT _ _ _ _ i Ev Hp Ei Hiu).
Qed.
Print Assumptions C17_processes_cover.

(** *** Examples: the tree of P_Cluster.v, 23 points, 5 parts. *)
Definition exT_of (o : option (bstate * ctree * bool)) : ctree :=
  match o with Some (_, t, _) => t | None => CNode (root_info exP) [] end.
Definition exT : ctree := exT_of (cluster_tree (isort ex_key) Regular exP 25).
Definition ex_parts : list ctree := level (part_depth exP) exT.
(** Admissible when the offsets are far apart. *)
Definition ex_adm (t s : ctree) : bool :=
  (c_off t + c_size t + 3 <=? c_off s) || (c_off s + c_size s + 3 <=? c_off t).
Definition exB (tp qp : option nat) (u : uplo) (cons : bool) : bbuild := mkBbuild tp u qp 0 0 cons ex_adm ex_parts ex_parts.
Definition run_ex (B : bbuild) : option (list binfo * list binfo) :=
  match build_root B 200 exT exT with Some root => get_leaves_from 2000 root | None => None end.
Definition pairs (n : nat) : list (nat * nat) := list_prod (seq 0 n) (seq 0 n).

Example ex_parts_ok : map interval ex_parts = [(0, 5); (5, 6); (11, 4); (15, 4); (19, 4)].
Proof. vm_compute. reflexivity. Qed.

Lemma ex_hyps_gen : forall o : option (bstate * ctree * bool),
  o = cluster_tree (isort ex_key) Regular exP 25 ->
  match o with Some (s, t, l) => st_errors s = 0 /\ l = false | None => False end ->
  partitioned (exT_of o) (level (part_depth exP) (exT_of o)) /\ nonempty (exT_of o) /\ (c_rank (exT_of o) < 0)%Z.
Proof.
  intros [[[s t] l]|] Et E; [|contradiction]. destruct E as [E ->].
  destruct (built_partitioned (isort ex_key) Regular exP 25 s t false) as (A & C & D & _);
    [apply isort_ok|cbn; lia|cbn; lia|cbn; intros _ _; lia|discriminate|symmetry; exact Et|exact E|].
  unfold exT_of. split; [exact A|split; [exact C|exact D]].
Qed.
Lemma ex_tree_ok : match cluster_tree (isort ex_key) Regular exP 25 with Some (s, t, l) => st_errors s = 0 /\ l = false | None => False end.
Proof. vm_compute. auto. Qed.
Lemma ex_hyps : partitioned exT ex_parts /\ nonempty exT /\ (c_rank exT < 0)%Z.
Proof. unfold ex_parts, exT. exact (ex_hyps_gen _ eq_refl ex_tree_ok). Qed.

(** Without symmetry, consistent or not, for the whole matrix and for the part 3. *)
Example ex_blocks : forall cons, In cons [true; false] -> forall tp, In tp [None; Some 3] ->
  match run_ex (exB tp None UpN cons) with
  | Some (L, Y) => 10 <= length L /\ existsb (fun b => match b_task b with Some TLowRank => true | _ => false end) L = true /\
      forallb (fun ij => count (covers (fst ij) (snd ij)) L =? (if row_in (exB tp None UpN cons) exT (fst ij) then 1 else 0)) (pairs 23) = true
  | None => False
  end.
Proof. intros cons [<-|[<-|[]]] tp [<-|[<-|[]]]; vm_compute; repeat split; lia. Qed.

(** Symmetric, for the whole matrix, then for the part 3. *)
Example ex_sym_blocks : forall u, In u [UpL; UpU] ->
  match run_ex (exB None None u true) with
  | Some (L, Y) => 10 <= length L /\ 5 <= length Y /\
      forallb (fun ij => count (covers (fst ij) (snd ij)) L + count (covers_mirror (fst ij) (snd ij)) Y =? 1) (pairs 23) = true
  | None => False
  end.
Proof. intros u [<-|[<-|[]]]; vm_compute; repeat split; lia. Qed.

Example ex_sym_part_blocks : forall u, In u [UpL; UpU] ->
  match run_ex (exB (Some 3) (Some 3) u true), nth_error ex_parts 3 with
  | Some (L, Y), Some R => 5 <= length L /\ 1 <= length Y /\
      forallb (fun ij => count (covers (fst ij) (snd ij)) L + count (covers_mirror (fst ij) (snd ij)) Y =?
                         (if in_iv (fst ij) (interval R) then 1 else 0)) (pairs 23) = true
  | _, _ => False
  end.
Proof. intros u [<-|[<-|[]]]; vm_compute; repeat split; lia. Qed.

(** Outside the hypotheses of C15: a partition for symmetry without a target partition.  The root is marked symmetric, so
    that all the leaves are mirrored although only the part [q] dropped blocks. *)
Theorem C15_qpart_alone_refuted :
  exists L Y i j, run_ex (exB None (Some 3) UpL true) = Some (L, Y) /\ i < 23 /\ j < 23 /\
    count (covers i j) L + count (covers_mirror i j) Y = 2.
Proof.
  destruct (run_ex (exB None (Some 3) UpL true)) as [[L Y]|] eqn:E; [|vm_compute in E; discriminate].
  exists L, Y, 0, 22. split; [reflexivity|]. split; [lia|split; [lia|]]. vm_compute in E. injection E as <- <-. vm_compute. reflexivity.
Qed.
