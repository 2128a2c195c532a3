(** * Property C65: sub-blocks and the diagonal block of a process.

    Vocabulary: [sub K A t s] (ArithModel.v) is get_sub_hmatrix; SubSpec.v; [hbuild] is HMatrixTreeBuilder::build. *)

From Coq Require Import List Arith ZArith Bool Lia Permutation.
From Verif Require Import ClusterModel ClusterSpec ClusterProofs ClusterDepth IOModel IOSpec IOProofs BlockModel BlockSpec BlockProofs
  BlockFinal BlockSym BlockLink P_Cluster P_Block Algebra BlasModel HMatModel HMatSpec HMatBuild P_HMat DistModel ArithModel SubSpec SubProofs.
Import ListNotations.

(** C65.  get_sub_hmatrix returns a block of the matrix with the clusters that are asked for, and the null pointer only when there is
    none. *)
Theorem C65_get_sub_hmatrix :
  forall K (A : hmat K) t s,
    (forall D, sub K A t s = Some D -> block_in A D /\ same_clusters t s D) /\
    (sub K A t s = None <-> forall D, block_in A D -> ~ same_clusters t s D).
Proof.
  intros K A t s.
  assert (Dec : (exists x, block_in A x /\ same_clusters t s x) \/ forall x, block_in A x -> ceq t (h_t (rt_val x)) && ceq s (h_s (rt_val x)) = false).
  { unfold block_in. induction (preorder A) as [|a l IH]; [right; intros x []|].
    destruct (ceq t (h_t (rt_val a)) && ceq s (h_s (rt_val a))) eqn:E; [left; exists a; split; [left; reflexivity|apply andb_true_iff, E]|].
    destruct IH as [(x & Hx & Q)|IH]; [left; exists x; split; [right; exact Hx|exact Q]|]. right. intros x [<-|Hx]; [exact E|apply IH, Hx]. }
  destruct Dec as [(x & Hx & [Q1 Q2])|Hn].
  - destruct (sub_ok K t s A x Hx) as (D & E & HD & Hh); [rewrite Q1, Q2; reflexivity|]. apply andb_true_iff in Hh. rewrite E. split.
    + intros D' E'. injection E' as <-. split; [exact HD|exact Hh].
    + split; [discriminate|]. intros Q. exfalso. exact (Q D HD Hh).
  - rewrite (sub_none K t s A Hn). split; [discriminate|]. split; [|reflexivity]. intros _ D HD [Q1 Q2]. specialize (Hn D HD). rewrite Q1, Q2 in Hn. discriminate.
Qed.
Print Assumptions C65_get_sub_hmatrix.

(** The diagonal block exists and is what the builder makes of the clusters of the process. *)
Lemma diagonal_found : forall K sy B gen compress T S fuel A p u v,
  bb_cons B = true -> partitioned T (bb_tparts B) -> partitioned S (bb_sparts B) -> nonempty T -> nonempty S ->
  (forall w, In w (ct_nodes T) -> depth_ok w) -> (forall w, In w (ct_nodes S) -> depth_ok w) ->
  bb_tpart B = Some p \/ bb_tpart B = None -> process_clusters B T S p u v ->
  (forall k l, In k (ct_nodes T) -> In l (ct_nodes S) -> In u (ct_nodes k) -> In v (ct_nodes l) -> removed B k l = false) ->
  hbuild K sy B gen compress fuel T S = Some A ->
  exists D f, sub K A u v = Some D /\ block_in A D /\ h_t (rt_val D) = u /\ h_s (rt_val D) = v /\ hbuild K sy B gen compress f u v = Some D.
Proof.
  intros K sy B gen compress T S fuel A p u v HC HT HS NT NS DT DS Hp [P1 P2 P3 P4 P5 P6 P7] Hr HA.
  unfold hbuild in HA. destruct (build_root B fuel T S) as [root|] eqn:E; [|discriminate]. injection HA as <-.
  assert (HV : part_valid B T).
  { unfold part_valid. destruct Hp as [->| ->]; [|exact I]. rewrite P1. destruct P5 as [->|Q]; [left; reflexivity|right; split; [exact Q|]].
    pose proof (nodes_inside T (pt_node _ _ HT) u P3). apply contains_iff. lia. }
  destruct (diag_block B T S HT HS NT NS p u v P1 P2 HC Hp Hr P3 P4 P5 P6 P7 DT DS HV fuel root E) as [(x & Hx & Q1 & Q2) Hall].
  assert (HI : forall y, In y (preorder root) -> In (hfill K sy B gen compress y) (preorder (hfill K sy B gen compress root))).
  { intros y Hy. rewrite preorder_hfill. apply in_map, Hy. }
  assert (Ht : forall y, h_t (rt_val (hfill K sy B gen compress y)) = b_t (rt_val y) /\ h_s (rt_val (hfill K sy B gen compress y)) = b_s (rt_val y)) by (intros [i cs]; split; reflexivity).
  destruct (sub_ok K u v (hfill K sy B gen compress root) (hfill K sy B gen compress x) (HI x Hx)) as (D & ED & HD & Hh).
  { destruct (Ht x) as [-> ->]. rewrite Q1, Q2. rewrite !(ArithTree.ceq_refl). reflexivity. }
  assert (HD' := HD). rewrite preorder_hfill in HD'. apply in_map_iff in HD'. destruct HD' as (y & <- & Hy). destruct (Ht y) as [T1 T2]. rewrite T1, T2 in Hh. apply andb_true_iff in Hh. destruct Hh as [C1 C2].
  destruct (Hall y Hy C1 C2) as (R1 & R2 & f & Hf). exists (hfill K sy B gen compress y), f. split; [exact ED|]. split; [exact HD|].
  split; [congruence|]. split; [congruence|]. unfold hbuild. rewrite Hf. reflexivity.
Qed.

(** Without symmetry: the pointer block_diagonal_hmatrix of DistributedOperatorFromHMatrix is not null and represents the entries of the
    generator with rows in [u] and columns in [v] (up to the relation [P] that the compressed blocks satisfy). *)
Theorem C65_diagonal_block :
  forall K B gen compress T S fuel A p u v,
    bb_uplo B = UpN -> bb_cons B = true -> partitioned T (bb_tparts B) -> partitioned S (bb_sparts B) -> nonempty T -> nonempty S ->
    (forall w, In w (ct_nodes T) -> depth_ok w) -> (forall w, In w (ct_nodes S) -> depth_ok w) -> compress_ok K compress ->
    bb_tpart B = Some p \/ bb_tpart B = None -> process_clusters B T S p u v ->
    hbuild K SyN B gen compress fuel T S = Some A ->
    exists D L, sub K A u v = Some D /\ block_in A D /\ h_t (rt_val D) = u /\ h_s (rt_val D) = v /\
      hleaves K D = Some (L, []) /\ well_formed (rt_val D) L [] SyN /\ data_on_leaves D /\
      forall P : car K -> car K -> Prop, (forall c, P c c) -> compress_within K gen compress P ->
        forall i j, in_iv i (interval u) = true -> in_iv j (interval v) = true -> P (value L [] SyN i j) (gen i j).
Proof.
  intros K B gen compress T S fuel A p u v HN HC HT HS NT NS DT DS Hco Hp HP HA.
  destruct (diagonal_found K SyN B gen compress T S fuel A p u v HC HT HS NT NS DT DS Hp HP) as (D & f & E1 & E2 & E3 & E4 & E5); [|exact HA|].
  { intros k l _ _ _ _. unfold removed. rewrite HN. reflexivity. }
  assert (HV : part_valid B u). { unfold part_valid. destruct Hp as [->| ->]; [|exact I]. rewrite (pc_t _ _ _ _ _ _ HP). left. reflexivity. }
  destruct (C18_built_matrices K B gen compress u v f D HN (partitioned_sub T _ u HT (pc_ut _ _ _ _ _ _ HP)) (partitioned_sub S _ v HS (pc_vs _ _ _ _ _ _ HP))
    (nonempty_sub T u NT (pc_ut _ _ _ _ _ _ HP)) (nonempty_sub S v NS (pc_vs _ _ _ _ _ _ HP)) HV Hco E5) as (L & F1 & F2 & F3 & F4 & F5 & F6).
  exists D, L. split; [exact E1|]. split; [exact E2|]. split; [exact E3|]. split; [exact E4|]. split; [exact F1|]. split; [exact F2|]. split; [exact F3|].
  intros P Pr Hw i j Hi Hj. apply F6; auto. rewrite <- F4, E3. exact Hi.
Qed.
Print Assumptions C65_diagonal_block.

(** With symmetry: the matrix of one process (rows of its part), or the whole matrix. *)
Theorem C65_diagonal_block_symmetric :
  forall K sy B gen compress T fuel A p u,
    (sy = SyS \/ sy = SyH) -> (forall i j, gen j i = flip sy (gen i j)) ->
    bb_uplo B <> UpN -> bb_cons B = true -> partitioned T (bb_tparts B) -> bb_sparts B = bb_tparts B -> nonempty T ->
    (forall w, In w (ct_nodes T) -> depth_ok w) -> compress_ok K compress ->
    (bb_tpart B = Some p /\ bb_qpart B = Some p) \/ (bb_tpart B = None /\ bb_qpart B = None) -> process_clusters B T T p u u ->
    hbuild K sy B gen compress fuel T T = Some A ->
    exists D L Y, sub K A u u = Some D /\ block_in A D /\ h_t (rt_val D) = u /\ h_s (rt_val D) = u /\
      hleaves K D = Some (L, Y) /\ well_formed (rt_val D) L Y sy /\ data_on_leaves D /\
      forall P : car K -> car K -> Prop, (forall c, P c c) -> (forall a b, P a b -> P (flip sy a) (flip sy b)) -> compress_within K gen compress P ->
        forall i j, in_iv i (interval u) = true -> in_iv j (interval u) = true -> P (value L Y sy i j) (gen i j).
Proof.
  intros K sy B gen compress T fuel A p u Hsy Hg HU HC HT HS NT DT Hco Hp HP HA. pose proof (pc_ut _ _ _ _ _ _ HP) as Hu. pose proof (pc_t _ _ _ _ _ _ HP) as Ht.
  destruct (diagonal_found K sy B gen compress T T fuel A p u u HC HT) as (D & f & E1 & E2 & E3 & E4 & E5); auto.
  { rewrite HS. exact HT. }
  { destruct Hp as [[Q _]|[Q _]]; auto. }
  { intros k l Nk Nl Uk Ul.
    assert (Ik := nodes_inside k (fun x Hx => pt_node _ _ HT x (nodes_trans T k x Nk Hx)) u Uk).
    assert (Il := nodes_inside l (fun x Hx => pt_node _ _ HT x (nodes_trans T l x Nl Hx)) u Ul).
    pose proof (NT u Hu) as Z. fold (c_size u) in Z. unfold removed. destruct (bb_uplo B); [reflexivity| |].
    - replace (c_off k + c_size k <=? c_off l) with false by (symmetry; apply Nat.leb_gt; lia). reflexivity.
    - replace (c_off l + c_size l <=? c_off k) with false by (symmetry; apply Nat.leb_gt; lia). reflexivity. }
  destruct (C19_built_matrices K sy B gen compress u u f D Hsy Hg HU (partitioned_sub T _ u HT Hu) HS (nonempty_sub T u NT Hu) HC) as (L & Y & F1 & F2 & F3 & F4 & F5 & F6); auto.
  { destruct Hp as [[Q1 Q2]|[Q1 Q2]]; [right; exists p; auto 10|left; auto]. }
  exists D, L, Y. split; [exact E1|]. split; [exact E2|]. split; [exact E3|]. split; [exact E4|]. split; [exact F1|]. split; [exact F2|]. split; [exact F3|exact F6].
Qed.
Print Assumptions C65_diagonal_block_symmetric.

(** *** Examples: the 23 points of P_HMat.v, 5 parts.  Process 2 owns the rows 11..14. *)
Lemma ex_depths : forall w, In w (ct_nodes exT) -> depth_ok w.
Proof.
  assert (G : forall o : option (bstate * ctree * bool), o = cluster_tree (isort ex_key) Regular exP 25 ->
    match o with Some _ => True | None => False end -> forall w, In w (ct_nodes (exT_of o)) -> depth_ok w).
  { intros [[[s t] l]|] Et E; [|contradiction]. symmetry in Et. exact (proj2 (final_depth_ok _ _ _ _ _ _ _ Et)). }
  unfold exT. apply G; [reflexivity|]. vm_compute. exact I.
Qed.
Definition ex_part (p : nat) : ctree := nth p ex_parts exT.
Definition dclusters (D : option (hmat Zc)) : option ((nat * nat) * (nat * nat)) := option_map (fun d => (interval (h_t (rt_val d)), interval (h_s (rt_val d)))) D.
Example ex_diagonal_blocks : forall cfg : option nat * uplo, In cfg [(None, UpN); (Some 2, UpN)] ->
  dclusters (do A <- hbuild Zc SyN (exB (fst cfg) None (snd cfg) true) ex_gen' ex_compress 200 exT exT; sub Zc A (ex_part 2) (ex_part 2)) = Some ((11, 4), (11, 4)).
Proof. intros cfg [<-|[<-|[]]]; vm_compute; reflexivity. Qed.
Example ex_diagonal_blocks_symmetric : forall u, In u [UpL; UpU] ->
  dclusters (do A <- exS (Some 2) u; sub Zc A (ex_part 2) (ex_part 2)) = Some ((11, 4), (11, 4)).
Proof. intros u [<-|[<-|[]]]; vm_compute; reflexivity. Qed.
(** A block that is not in the tree. *)
Example ex_no_block : match exA with Some A => match sub Zc A (ex_part 2) exT with Some _ => false | None => true end | None => false end = true.
Proof. vm_compute. reflexivity. Qed.
Lemma sub_hypotheses : forall B T parts d p u, bb_tparts B = parts -> bb_sparts B = parts -> parts = level d T -> (c_rank T < 0)%Z -> nth_error parts p = Some u ->
  process_clusters B T T p u u.
Proof.
  intros B T parts d p u H1 H2 H3 H4 H5.
  assert (I : In u (ct_nodes T)). { apply nth_error_In in H5. rewrite H3 in H5. unfold level in H5. apply filter_In in H5. apply H5. }
  constructor; [rewrite H1; exact H5|rewrite H2; exact H5|exact I|exact I|right; exact H4|right; exact H4|right; exact H4].
Qed.
Lemma ex_parts_5 : (length ex_parts =? 5) = true. Proof. vm_compute. reflexivity. Qed.
Lemma ex_part_nth : forall p, p < 5 -> nth_error ex_parts p = Some (ex_part p).
Proof. intros p Hp. unfold ex_part. apply nth_error_nth'. pose proof ex_parts_5 as L. apply Nat.eqb_eq in L. rewrite L. exact Hp. Qed.
Example ex_sub_hypotheses : forall p, p < 5 -> process_clusters (exB (Some p) None UpN true) exT exT p (ex_part p) (ex_part p).
Proof.
  intros p Hp. apply (sub_hypotheses _ exT ex_parts (part_depth exP)).
  - unfold exB. cbn [bb_tparts]. reflexivity.
  - unfold exB. cbn [bb_sparts]. reflexivity.
  - unfold ex_parts. reflexivity.
  - exact (proj2 (proj2 ex_hyps)).
  - apply ex_part_nth, Hp.
Qed.

(** *** Without the consistency of the block tree (set_block_tree_consistency(false)) the pointer may be null: 4 rows in 2 parts of 2, 2
    columns in 2 parts of 1. *)
Definition cl (rank off size depth counter : nat) (kids : list ctree) : ctree := CNode (mkCinfo (Z.of_nat rank) off size depth counter []) kids.
Definition top (size : nat) (kids : list ctree) : ctree := CNode (mkCinfo (-1) 0 size 0 0 []) kids.
Definition iT0 : ctree := cl 0 0 2 1 0 [cl 0 0 1 2 0 []; cl 0 1 1 2 1 []].
Definition iT1 : ctree := cl 1 2 2 1 1 [cl 1 2 1 2 2 []; cl 1 3 1 2 3 []].
Definition iS0 : ctree := cl 0 0 1 1 0 [].
Definition iS1 : ctree := cl 1 1 1 1 1 [].
Definition iB (cons : bool) : bbuild := mkBbuild (Some 0) UpN None 0 0 cons (fun _ _ => false) [iT0; iT1] [iS0; iS1].
Theorem C65_inconsistent_refuted :
  let run cons := do A <- hbuild Zc SyN (iB cons) ex_gen' ex_compress 20 (top 4 [iT0; iT1]) (top 2 [iS0; iS1]); Some (match sub Zc A iT0 iS0 with Some _ => true | None => false end) in
  process_clusters (iB false) (top 4 [iT0; iT1]) (top 2 [iS0; iS1]) 0 iT0 iS0 /\ run false = Some false /\ run true = Some true.
Proof.
  split; [|split; vm_compute; reflexivity]. constructor; try reflexivity; try (right; reflexivity); cbn; auto.
Qed.
Print Assumptions C65_inconsistent_refuted.
