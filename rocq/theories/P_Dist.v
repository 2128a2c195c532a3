(** * Properties C35-C38, C46: distributed operators.

    Vocabulary: DistModel.v (model: every function is the collective call on all the processes and takes and returns the
    list of the buffers of the processes), DistSpec.v (specification).  [world K D] is the number of processes, the rows
    and columns of the global matrix [A] are in user numbering, [mul], [tmul] are the products by A and its transpose. *)

From Coq Require Import List Arith ZArith Bool Lia Ring Permutation.
From Verif Require Import ClusterModel ClusterSpec ClusterProofs ClusterMore ClusterFinal ClusterDepth IOModel IOSpec IOProofs BlockModel BlockSpec BlockProofs
  BlockFinal BlockSym BlockLink P_Cluster P_Block Algebra BlasModel BlasProofs HMatModel HMatSpec HMatProofs HMatLoops HMatProducts HMatBuild HMatTop P_HMat
  DistModel DistSpec DistProofs DistVec DistMat DistLocal DistLink.
Import ListNotations.

(** C35.  Any number of processes, any partitions, any local operators that add up to the row blocks of A. *)
Theorem C35_vector_product_global :
  forall K (D : dop K) (A : nat -> nat -> car K),
    let NR := pa_n (d_t K D) in let NC := pa_n (d_s K D) in
    partition_ok (d_t K D) (world K D) -> partition_ok (d_s K D) (world K D) ->
    row_blocks D A run_vec 1 ->
    forall ins outs x,
      (forall r, r < world K D -> holds_vec (at_rank K ins r) NC x) ->
      (forall r, r < world K D -> NR <= length (at_rank K outs r)) ->
      exists ys, vec_g2g K D ins outs = Some ys /\ length ys = world K D /\
        forall r, r < world K D ->
          holds_vec (at_rank K ys r) NR (mul NC A x) /\ only_first NR (at_rank K outs r) (at_rank K ys r).
Proof.
  intros K D A NR NC HT HS HB ins outs x Hi Ho. destruct (vec_g2g_ok K D A HT HS HB ins outs x Hi Ho) as (ys & E1 & E2 & E3).
  exists ys. split; [exact E1|]. split; [exact E2|]. intros r Hr. destruct (E3 r Hr). auto.
Qed.
Print Assumptions C35_vector_product_global.

(** C36. *)
Theorem C36_matrix_product_global :
  forall K (D : dop K) (A : nat -> nat -> car K) mu,
    let NR := pa_n (d_t K D) in let NC := pa_n (d_s K D) in
    partition_ok (d_t K D) (world K D) -> partition_ok (d_s K D) (world K D) ->
    row_blocks D A (run_mat mu) mu ->
    forall ins outs X,
      (forall r, r < world K D -> holds_cols (at_rank K ins r) NC mu X) ->
      (forall r, r < world K D -> NR * mu <= length (at_rank K outs r)) ->
      exists ys, mat_g2g K D ins outs mu = Some ys /\ length ys = world K D /\
        forall r, r < world K D ->
          holds_cols (at_rank K ys r) NR mu (fun a c => mul NC A (fun b => X b c) a) /\
          only_first (NR * mu) (at_rank K outs r) (at_rank K ys r).
Proof.
  intros K D A mu NR NC HT HS HB ins outs X Hi Ho. destruct (mat_g2g_ok K D A HT HS mu HB ins outs X Hi Ho) as (ys & E1 & E2 & E3).
  exists ys. split; [exact E1|]. split; [exact E2|]. intros r Hr. destruct (E3 r Hr). auto.
Qed.
Print Assumptions C36_matrix_product_global.

(** C37.  Without symmetry the local operators must provide the transposed products; with symmetry S or H the operator
    uses the products of the row blocks, and A must really be symmetric (Hermitian).  In all cases the result is the
    product by the transpose. *)
Theorem C37_transposed_vector_product_global :
  forall K (D : dop K) (A : nat -> nat -> car K),
    let NR := pa_n (d_t K D) in let NC := pa_n (d_s K D) in
    partition_ok (d_t K D) (world K D) -> partition_ok (d_s K D) (world K D) ->
    sym_matrix D A ->
    match d_sym K D with SyS | SyH => row_blocks D A run_vec 1 | _ => transposed_blocks D A run_tvec 1 end ->
    forall ins outs x,
      (forall r, r < world K D -> holds_vec (at_rank K ins r) NR x) ->
      (forall r, r < world K D -> NC <= length (at_rank K outs r)) ->
      exists ys, tvec_g2g K D ins outs = Some ys /\ length ys = world K D /\
        forall r, r < world K D ->
          holds_vec (at_rank K ys r) NC (tmul NR A x) /\ only_first NC (at_rank K outs r) (at_rank K ys r).
Proof.
  intros K D A NR NC HT HS Hy HB ins outs x Hi Ho. destruct (tvec_g2g_ok K D A HT HS Hy HB ins outs x Hi Ho) as (ys & E1 & E2 & E3).
  exists ys. split; [exact E1|]. split; [exact E2|]. intros r Hr. destruct (E3 r Hr). auto.
Qed.
Print Assumptions C37_transposed_vector_product_global.

(** The local-to-local variant: process r gets the coefficients of its part of the source; the work array has room for a
    global vector and P local vectors. *)
Theorem C37_transposed_vector_product_local :
  forall K (D : dop K) (A : nat -> nat -> car K),
    let NR := pa_n (d_t K D) in let NC := pa_n (d_s K D) in
    partition_ok (d_t K D) (world K D) -> partition_ok (d_s K D) (world K D) ->
    (d_perm K D = true -> partition_local (d_t K D)) -> (d_perm K D = true -> partition_local (d_s K D)) ->
    sym_matrix D A -> (d_sym K D = SyS \/ d_sym K D = SyH -> pa_parts (d_t K D) = pa_parts (d_s K D)) ->
    match d_sym K D with SyS | SyH => row_blocks D A run_vec 1 | _ => transposed_blocks D A run_tvec 1 end ->
    forall ins outs works x,
      (forall r o s, r < world K D -> nth_error (pa_parts (d_t K D)) r = Some (o, s) -> holds_vec (at_rank K ins r) s (part_of o x)) ->
      (forall r o s, r < world K D -> nth_error (pa_parts (d_s K D)) r = Some (o, s) -> s <= length (at_rank K outs r)) ->
      (forall r o s, r < world K D -> nth_error (pa_parts (d_s K D)) r = Some (o, s) -> NC + world K D * s <= length (at_rank K works r)) ->
      exists ys, tvec_l2l K D ins outs works = Some ys /\ length ys = world K D /\
        forall r o s, r < world K D -> nth_error (pa_parts (d_s K D)) r = Some (o, s) ->
          only_first s (at_rank K outs r) (at_rank K ys r) /\ holds_vec (at_rank K ys r) s (part_of o (tmul NR A x)).
Proof. intros K D A NR NC HT HS HTl HSl. exact (tvec_l2l_ok K D A HT HS HTl HSl). Qed.
Print Assumptions C37_transposed_vector_product_local.

(** C38. *)
Theorem C38_vector_product_local :
  forall K (D : dop K) (A : nat -> nat -> car K),
    let NC := pa_n (d_s K D) in
    partition_ok (d_t K D) (world K D) -> partition_ok (d_s K D) (world K D) ->
    (d_perm K D = true -> partition_local (d_t K D)) -> (d_perm K D = true -> partition_local (d_s K D)) ->
    row_blocks D A run_vec 1 ->
    forall ins outs works x,
      (forall r o s, r < world K D -> nth_error (pa_parts (d_s K D)) r = Some (o, s) -> holds_vec (at_rank K ins r) s (part_of o x)) ->
      (forall r o s, r < world K D -> nth_error (pa_parts (d_t K D)) r = Some (o, s) -> s <= length (at_rank K outs r)) ->
      (forall r, r < world K D -> NC <= length (at_rank K works r)) ->
      exists ys, vec_l2l K D ins outs works = Some ys /\ length ys = world K D /\
        forall r o s, r < world K D -> nth_error (pa_parts (d_t K D)) r = Some (o, s) ->
          only_first s (at_rank K outs r) (at_rank K ys r) /\ holds_vec (at_rank K ys r) s (part_of o (mul NC A x)).
Proof. intros K D A NC HT HS HTl HSl. exact (vec_l2l_ok K D A HT HS HTl HSl). Qed.
Print Assumptions C38_vector_product_local.

(** C46.  Multi-vector variants. *)
Theorem C46_matrix_product_local :
  forall K (D : dop K) (A : nat -> nat -> car K) mu,
    let NC := pa_n (d_s K D) in
    partition_ok (d_t K D) (world K D) -> partition_ok (d_s K D) (world K D) ->
    (d_perm K D = true -> partition_local (d_t K D)) -> (d_perm K D = true -> partition_local (d_s K D)) ->
    row_blocks D A (run_mat mu) mu ->
    forall ins outs works X,
      (forall r o s, r < world K D -> nth_error (pa_parts (d_s K D)) r = Some (o, s) -> holds_cols (at_rank K ins r) s mu (fun i c => X (o + i) c)) ->
      (forall r o s, r < world K D -> nth_error (pa_parts (d_t K D)) r = Some (o, s) -> s * mu <= length (at_rank K outs r)) ->
      (forall r, r < world K D -> NC * mu <= length (at_rank K works r)) ->
      exists ys, mat_l2l K D ins outs works mu = Some ys /\ length ys = world K D /\
        forall r o s, r < world K D -> nth_error (pa_parts (d_t K D)) r = Some (o, s) ->
          only_first (s * mu) (at_rank K outs r) (at_rank K ys r) /\
          holds_cols (at_rank K ys r) s mu (fun i c => mul NC A (fun b => X b c) (o + i)).
Proof. intros K D A mu NC HT HS HTl HSl. exact (mat_l2l_ok K D A HT HS mu HTl HSl). Qed.
Print Assumptions C46_matrix_product_local.

(** The transposed multi-vector products: LocalOperator replaces the rows of its source cluster, so that the source
    clusters of the local operators of a process must be disjoint ([transposed_blocks_disjoint]), unless they add
    ([transposed_blocks]). *)
Theorem C46_transposed_matrix_product_global :
  forall K (D : dop K) (A : nat -> nat -> car K) mu,
    let NR := pa_n (d_t K D) in let NC := pa_n (d_s K D) in
    partition_ok (d_t K D) (world K D) -> partition_ok (d_s K D) (world K D) ->
    sym_matrix D A ->
    match d_sym K D with
    | SyS | SyH => row_blocks D A (run_mat mu) mu
    | _ => transposed_blocks D A (run_tmat mu) mu \/ transposed_blocks_disjoint D A (run_tmat mu) mu
    end ->
    forall ins outs X,
      (forall r, r < world K D -> holds_cols (at_rank K ins r) NR mu X) ->
      (forall r, r < world K D -> NC * mu <= length (at_rank K outs r)) ->
      exists ys, tmat_g2g K D ins outs mu = Some ys /\ length ys = world K D /\
        forall r, r < world K D ->
          only_first (NC * mu) (at_rank K outs r) (at_rank K ys r) /\
          holds_cols (at_rank K ys r) NC mu (fun b c => tmul NR A (fun a => X a c) b).
Proof. intros K D A mu NR NC HT HS. exact (tmat_g2g_ok K D A HT HS mu). Qed.
Print Assumptions C46_transposed_matrix_product_global.

Theorem C46_transposed_matrix_product_local :
  forall K (D : dop K) (A : nat -> nat -> car K) mu,
    let NR := pa_n (d_t K D) in let NC := pa_n (d_s K D) in
    partition_ok (d_t K D) (world K D) -> partition_ok (d_s K D) (world K D) ->
    (d_perm K D = true -> partition_local (d_t K D)) -> (d_perm K D = true -> partition_local (d_s K D)) ->
    sym_matrix D A -> (d_sym K D = SyS \/ d_sym K D = SyH -> pa_parts (d_t K D) = pa_parts (d_s K D)) ->
    match d_sym K D with
    | SyS | SyH => row_blocks D A (run_mat mu) mu
    | _ => transposed_blocks D A (run_tmat mu) mu \/ transposed_blocks_disjoint D A (run_tmat mu) mu
    end ->
    forall ins outs works X,
      (forall r o s, r < world K D -> nth_error (pa_parts (d_t K D)) r = Some (o, s) -> holds_cols (at_rank K ins r) s mu (fun i c => X (o + i) c)) ->
      (forall r o s, r < world K D -> nth_error (pa_parts (d_s K D)) r = Some (o, s) -> s * mu <= length (at_rank K outs r)) ->
      (forall r o s, r < world K D -> nth_error (pa_parts (d_s K D)) r = Some (o, s) -> NC * mu + world K D * (s * mu) <= length (at_rank K works r)) ->
      exists ys, tmat_l2l K D ins outs works mu = Some ys /\ length ys = world K D /\
        forall r o s, r < world K D -> nth_error (pa_parts (d_s K D)) r = Some (o, s) ->
          only_first (s * mu) (at_rank K outs r) (at_rank K ys r) /\
          holds_cols (at_rank K ys r) s mu (fun i c => tmul NR A (fun a => X a c) (o + i)).
Proof. intros K D A mu NR NC HT HS HTl HSl. exact (tmat_l2l_ok K D A HT HS mu HTl HSl). Qed.
Print Assumptions C46_transposed_matrix_product_local.

(** ** The hypotheses hold for the operators that the library builds *)

(** The partition of a cluster tree. *)
Theorem C35_cluster_partition :
  forall sorter strat P fuel s t loc,
    sorter_ok sorter -> 1 <= bp_nc P -> 1 <= bp_sp P ->
    (bp_given P = None -> bp_nc P <= bp_sp P -> 1 <= bp_logdepth P /\ bp_nc P ^ bp_logdepth P <= bp_sp P) ->
    (forall part, bp_given P = Some part -> part <> [] /\ tiles 0 (bp_n P) part /\ forall os, In os part -> 0 < snd os) ->
    cluster_tree sorter strat P fuel = Some (s, t, loc) -> st_errors s = 0 ->
    exists p, partition_from_cluster s t loc = Some p /\ pa_n p = bp_n P /\ pa_perm p = st_perm s /\
      pa_parts p = map interval (level (part_depth P) t) /\ partition_ok p (length (level (part_depth P) t)) /\
      ((exists part, bp_given P = Some part) -> partition_local p).
Proof.
  intros sorter strat P fuel s t loc H1 H2 H3 H4 H5 H6 H7.
  destruct (tree_partition sorter strat P fuel s t loc H1 H2 H3 H4 H5 H6 H7) as (p & E1 & E2 & E3 & E4 & E5 & _).
  exists p. split; [exact E1|]. split; [exact E3|]. split; [exact E4|]. split; [exact E5|]. split; [exact E2|].
  intros [part Hg]. exact (tree_local sorter strat P fuel s t loc H1 H2 H3 H4 H5 H6 H7 part p Hg E1).
Qed.
Print Assumptions C35_cluster_partition.

(** DistributedOperatorFromHMatrix: process r holds a hierarchical matrix on the rows of part r and all the columns
    ([proc_ok]), its leaves being distributed in any way over the threads.  [op_matrix] is the matrix represented by
    them, entry by entry, in user numbering. *)
Theorem C35_hmatrix_operator :
  forall K tp sp sy (ps : list (process K)) m,
    compat K TrN sy -> partition_ok tp (length ps) -> partition_ok sp m ->
    Forall2 (proc_ok K sp sy) (pa_parts tp) ps ->
    let D := hmat_operator K tp sp sy true ps in
    let A := op_matrix K tp sp sy ps in
    world K D = length ps /\
    row_blocks D A run_vec 1 /\ (forall mu, 1 <= mu -> row_blocks D A (run_mat mu) mu) /\
    (sy = SyN -> transposed_blocks D A run_tvec 1 /\ forall mu, 1 <= mu -> transposed_blocks_disjoint D A (run_tmat mu) mu).
Proof.
  intros K tp sp sy ps m Hc HT HS HP D A. pose proof (procs_hold K tp sp sy ps _ _ HT HS HP) as Q.
  split; [etransitivity; [exact (op_length K tp sp sy true ps _ Q)|exact (po_count _ _ HT)]|].
  split; [exact (op_row_vec K tp sp sy true ps A Hc Q)|]. split; [exact (op_row_mat K tp sp sy true ps A Hc Q)|].
  intros ->. split; [exact (op_trans_vec K tp sp SyN true ps A Hc Q I)|].
  intros mu Hmu. apply (op_trans_mat K tp sp SyN true ps A Hc Q mu Hmu I). discriminate.
Qed.
Print Assumptions C35_hmatrix_operator.

(** The hierarchical matrices come from HMatrixTreeBuilder without symmetry, for the generator [G] in user numbering (one
    target part per process): the operator is the product by a matrix whose entries are related to those of [G] by any
    reflexive relation that the compression satisfies. *)
Theorem C35_from_generator :
  forall K B (G : nat -> nat -> car K) compress T S fuel tp sp (ps : list (process K)) m,
    bb_uplo B = UpN -> partitioned T (bb_tparts B) -> partitioned S (bb_sparts B) -> nonempty T -> nonempty S ->
    (c_rank T < 0)%Z -> (forall u, In u (bb_tparts B) -> contains T u = true /\ 0 < c_size u) ->
    pa_parts tp = map interval (bb_tparts B) -> interval S = (0, pa_n sp) -> compress_ok K compress ->
    partition_ok tp (length ps) -> partition_ok sp m ->
    let gen i j := G (nth i (pa_perm tp) 0) (nth j (pa_perm sp) 0) in
    (forall r p, nth_error ps r = Some p ->
      hbuild K SyN (set_part B r) gen compress fuel T S = Some (pr_hmat K p) /\
      exists L Y, hleaves K (pr_hmat K p) = Some (L, Y) /\ Permutation (concat (map fst (pr_threads K p))) L /\
        Permutation (concat (map snd (pr_threads K p))) Y) ->
    Forall2 (proc_ok K sp SyN) (pa_parts tp) ps /\
    forall R : car K -> car K -> Prop, (forall c, R c c) -> compress_within K gen compress R ->
      forall a b, a < pa_n tp -> b < pa_n sp -> R (op_matrix K tp sp SyN ps a b) (G a b).
Proof.
  intros K B G compress T S fuel tp sp ps m HN HT HS NT NS Hr Hc Ep Es Hco HPt HPs gen HB.
  assert (EL : length (bb_tparts B) = length ps) by (rewrite <- (po_count _ _ HPt), Ep, map_length; reflexivity).
  assert (Q : forall r u p, nth_error (bb_tparts B) r = Some u -> nth_error ps r = Some p -> proc_ok K sp SyN (interval u) p /\
    forall R : car K -> car K -> Prop, (forall c, R c c) -> compress_within K gen compress R ->
      forall i j, in_iv i (interval u) = true -> j < pa_n sp -> R (proc_value K SyN p i j) (gen i j)).
  { intros r u p Eu Epr. destruct (HB r p Epr) as (Hb & L & Y & HL & P1 & P2).
    destruct (Hc u (nth_error_In _ _ Eu)) as [Cu Pu].
    assert (HV : part_valid (set_part B r) T) by (unfold part_valid; cbn; rewrite Eu; right; split; [exact Hr|exact Cu]).
    destruct (C18_built_matrices K (set_part B r) gen compress T S fuel (pr_hmat K p) HN HT HS NT NS HV Hco Hb) as (L' & HL' & W & _ & E1 & E2 & V).
    rewrite HL in HL'. injection HL' as <- ->.
    assert (RI : forall i, row_in (set_part B r) T i = in_iv i (interval u)).
    { intros i. unfold row_in. cbn. rewrite Eu. destruct (in_iv i (interval u)) eqn:Ei; [|apply andb_false_r]. rewrite andb_true_r.
      unfold contains in Cu. apply andb_true_iff in Cu. destruct Cu as [C1 C2]. apply Nat.leb_le in C1, C2.
      unfold in_iv, interval in *. cbn [fst snd] in *. unfold c_off, c_size in *. apply andb_true_iff in Ei. destruct Ei as [I1 I2].
      apply Nat.leb_le in I1. apply Nat.ltb_lt in I2. apply andb_true_iff. split; [apply Nat.leb_le|apply Nat.ltb_lt]; lia. }
    split.
    - exists L, []. split; [exact HL|]. split; [exact W|]. split; [exact P1|]. split; [exact P2|]. split; [|rewrite E2; exact Es].
      symmetry. apply in_iv_ext; [exact Pu|]. intros i. rewrite E1, RI. reflexivity.
    - intros R Rr Hw i j Hi Hj. unfold proc_value. rewrite HL. apply (V R Rr Hw i j); [rewrite RI; exact Hi|]. rewrite Es. unfold in_iv. cbn [fst snd].
      apply andb_true_iff. split; [apply Nat.leb_le; lia|apply Nat.ltb_lt; lia]. }
  split.
  - rewrite Ep. clear - Q EL. assert (GG : forall l1 l2 k, (forall r u p, nth_error l1 r = Some u -> nth_error l2 r = Some p -> proc_ok K sp SyN (interval u) p) ->
      length l1 = length l2 -> k = 0 -> Forall2 (proc_ok K sp SyN) (map interval l1) l2).
    { induction l1 as [|u l1 IH]; intros l2 k H E Hk; destruct l2 as [|p l2]; try discriminate; cbn [map]; constructor.
      - exact (H 0 u p eq_refl eq_refl).
      - apply (IH l2 k); [|cbn in E; lia|exact Hk]. intros r u' p'. exact (H (S r) u' p'). }
    apply (GG _ _ 0); [|exact EL|reflexivity]. intros r u p E1 E2. exact (proj1 (Q r u p E1 E2)).
  - intros R Rr Hw. apply (op_matrix_within K tp sp SyN ps _ _ G R HPt HPs); [rewrite Ep, map_length, EL; reflexivity|].
    intros r os p E1 E2 i j Hi Hj. rewrite Ep, nth_error_map in E1. destruct (nth_error (bb_tparts B) r) as [u|] eqn:Eu; [|discriminate].
    injection E1 as <-. exact (proj2 (Q r u p Eu E2) R Rr Hw i j Hi Hj).
Qed.
Print Assumptions C35_from_generator.

(** With symmetry: process r is also the process for symmetry, as in DefaultApproximationBuilder. *)
Definition set_part_sym (B : bbuild) (p : nat) : bbuild :=
  mkBbuild (Some p) (bb_uplo B) (Some p) (bb_mint B) (bb_mins B) (bb_cons B) (bb_adm B) (bb_tparts B) (bb_sparts B).

Theorem C35_from_symmetric_generator :
  forall K sy B (G : nat -> nat -> car K) compress T fuel tp (ps : list (process K)),
    (sy = SyS \/ sy = SyH) -> (forall a b, G b a = flip sy (G a b)) ->
    bb_uplo B <> UpN -> partitioned T (bb_tparts B) -> bb_sparts B = bb_tparts B -> nonempty T -> bb_cons B = true ->
    (c_rank T < 0)%Z -> (forall u, In u (bb_tparts B) -> contains T u = true) ->
    pa_parts tp = map interval (bb_tparts B) -> interval T = (0, pa_n tp) -> compress_ok K compress ->
    partition_ok tp (length ps) ->
    let gen i j := G (nth i (pa_perm tp) 0) (nth j (pa_perm tp) 0) in
    (forall r p, nth_error ps r = Some p ->
      hbuild K sy (set_part_sym B r) gen compress fuel T T = Some (pr_hmat K p) /\
      exists L Y, hleaves K (pr_hmat K p) = Some (L, Y) /\ Permutation (concat (map fst (pr_threads K p))) L /\
        Permutation (concat (map snd (pr_threads K p))) Y) ->
    Forall2 (proc_ok K tp sy) (pa_parts tp) ps /\
    forall R : car K -> car K -> Prop, (forall c, R c c) -> (forall a b, R a b -> R (flip sy a) (flip sy b)) ->
      compress_within K gen compress R ->
      forall a b, a < pa_n tp -> b < pa_n tp -> R (op_matrix K tp tp sy ps a b) (G a b).
Proof.
  intros K sy B G compress T fuel tp ps Hsy HG HU HT HSp NT HC Hr Hc Ep Es Hco HPt gen HB.
  assert (EL : length (bb_tparts B) = length ps) by (rewrite <- (po_count _ _ HPt), Ep, map_length; reflexivity).
  assert (Q : forall r u p, nth_error (bb_tparts B) r = Some u -> nth_error ps r = Some p -> proc_ok K tp sy (interval u) p /\
    forall R : car K -> car K -> Prop, (forall c, R c c) -> (forall a b, R a b -> R (flip sy a) (flip sy b)) -> compress_within K gen compress R ->
      forall i j, in_iv i (interval u) = true -> j < pa_n tp -> R (proc_value K sy p i j) (gen i j)).
  { intros r u p Eu Epr. destruct (HB r p Epr) as (Hb & L & Y & HL & P1 & P2).
    pose proof (Hc u (nth_error_In _ _ Eu)) as Cu.
    destruct (C19_built_matrices K sy (set_part_sym B r) gen compress T u fuel (pr_hmat K p) Hsy (fun i j => HG _ _) HU HT HSp NT HC) as
      (L' & Y' & HL' & W & _ & E1 & E2 & V); [|exact Hco|exact Hb|].
    { right. exists r. cbn. split; [reflexivity|]. split; [reflexivity|]. split; [exact Eu|]. right. auto. }
    rewrite HL in HL'. injection HL' as <- <-.
    split.
    - exists L, Y. split; [exact HL|]. split; [exact W|]. split; [exact P1|]. split; [exact P2|]. split; [rewrite E1; reflexivity|rewrite E2; exact Es].
    - intros R Rr Rf Hw i j Hi Hj. unfold proc_value. rewrite HL. apply (V R Rr Rf Hw i j Hi). rewrite Es. unfold in_iv. cbn [fst snd].
      apply andb_true_iff. split; [apply Nat.leb_le; lia|apply Nat.ltb_lt; lia]. }
  split.
  - rewrite Ep. clear - Q EL. assert (GG : forall l1 l2, (forall r u p, nth_error l1 r = Some u -> nth_error l2 r = Some p -> proc_ok K tp sy (interval u) p) ->
      length l1 = length l2 -> Forall2 (proc_ok K tp sy) (map interval l1) l2).
    { induction l1 as [|u l1 IH]; intros l2 H E; destruct l2 as [|p l2]; try discriminate; cbn [map]; constructor.
      - exact (H 0 u p eq_refl eq_refl).
      - apply (IH l2); [|cbn in E; lia]. intros r u' p'. exact (H (S r) u' p'). }
    apply GG; [|exact EL]. intros r u p E1 E2. exact (proj1 (Q r u p E1 E2)).
  - intros R Rr Rf Hw. apply (op_matrix_within K tp tp sy ps _ _ G R HPt HPt); [rewrite Ep, map_length, EL; reflexivity|].
    intros r os p E1 E2 i j Hi Hj. rewrite Ep, nth_error_map in E1. destruct (nth_error (bb_tparts B) r) as [u|] eqn:Eu; [|discriminate].
    injection E1 as <-. exact (proj2 (Q r u p Eu E2) R Rr Rf Hw i j Hi Hj).
Qed.
Print Assumptions C35_from_symmetric_generator.

(** *** Examples: the 5 parts of the tree of 23 points of P_Block.v, one process per part. *)
Definition ex_perm : list nat := match ex_tree with Some (s, _, _) => st_perm s | None => [] end.
Definition ex_part : partition := mkPartition 23 ex_perm (map interval ex_parts) false.
(** A generator of rank 2 in user numbering and its exact compression. *)
Definition ex_user (a b : nat) : car Zc := ((Z.of_nat a + 2) * (Z.of_nat b + 1) + Z.of_nat a)%Z.
Definition ex_pgen (i j : nat) : car Zc := ex_user (nth i ex_perm 0) (nth j ex_perm 0).
Definition ex_pcomp (t s : ctree) : lrm Zc :=
  mkLrm (of_fun Zc (c_size t) 2 (fun i k => let a := Z.of_nat (nth (c_off t + i) ex_perm 0) in if k =? 0 then (a + 2)%Z else a))
        (of_fun Zc 2 (c_size s) (fun k j => let b := Z.of_nat (nth (c_off s + j) ex_perm 0) in if k =? 0 then (b + 1)%Z else 1%Z)).
Definition ex_proc (r : nat) : option (process Zc) :=
  match hbuild Zc SyN (set_part (exB None None UpN true) r) ex_pgen ex_pcomp 200 exT exT with
  | Some A => match hleaves Zc A with Some (L, Y) => Some (mkProcess Zc A [(rev L, Y); ([], [])]) | None => None end
  | None => None
  end.
Definition ex_procs : option (list (process Zc)) := all_some (map ex_proc (seq 0 5)).
Definition ex_dop (l : list (process Zc)) : dop Zc := hmat_operator Zc ex_part ex_part SyN true l.

Lemma perm_of_tree : forall (o : option (bstate * ctree * bool)) P, bp_given P = None -> o = cluster_tree (isort ex_key) Regular P 25 -> (if o then true else false) = true ->
  Permutation (match o with Some (s, _, _) => st_perm s | None => [] end) (seq 0 (bp_n P)).
Proof.
  intros [[[s t] loc]|] P Hg E Hn; [|discriminate].
  apply (C01_permutation_is_bijection (isort ex_key) Regular P 25 s t loc); [apply isort_ok| |symmetry; exact E]. intros part Q. congruence.
Qed.
Lemma ex_part_ok : partition_ok ex_part 5.
Proof.
  split.
  - assert (E : (if ex_tree then true else false) = true) by (vm_compute; reflexivity). assert (E2 : ex_tree = cluster_tree (isort ex_key) Regular exP 25) by (unfold ex_tree; reflexivity).
    pose proof (perm_of_tree ex_tree exP eq_refl E2 E) as Q.
    cbn [pa_perm pa_n ex_part]. unfold ex_perm. exact Q.
  - vm_compute. reflexivity.
  - vm_compute. tauto.
Qed.
Example ex_distributed :
  match ex_procs with
  | Some l =>
      let D := ex_dop l in
      let x := map (fun i => (Z.of_nat (i * i) - 30)%Z) (seq 0 23) in
      let X := map (fun i => (Z.of_nat (i * i) - 30)%Z) (seq 0 46) in
      let y := map (fun a => fold_right Z.add 0%Z (map (fun b => (ex_user a b * nth b x 0)%Z) (seq 0 23))) (seq 0 23) in
      let z := map (fun b => fold_right Z.add 0%Z (map (fun a => (ex_user a b * nth a x 0)%Z) (seq 0 23))) (seq 0 23) in
      vec_g2g Zc D (repeat x 5) (repeat (repeat 9%Z 23) 5) = Some (repeat y 5) /\
      tvec_g2g Zc D (repeat x 5) (repeat (repeat 9%Z 23) 5) = Some (repeat z 5) /\
      match mat_g2g Zc D (repeat X 5) (repeat (repeat 9%Z 46) 5) 2 with
      | Some ys => map (fun b => firstn 23 b) ys = repeat y 5
      | None => False
      end /\
      match tmat_g2g Zc D (repeat X 5) (repeat (repeat 9%Z 46) 5) 2 with
      | Some ys => map (fun b => firstn 23 b) ys = repeat z 5
      | None => False
      end
  | None => False
  end.
Proof. vm_compute. repeat split. Qed.

Lemma all_some_nth : forall A (f : nat -> option A) k n l r p, all_some (map f (seq k n)) = Some l -> nth_error l r = Some p -> f (k + r) = Some p.
Proof.
  intros A f k n. revert k. induction n as [|n IH]; intros k l r p E Hp; cbn [seq map all_some] in E.
  - injection E as <-. destruct r; discriminate.
  - destruct (f k) as [a|] eqn:Ef; [|discriminate]. destruct (all_some (map f (seq (S k) n))) as [l'|] eqn:E'; [|discriminate]. injection E as <-.
    destruct r as [|r]; [rewrite Nat.add_0_r; injection Hp as <-; exact Ef|]. rewrite Nat.add_succ_r. exact (IH (S k) l' r p E' Hp).
Qed.
Lemma all_some_length : forall A (l : list (option A)) l', all_some l = Some l' -> length l' = length l.
Proof.
  induction l as [|[a|] l IH]; intros l' E; cbn [all_some] in E; try discriminate; [injection E as <-; reflexivity|].
  destruct (all_some l) as [r|]; [|discriminate]. injection E as <-. cbn. f_equal. apply IH. reflexivity.
Qed.
(** The hypotheses of the theorems hold for it: the 5 processes represent the generator exactly. *)
Lemma operator_of_tree : forall B T n perm fuel l (pn : nat) cmp,
  bb_uplo B = UpN -> partitioned T (bb_tparts B) -> bb_sparts B = bb_tparts B -> nonempty T -> (c_rank T < 0)%Z ->
  forallb (fun u => contains T u && (1 <=? c_size u)) (bb_tparts B) = true -> interval T = (0, pn) ->
  let part := mkPartition pn perm (map interval (bb_tparts B)) false in
  let gen i j := ex_user (nth i perm 0) (nth j perm 0) in
  partition_ok part n -> compress_ok Zc cmp -> compress_within Zc gen cmp eq ->
  all_some (map (fun r => match hbuild Zc SyN (set_part B r) gen cmp fuel T T with
    | Some A => match hleaves Zc A with Some (L, Y) => Some (mkProcess Zc A [(rev L, Y); ([], [])]) | None => None end
    | None => None end) (seq 0 n)) = Some l ->
  length l = n /\ Forall2 (proc_ok Zc part SyN) (pa_parts part) l /\
  forall a b, a < pn -> b < pn -> op_matrix Zc part part SyN l a b = ex_user a b.
Proof.
  intros B T n perm fuel l pn cmp HU HP ES HN Hr Q4 Q5 part gen HK Hco Hw S1.
  pose proof (all_some_length _ _ _ S1) as HL. rewrite map_length, seq_length in HL. split; [exact HL|].
  rewrite <- HL in HK.
  pose proof (C35_from_generator Zc B ex_user cmp T T fuel part part l n HU HP) as Th. rewrite ES in Th. specialize (Th HP HN HN Hr).
  cbv zeta in Th. destruct Th as [T1 T2].
  - intros u Hu. rewrite forallb_forall in Q4. specialize (Q4 u Hu). apply andb_true_iff in Q4. destruct Q4 as [A1 A2]. apply Nat.leb_le in A2. split; [exact A1|lia].
  - reflexivity.
  - exact Q5.
  - exact Hco.
  - exact HK.
  - rewrite HL in HK. exact HK.
  - intros r p Hp. pose proof (all_some_nth _ _ _ _ _ _ _ S1 Hp) as E. cbn [Nat.add] in E. cbv beta in E. fold gen.
    cbn [pa_perm part]. fold gen.
    destruct (hbuild Zc SyN (set_part B r) gen cmp fuel T T) as [A|] eqn:EA; [|discriminate].
    destruct (hleaves Zc A) as [[L Y]|] eqn:EL; [|discriminate]. injection E as <-. cbn [pr_hmat pr_threads]. split; [reflexivity|].
    exists L, Y. split; [exact EL|]. cbn [map fst snd concat]. rewrite !app_nil_r. split; [apply Permutation_sym, Permutation_rev|reflexivity].
  - split; [exact T1|]. apply (T2 eq); [reflexivity|]. exact Hw.
Qed.
Lemma comp_of_perm : forall perm, compress_ok Zc (fun t s => 
  mkLrm (of_fun Zc (c_size t) 2 (fun i k => let a := Z.of_nat (nth (c_off t + i) perm 0) in if k =? 0 then (a + 2)%Z else a))
        (of_fun Zc 2 (c_size s) (fun k j => let b := Z.of_nat (nth (c_off s + j) perm 0) in if k =? 0 then (b + 1)%Z else 1%Z))) /\
  compress_within Zc (fun i j => ex_user (nth i perm 0) (nth j perm 0)) (fun t s => 
  mkLrm (of_fun Zc (c_size t) 2 (fun i k => let a := Z.of_nat (nth (c_off t + i) perm 0) in if k =? 0 then (a + 2)%Z else a))
        (of_fun Zc 2 (c_size s) (fun k j => let b := Z.of_nat (nth (c_off s + j) perm 0) in if k =? 0 then (b + 1)%Z else 1%Z))) eq.
Proof.
  intros perm. split.
  - intros t s. split; apply of_fun_wf.
  - intros t s i j _ _ Hi Hj. unfold lr_entry, lrank. cbn [mc lU lV of_fun mkMat mk sum].
    rewrite !of_fun_me by lia. unfold ex_user. cbn [Nat.eqb cadd cmul Zc c0]. lia.
Qed.
Example ex_operator :
  match ex_procs with
  | Some l => length l = 5 /\ partition_ok ex_part 5 /\ Forall2 (proc_ok Zc ex_part SyN) (pa_parts ex_part) l /\
      forall a b, a < 23 -> b < 23 -> op_matrix Zc ex_part ex_part SyN l a b = ex_user a b
  | None => False
  end.
Proof.
  assert (Ok : (if ex_procs then true else false) = true) by (vm_compute; reflexivity).
  destruct ex_hyps as (Q1 & Q2 & Q3).
  assert (Q4 : forallb (fun u => contains exT u && (1 <=? c_size u)) ex_parts = true) by (vm_compute; reflexivity).
  assert (Q5 : interval exT = (0, 23)) by (vm_compute; reflexivity).
  assert (K1 : bb_tparts (exB None None UpN true) = ex_parts) by (cbn [exB bb_tparts]; reflexivity).
  assert (K2 : bb_sparts (exB None None UpN true) = ex_parts) by (cbn [exB bb_sparts]; reflexivity).
  assert (K3 : bb_uplo (exB None None UpN true) = UpN) by (cbn [exB bb_uplo]; reflexivity).
  pose proof ex_part_ok as PO. destruct (comp_of_perm ex_perm) as [W1 W2]. unfold ex_part in *. unfold ex_procs in *. unfold ex_proc in *. unfold ex_pgen in *. unfold ex_pcomp in *.
  rewrite <- K1 in Q1, Q4, PO |- *. rewrite <- K1 in K2. 
  revert K1 K2 K3 Q1 Q2 Q3 Q4 Q5 PO W1 W2 Ok. generalize ex_perm. generalize exT. generalize (exB None None UpN true). 
  intros B T perm K1 K2 K3 Q1 Q2 Q3 Q4 Q5 PO W1 W2 Ok.
  pose proof (fun l => operator_of_tree B T 5 perm 200 l 23 _ K3 Q1 K2 Q2 Q3 Q4 Q5 PO W1 W2) as Th.
  destruct (all_some _) as [l|]; [|discriminate Ok]. destruct (Th l eq_refl) as (R1 & R2 & R3).
  split; [exact R1|]. split; [exact PO|]. split; [exact R2|exact R3].
Qed.

(** Two local operators of one process with the same source cluster: the second one replaces the contribution of the
    first one in the transposed product of several vectors, although both add up to the matrix (3) and the product by the
    matrix itself is right. *)
Definition one_part : partition := mkPartition 1 [0] [(0, 1)] true.
Definition two_ops : dop Zc :=
  mkDop Zc one_part one_part
    [map (fun a => vlop_of Zc (local_dense Zc (mkMat 1 1 [a] : mat Zc) (0, 1) (0, 1) [0] [0] SyN UpN false false)) [1%Z; 2%Z]] true SyN.
Theorem C46_overlapping_sources_refuted :
  mat_g2g Zc two_ops [[5%Z]] [[0%Z]] 1 = Some [[15%Z]] /\
  tvec_g2g Zc two_ops [[5%Z]] [[0%Z]] = Some [[15%Z]] /\
  tmat_g2g Zc two_ops [[5%Z]] [[0%Z]] 1 = Some [[10%Z]].
Proof. vm_compute. auto. Qed.
Print Assumptions C46_overlapping_sources_refuted.

(** A local operator that renumbers its target loses the product of several vectors. *)
Definition permuted_op : lop Zc := local_dense Zc (@mkMat Zc 2 2 [1%Z; 2%Z; 3%Z; 4%Z]) (0, 2) (0, 2) [1; 0] [1; 0] SyN UpN true true.
Theorem C36_target_renumbering_refuted :
  vl_vec Zc (vlop_of Zc permuted_op) 1%Z [1%Z; 0%Z] 1%Z [0%Z; 0%Z] = Some [4%Z; 3%Z] /\
  vl_mat Zc (vlop_of Zc permuted_op) 1%Z [1%Z; 0%Z] 1%Z [0%Z; 0%Z] 1 = Some [0%Z; 0%Z].
Proof. vm_compute. auto. Qed.
Print Assumptions C36_target_renumbering_refuted.

(** The internal transposed product (no renumbering, no conjugation) of a Hermitian operator is the product by the matrix
    and not by its transpose: [[1, i], [-i, 1]]. *)
Definition herm_op : dop Gc :=
  mkDop Gc (mkPartition 2 [0; 1] [(0, 2)] true) (mkPartition 2 [0; 1] [(0, 2)] true)
    [[vlop_of Gc (local_dense Gc (@mkMat Gc 2 2 [(1, 0)%Z; (0, -1)%Z; (0, 1)%Z; (1, 0)%Z]) (0, 2) (0, 2) [0; 1] [0; 1] SyH UpL false false)]] false SyH.
Theorem C37_internal_hermitian_refuted :
  let z := (0, 0)%Z in
  int_tvec_l2l Gc herm_op [[(1, 0)%Z; z]] [[z; z]] [[z; z; z; z]] = Some [[(1, 0)%Z; (0, -1)%Z]] /\
  tvec_l2l Gc herm_op [[(1, 0)%Z; z]] [[z; z]] [[z; z; z; z]] = Some [[(1, 0)%Z; (0, 1)%Z]].
Proof. vm_compute. auto. Qed.
Print Assumptions C37_internal_hermitian_refuted.
