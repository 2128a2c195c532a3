(** * Specification vocabulary for sums and products of dense, low-rank and hierarchical matrices. *)

From Coq Require Import List Arith ZArith Bool Permutation.
From Verif Require Import ClusterModel ClusterSpec IOModel IOSpec BlockModel BlockSpec Algebra BlasModel HMatModel HMatSpec.
Import ListNotations.

(** ** Cluster trees *)
(** The clusters into which a cluster is split: its children, or itself if it has none. *)
Definition ckids (c : ctree) : list ctree := match ct_children c with [] => [c] | l => l end.
(** A tree of clusters: no cluster is empty, children tile their parent and are one level deeper.  [parts]: the clusters on
    the partition of the whole tree.  A cluster of rank -1 (above the partition) is split into the clusters of the
    partition; those, and all the clusters below, have a rank (at least 0). *)
Inductive cluster_tree (parts : ctree -> list ctree) : ctree -> Prop :=
| cluster_tree_node : forall i cs,
    (1 <= ci_size i)%nat ->
    (cs <> [] -> tiles (ci_off i) (ci_off i + ci_size i) (map interval cs)) ->
    (forall c, In c cs -> c_depth c = S (ci_depth i)) ->
    (forall c, In c cs -> (0 <= c_rank c)%Z) ->
    ((ci_rank i < 0)%Z -> cs <> [] /\ parts (CNode i cs) = cs) ->
    (forall c, In c cs -> cluster_tree parts c) ->
    cluster_tree parts (CNode i cs).

(** m_symmetry_type_for_leaves of a matrix without symmetry: 'N', or the character 0 left by the copy constructor (HMatModel.v). *)
Definition no_sym_leaves (c : symc) : bool := match c with SyN | Sy0 => true | _ => false end.

Section S.
  Variable K : Coef.
  Notation C := (car K).
  Notation hmat := (rtree (hinfo K)).

  (** op(A) has r rows, c columns and the entries f. *)
  Definition mat_op (t : trans) (A : mat K) (r c : nat) (f : nat -> nat -> C) : Prop :=
    wf_mat A (if is_N t then r else c) (if is_N t then c else r) /\
    forall i j, i < r -> j < c -> op_fun t (me A) i j = f i j.
  (** A low-rank matrix of rank at least 1 such that op(U V) has r rows, c columns and the entries f. *)
  Definition lr_op (t : trans) (L : lrm K) (r c : nat) (f : nat -> nat -> C) : Prop :=
    wf_lrm L (if is_N t then r else c) (if is_N t then c else r) /\ 1 <= lrank L /\
    forall i j, i < r -> j < c -> op_fun t (lr_entry L) i j = f i j.

  (** The truncations lose nothing. *)
  Definition exact_recompression (recompress : lrm K -> lrm K) : Prop :=
    forall L r c, 1 <= r -> 1 <= c -> wf_lrm L r c -> 1 <= lrank L ->
      lr_op TrN (recompress L) r c (lr_entry L).
  Definition exact_svd (svd_factors : mat K -> lrm K) : Prop :=
    forall A r c, 1 <= r -> 1 <= c -> wf_mat A r c -> lr_op TrN (svd_factors A) r c (me A).

  (** Entry of the data of a leaf as it is stored. *)
  Definition stored (h : hinfo K) (i j : nat) : C :=
    match h_data h with DDense A => me A i j | DLow L => lr_entry L i j | DNone => c0 K end.
  (** Data of the right size; a low-rank block has rank at least 1. *)
  Definition leaf_ok (h : hinfo K) : Prop :=
    match h_data h with
    | DDense A => wf_mat A (c_size (h_t h)) (c_size (h_s h))
    | DLow L => wf_lrm L (c_size (h_t h)) (c_size (h_s h)) /\ 1 <= lrank L
    | DNone => False
    end.
  Definition block_of (A : hmat) : ctree * ctree := (h_t (rt_val A), h_s (rt_val A)).

  Variable parts : ctree -> list ctree.
  (** A hierarchical matrix without symmetry that holds the entries of M (global numbering of the clusters): a leaf holds its
      block; a node that is not a leaf has one child for each pair of a cluster of the rows and a cluster of the columns. *)
  Inductive hrep (M : nat -> nat -> C) : hmat -> Prop :=
  | hrep_leaf : forall i, cluster_tree parts (h_t i) -> cluster_tree parts (h_s i) -> h_sym i = SyN -> no_sym_leaves (h_lsym i) = true -> leaf_ok i ->
      (forall a b, a < c_size (h_t i) -> b < c_size (h_s i) -> stored i a b = M (c_off (h_t i) + a) (c_off (h_s i) + b)) ->
      hrep M (RNode i [])
  | hrep_node : forall i cs, cluster_tree parts (h_t i) -> cluster_tree parts (h_s i) -> h_sym i = SyN -> no_sym_leaves (h_lsym i) = true ->
      h_data i = DNone ->
      is_leaf (h_t i) && is_leaf (h_s i) = false ->
      Permutation (map block_of cs) (list_prod (ckids (h_t i)) (ckids (h_s i))) ->
      (forall c, In c cs -> hrep M c) ->
      hrep M (RNode i cs).

  (** A destination: some of the children may be missing (symmetric storage). *)
  Inductive hdest : hmat -> Prop :=
  | hdest_leaf : forall i, leaf_ok i -> hdest (RNode i [])
  | hdest_node : forall i cs, h_data i = DNone ->
      is_leaf (h_t i) && is_leaf (h_s i) = false ->
      NoDup (map block_of cs) -> incl (map block_of cs) (list_prod (ckids (h_t i)) (ckids (h_s i))) ->
      (forall c, In c cs -> hdest c) ->
      hdest (RNode i cs).

  (** Everything but the data is the same; dense leaves stay dense (with the same pivots) and low-rank leaves stay low-rank. *)
  Definition same_node (a b : hinfo K) : Prop :=
    h_t a = h_t b /\ h_s a = h_s b /\ h_sym a = h_sym b /\ h_uplo a = h_uplo b /\ h_lsym a = h_lsym b /\ h_luplo a = h_luplo b /\
    match h_data a, h_data b with
    | DNone, DNone => True | DDense D, DDense D' => mp D' = mp D | DLow _, DLow _ => True | _, _ => False
    end.
  (** [B] is [A] with the entry v at (i,j) (global numbering) replaced by g i j v. *)
  Inductive hupd (g : nat -> nat -> C -> C) : hmat -> hmat -> Prop :=
  | hupd_leaf : forall i i', same_node i i' -> leaf_ok i' ->
      (forall a b, a < c_size (h_t i) -> b < c_size (h_s i) ->
         stored i' a b = g (c_off (h_t i) + a)%nat (c_off (h_s i) + b)%nat (stored i a b)) ->
      hupd g (RNode i []) (RNode i' [])
  | hupd_node : forall i cs cs', h_data i = DNone -> Forall2 (hupd g) cs cs' -> hupd g (RNode i cs) (RNode i cs').

  (** Sum over the indices of a cluster. *)
  Definition csum (c : ctree) (f : nat -> C) : C := sum (c_size c) (fun k => f (c_off c + k)).
End S.
Arguments mat_op {K} t A r c f.
Arguments lr_op {K} t L r c f.
Arguments exact_recompression {K} recompress.
Arguments exact_svd {K} svd_factors.
Arguments stored {K} h i j.
Arguments leaf_ok {K} h.
Arguments block_of {K} A.
Arguments hrep {K} parts M _.
Arguments hdest {K} _.
Arguments same_node {K} a b.
Arguments hupd {K} g _ _.
Arguments csum {K} c f.
