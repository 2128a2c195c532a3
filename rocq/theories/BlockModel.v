(** * Model of the construction of the block cluster tree.

    Source: hmatrix/tree_builder/tree_builder.hpp, hmatrix/hmatrix.hpp, clustering/cluster_node.hpp.
    No proofs in this file. *)

From Coq Require Import List Arith ZArith Bool.
From Verif Require Import ClusterModel IOModel.
Import ListNotations.

(** Accessors of a cluster (cluster_node.hpp, getters). *)
Definition c_off (t : ctree) : nat := ci_off (ct_info t).
Definition c_size (t : ctree) : nat := ci_size (ct_info t).
Definition c_rank (t : ctree) : Z := ci_rank (ct_info t).
Definition c_depth (t : ctree) : nat := ci_depth (ct_info t).

(** left_cluster_contains_right_cluster, cluster_node.hpp 90-96. *)
Definition contains (a b : ctree) : bool :=
  (c_off a <=? c_off b) && (c_size b + c_off b <=? c_size a + c_off a).

(** m_UPLO_type; 'N' goes with m_symmetry_type 'N' (tree_builder.hpp 130-140). *)
Inductive uplo : Type := UpN | UpL | UpU.

(** Parameters of HMatrixTreeBuilder (tree_builder.hpp 35-61).
    [bb_tpart]: m_target_partition_number, [None] for -1; [bb_uplo]: m_UPLO_type, [UpN] exactly when
    m_symmetry_type is 'N'; [bb_qpart]: m_partition_number_for_symmetry; [bb_mint], [bb_mins]: minimal depths;
    [bb_cons]: m_is_block_tree_consistent; [bb_adm]: ComputeAdmissibility, an arbitrary predicate;
    [bb_tparts], [bb_sparts]: get_clusters_on_partition() of the target and source root clusters. *)
Record bbuild : Type := mkBbuild {
  bb_tpart : option nat;
  bb_uplo : uplo;
  bb_qpart : option nat;
  bb_mint : nat;
  bb_mins : nat;
  bb_cons : bool;
  bb_adm : ctree -> ctree -> bool;
  bb_tparts : list ctree;
  bb_sparts : list ctree
}.

(** A task of the builder: block handed to the low-rank generator or computed densely. *)
Inductive task : Type := TLowRank | TDense.

(** Data of a node of the block tree: clusters, task (if any) and whether get_symmetry() is not 'N'. *)
Record binfo : Type := mkBinfo { b_t : ctree; b_s : ctree; b_task : option task; b_sym : bool }.
Notation btree := (rtree binfo).

Section BlockTree.
  Variable B : bbuild.

  (** is_target_cluster_in_target_partition, tree_builder.hpp 68-70. *)
  Definition in_part (t : ctree) : bool :=
    match bb_tpart B with None => true | Some p => (Z.of_nat p =? c_rank t)%Z end.

  (** is_removed_by_symmetry, tree_builder.hpp 71-90.  An index out of the partition vector (reported as an ERROR by the
      constructor, lines 145-147) is undefined; it is excluded by hypothesis in the theorems. *)
  Definition removed (t s : ctree) : bool :=
    match bb_uplo B with
    | UpN => false
    | UpU =>
        (c_off s + c_size s <=? c_off t) &&
        match bb_qpart B with
        | None => true
        | Some q =>
            match nth_error (bb_sparts B) q, nth_error (bb_tparts B) q with
            | Some a, Some b => (c_off a <=? c_off s) && ((c_off b <=? c_off t) && (c_off t + c_size t <=? c_off b + c_size b))
            | _, _ => false
            end
        end
    | UpL =>
        (c_off t + c_size t <=? c_off s) &&
        match bb_qpart B with
        | None => true
        | Some q =>
            match nth_error (bb_sparts B) q, nth_error (bb_tparts B) q with
            | Some a, Some b =>
                (c_off s <? c_off a + c_size a) && ((c_off b <=? c_off t) && (c_off t + c_size t <=? c_off b + c_size b))
            | _, _ => false
            end
        end
    end.

  (** set_hmatrix_symmetry, tree_builder.hpp 105-112: the symmetry of a block. *)
  Definition has_sym (t s : ctree) : bool :=
    match bb_uplo B with
    | UpN => false
    | _ => (c_off t =? c_off s) && (c_size t =? c_size s)
    end.

  (** The condition of tree_builder.hpp 244. *)
  Definition low_rank_task (t s : ctree) : bool :=
    bb_adm B t s && in_part t && negb (removed t s) && (bb_mint B <=? c_depth t) && (bb_mins B <=? c_depth s) &&
    (0 <=? c_rank t)%Z && (negb (bb_cons B) || (0 <=? c_rank s)%Z).

  (** The test on the target cluster of a child (lines 251, 272, 290, 303, 320, 330). *)
  Definition t_ok (k : ctree) : bool := in_part k || (c_rank k <? 0)%Z.

  (** Children lists of tree_builder.hpp 250-256 / 317-325, 258-265, 289-298, 269-277 / 299-308, 279-287, 309-316. *)
  Definition split_t (t s : ctree) : list (ctree * ctree) :=
    map (fun k => (k, s)) (filter (fun k => t_ok k && negb (removed k s)) (ct_children t)).
  Definition split_s (t s : ctree) : list (ctree * ctree) :=
    map (fun k => (t, k)) (filter (fun k => negb (removed t k)) (ct_children s)).
  Definition split_s_checked (t s : ctree) : list (ctree * ctree) :=
    map (fun k => (t, k)) (filter (fun k => t_ok t && negb (removed t k)) (ct_children s)).
  Definition split_ts (t s : ctree) : list (ctree * ctree) :=
    concat (map (fun k => map (fun l => (k, l)) (filter (fun l => t_ok k && negb (removed k l)) (ct_children s)))
              (ct_children t)).
  Definition split_t_parts (t s : ctree) : list (ctree * ctree) :=
    map (fun k => (k, s)) (filter (fun k => t_ok k && negb (removed k s) && contains t k) (bb_tparts B)).
  Definition split_s_parts (t s : ctree) : list (ctree * ctree) :=
    map (fun k => (t, k)) (filter (fun k => negb (removed t k) && contains s k) (bb_sparts B)).

  (** The cascade of tests, tree_builder.hpp 244-334: a task or the list of children, in order. *)
  Definition branch (t s : ctree) : task + list (ctree * ctree) :=
    if low_rank_task t s then inl TLowRank
    else if is_leaf s && is_leaf t then inl TDense
    else if is_leaf s then inr (split_t t s)
    else if is_leaf t then inr (split_s t s)
    else if bb_cons B then
      if (c_rank t <? 0)%Z && (0 <=? c_rank s)%Z then inr (split_t_parts t s)
      else if (c_rank s <? 0)%Z && (0 <=? c_rank t)%Z then inr (split_s_parts t s)
      else inr (split_ts t s)
    else
      if (c_rank t <? 0)%Z then inr (split_t_parts t s)
      else if c_size t <? c_size s then inr (split_s_checked t s)
      else if c_size s <? c_size t then inr (split_t t s)
      else inr (split_ts t s).

  Fixpoint omap {A C} (f : A -> option C) (l : list A) : option (list C) :=
    match l with
    | [] => Some []
    | x :: l' => match f x, omap f l' with Some y, Some ys => Some (y :: ys) | _, _ => None end
    end.

  (** build_block_tree, tree_builder.hpp 222-335.  [None]: fuel exhausted. *)
  Fixpoint build_block_tree (fuel : nat) (t s : ctree) : option btree :=
    match fuel with
    | 0 => None
    | S f =>
        match branch t s with
        | inl k => Some (RNode (mkBinfo t s (Some k) (has_sym t s)) [])
        | inr l =>
            match omap (fun ts => build_block_tree f (fst ts) (snd ts)) l with
            | Some bs => Some (RNode (mkBinfo t s None (has_sym t s)) bs)
            | None => None
            end
        end
    end.

  (** reset_root_of_block_tree, tree_builder.hpp 338-370: the loop that collects the blocks of the target part [p]; the
      head of the list is the top of the stack.  (The reference to the popped element, lines 347-348, is used only
      before the next push.) *)
  Fixpoint reset_run (fuel : nat) (p : nat) (stack new_children : list btree) : option (list btree) :=
    match stack with
    | [] => Some new_children
    | b :: stack' =>
        match fuel with
        | 0 => None
        | S f =>
            let here := fun c : btree => (c_rank (b_t (rt_val c)) =? Z.of_nat p)%Z in
            reset_run f p (rev (filter (fun c => negb (here c)) (rt_children b)) ++ stack')
              (new_children ++ filter here (rt_children b))
        end
    end.

  Definition reset_root (fuel : nat) (root : btree) : option btree :=
    if in_part (b_t (rt_val root)) then Some root
    else
      match bb_tpart B with
      | None => Some root
      | Some p =>
          match reset_run fuel p [root] [], nth_error (bb_tparts B) p with
          | Some cs, Some u => Some (RNode (mkBinfo u (b_s (rt_val root)) (b_task (rt_val root)) (b_sym (rt_val root))) cs)
          | _, _ => None
          end
      end.

  (** HMatrixTreeBuilder::build, tree_builder.hpp 181-219, the block structure.  The symmetry of the root is set after the
      reset, line 199. *)
  Definition build_root (fuel : nat) (t s : ctree) : option btree :=
    match build_block_tree fuel t s with
    | None => None
    | Some (RNode b cs) =>
        match reset_root fuel (RNode b cs) with
        | None => None
        | Some (RNode b' cs') => Some (RNode (mkBinfo (b_t b') (b_s b') (b_task b') (has_sym (b_t b') (b_s b'))) cs')
        end
    end.
End BlockTree.

(** get_leaves_from, hmatrix.hpp 241-268: leaves and leaves for symmetry. *)
Fixpoint leaves_run (fuel : nat) (stack : list (btree * bool)) (leaves sym : list binfo)
  : option (list binfo * list binfo) :=
  match stack with
  | [] => Some (leaves, sym)
  | (b, anc) :: stack' =>
      match fuel with
      | 0 => None
      | S f =>
          let i := rt_val b in
          let leaf := match rt_children b with [] => true | _ => false end in
          leaves_run f (rev (map (fun c => (c, b_sym i || anc)) (rt_children b)) ++ stack')
            (if leaf then leaves ++ [i] else leaves)
            (if leaf && anc && negb (c_off (b_t i) =? c_off (b_s i)) then sym ++ [i] else sym)
      end
  end.
Definition get_leaves_from (fuel : nat) (b : btree) : option (list binfo * list binfo) :=
  leaves_run fuel [(b, b_sym (rt_val b))] [] [].
