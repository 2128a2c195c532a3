(** * Model of the construction of cluster trees.

    Source: include/htool/clustering/cluster_node.hpp, cluster_tree_data.hpp,
    clustering/tree_builder/recursive_build.hpp, clustering/tree_builder/splitting.hpp.

    Integers of type [int] that hold sizes, offsets, counters and depths are [nat]
    (no overflow is modelled); the rank is a [Z] because the code uses -1 for "above the partition".
    No proofs in this file. *)

From Coq Require Import List Arith ZArith Bool.
Import ListNotations.

(** Range [off, off+sz) of an array (std::vector iterators begin()+off .. begin()+off+sz). *)
Definition slice {A : Type} (off sz : nat) (l : list A) : list A :=
  firstn sz (skipn off l).

(** The array after the range [off, off+sz) has been overwritten in place by [s]. *)
Definition set_slice {A : Type} (off sz : nat) (l s : list A) : list A :=
  firstn off l ++ s ++ skipn (off + sz) l.

(** One cluster node: fields of class Cluster (cluster_node.hpp 19-24) and TreeNode::m_depth
    (tree.hpp 24).  The center and radius (cluster_node.hpp 19-20) are replaced by the list of user
    indices they are computed from, [ci_pts] (recursive_build.hpp 139-140: compute_center and compute_radius
    read permutation[offset..offset+size) at the moment the child is created). *)
Record cinfo : Type := mkCinfo {
  ci_rank : Z;
  ci_off : nat;
  ci_size : nat;
  ci_depth : nat;
  ci_counter : nat;
  ci_pts : list nat
}.

(** A cluster with its children (tree.hpp 23). *)
Inductive ctree : Type := CNode : cinfo -> list ctree -> ctree.

Definition ct_info (t : ctree) : cinfo := match t with CNode c _ => c end.
Definition ct_children (t : ctree) : list ctree := match t with CNode _ ts => ts end.

(** Arguments of create_cluster_tree (recursive_build.hpp 55) that drive the shape of the tree.
    [bp_given]: the pointer [partition], as the list of pairs (offset,size), [None] for nullptr.
    [bp_logdepth]: the value of static_cast<int>(floor(log(size_partition)/log(number_of_children)))
    (recursive_build.hpp 96), which is computed in floating point; it is a parameter here.
    [bp_min]: m_minclustersize. *)
Record bparams : Type := mkBparams {
  bp_n : nat;
  bp_nc : nat;
  bp_sp : nat;
  bp_min : nat;
  bp_given : option (list (nat * nat));
  bp_logdepth : nat
}.

(** Shared tree data (cluster_tree_data.hpp 14-27) and the number of ERROR messages logged.
    [st_pv]: m_clusters_on_partition, null pointers are [None].
    [st_max], [st_min]: m_max_depth, m_min_depth ([None] is numeric_limits::max()). *)
Record bstate : Type := mkBstate {
  st_perm : list nat;
  st_pv : list (option cinfo);
  st_errors : nat;
  st_max : nat;
  st_min : option nat
}.

(** recursive_build.hpp 78-105: depth_of_partition. *)
Definition part_depth (P : bparams) : nat :=
  match bp_given P with
  | Some _ => 1
  | None => if bp_nc P <=? bp_sp P then bp_logdepth P else 1
  end.

(** recursive_build.hpp 79, 97: number_of_children_on_partition_level. *)
Definition level_children (P : bparams) : nat :=
  match bp_given P with
  | Some _ => bp_sp P
  | None => if bp_nc P <=? bp_sp P then bp_nc P else bp_sp P
  end.

(** recursive_build.hpp 80, 98-101: additional_children_on_last_partition.
    Natural subtraction: the code would produce a negative number when nc^depth > size_partition, which
    the theorems exclude by hypothesis. *)
Definition additional (P : bparams) : nat :=
  match bp_given P with
  | Some _ => 0
  | None => if bp_nc P <=? bp_sp P
            then bp_sp P - bp_nc P ^ bp_logdepth P else 0
  end.

(** recursive_build.hpp 115, 117, 144, 164: depth == depth_of_partition-1 (written without subtraction)
    and partition type Simple. *)
Definition on_level (P : bparams) (c : cinfo) : bool :=
  match bp_given P with
  | Some _ => false
  | None => S (ci_depth c) =? part_depth P
  end.

(** recursive_build.hpp 115-119: current_number_of_children. *)
Definition current_nc (P : bparams) (c : cinfo) : nat :=
  if on_level P c then
    level_children P +
    (if ci_counter c =? bp_nc P ^ ci_depth c - 1 then additional P else 0)
  else bp_nc P.

(** Child constructor, cluster_node.hpp 36-41: registration in m_clusters_on_partition. *)
Definition list_set {A : Type} (l : list A) (i : nat) (x : A) : list A :=
  firstn i l ++ match skipn i l with [] => [] | _ :: tl => x :: tl end.

Definition pv_write (pv : list (option cinfo)) (r : nat) (c : cinfo) : list (option cinfo) :=
  let pv' := if length pv <? r + 1 then pv ++ repeat None (r + 1 - length pv) else pv in
  list_set pv' r (Some c).

(** recursive_build.hpp 139-148: the data of the p-th child of [c], where [perm] is the permutation
    after the sort and (off,sz) is current_splitting[p]. *)
Definition child_info (P : bparams) (c : cinfo) (perm : list nat) (p : nat) (os : nat * nat) : cinfo :=
  let '(off, sz) := os in
  let r := ci_counter c * level_children P + p in
  mkCinfo
    (if on_level P c then Z.of_nat r else ci_rank c)
    off sz (S (ci_depth c))
    (if on_level P c then r else ci_counter c * current_nc P c + p)
    (slice off sz perm).

Fixpoint child_infos (P : bparams) (c : cinfo) (perm : list nat) (p : nat) (l : list (nat * nat)) : list cinfo :=
  match l with
  | [] => []
  | os :: l' => child_info P c perm p os :: child_infos P c perm (S p) l'
  end.

(** Registration of the children one after the other (recursive_build.hpp 138-151). *)
Definition register (P : bparams) (c : cinfo) (kids : list cinfo) (pv : list (option cinfo)) : list (option cinfo) :=
  if on_level P c
  then fold_left (fun v k => pv_write v (Z.to_nat (ci_rank k)) k) kids pv
  else pv.

Section Build.
  (** [sorter c perm]: content of the range of [c] after std::sort along the direction computed by the
      direction strategy (recursive_build.hpp 122-130).  An arbitrary function: the theorems only assume that
      it rearranges the range. *)
  Variable sorter : cinfo -> list nat -> list nat.
  (** [splitter c perm nc]: m_splitting_strategy->splitting (recursive_build.hpp 133);
      [None] is undefined behaviour (division by zero, access out of range). *)
  Variable splitter : cinfo -> list nat -> nat -> option (list (nat * nat)).
  Variable P : bparams.

  (** recursive_build.hpp 111-168: one iteration of the loop, for the cluster popped from the stack.
      Returns the new state and the children in the order they are created and pushed. *)
  Definition step (st : bstate) (c : cinfo) : option (bstate * list cinfo) :=
    let perm1 := set_slice (ci_off c) (ci_size c) (st_perm st) (sorter c (st_perm st)) in
    match splitter c perm1 (current_nc P c) with
    | None => None
    | Some spl =>
        let kids := child_infos P c perm1 0 spl in
        match kids with
        | _ :: _ =>
            Some (mkBstate perm1 (register P c kids (st_pv st)) (st_errors st) (st_max st) (st_min st), kids)
        | [] =>
            if (ci_rank c <? 0)%Z
            then Some (mkBstate perm1 (st_pv st) (S (st_errors st)) (st_max st) (st_min st), [])
            else Some (mkBstate perm1 (st_pv st) (st_errors st)
                         (Nat.max (st_max st) (ci_depth c))
                         (Some (match st_min st with None => ci_depth c | Some m => Nat.min m (ci_depth c) end)), [])
        end
    end.

  (** The loop with its explicit stack (recursive_build.hpp 110-169).  The head of the list is the top of the
      stack: children are pushed in order, so the last child is on top.  The log records each processed cluster with
      the children it was given (this is the tree, as the set of parent-children links).
      [None]: undefined behaviour or fuel exhausted. *)
  Fixpoint run (fuel : nat) (stack : list cinfo) (st : bstate) (log : list (cinfo * list cinfo))
    : option (bstate * list (cinfo * list cinfo)) :=
    match stack with
    | [] => Some (st, log)
    | c :: stack' =>
        match fuel with
        | 0 => None
        | S f =>
            match step st c with
            | None => None
            | Some (st', kids) => run f (rev kids ++ stack') st' (log ++ [(c, kids)])
            end
        end
    end.

  (** The same construction as a recursion over the tree: last child first, which is the order
      imposed by the stack.  Theorem [run_build] shows both give the same state and links. *)
  Fixpoint build (fuel : nat) (st : bstate) (c : cinfo) : option (bstate * ctree) :=
    match fuel with
    | 0 => None
    | S f =>
        match step st c with
        | None => None
        | Some (st', kids) =>
            match (fix go (ks : list cinfo) : option (bstate * list ctree) :=
                     match ks with
                     | [] => Some (st', [])
                     | k :: ks' =>
                         match go ks' with
                         | None => None
                         | Some (s1, ts) =>
                             match build f s1 k with
                             | None => None
                             | Some (s2, t) => Some (s2, t :: ts)
                             end
                         end
                     end) kids with
            | None => None
            | Some (s, ts) => Some (s, CNode c ts)
            end
        end
    end.

  Fixpoint build_list (f : nat) (st : bstate) (ks : list cinfo) : option (bstate * list ctree) :=
    match ks with
    | [] => Some (st, [])
    | k :: ks' =>
        match build_list f st ks' with
        | None => None
        | Some (s1, ts) =>
            match build f s1 k with
            | None => None
            | Some (s2, t) => Some (s2, t :: ts)
            end
        end
    end.

  (** cluster_node.hpp 28-32 and recursive_build.hpp 70-74: the root and the initial state. *)
  Definition root_info : cinfo := mkCinfo (-1) 0 (bp_n P) 0 0 (seq 0 (bp_n P)).
  Definition init_state : bstate := mkBstate (seq 0 (bp_n P)) [] 0 0 None.

  (** recursive_build.hpp 87-92: children of the root for a user-given partition. *)
  Definition given_child (p : nat) (os : nat * nat) : cinfo :=
    mkCinfo (Z.of_nat p) (fst os) (snd os) 1 p (slice (fst os) (snd os) (seq 0 (bp_n P))).

  Fixpoint given_children (p : nat) (l : list (nat * nat)) : list cinfo :=
    match l with [] => [] | os :: l' => given_child p os :: given_children (S p) l' end.

  (** recursive_build.hpp 54-172.  The result is the final tree data, the tree and
      m_is_permutation_local. *)
  Definition create_cluster_tree (fuel : nat) : option (bstate * ctree * bool) :=
    match bp_given P with
    | Some part =>
        let kids := given_children 0 part in
        let st := mkBstate (seq 0 (bp_n P))
                    (fold_left (fun v k => pv_write v (Z.to_nat (ci_rank k)) k) kids []) 0 0 None in
        match build_list fuel st kids with
        | None => None
        | Some (s, ts) => Some (s, CNode root_info ts, true)
        end
    | None =>
        match build fuel init_state root_info with
        | None => None
        | Some (s, t) => Some (s, t, false)
        end
    end.
End Build.

(** The links of a tree in the order the stack processes the nodes. *)
Fixpoint rlog (t : ctree) : list (cinfo * list cinfo) :=
  match t with
  | CNode c ts => (c, map ct_info ts) :: concat (rev (map rlog ts))
  end.

(** All nodes of a tree in preorder. *)
Fixpoint ct_nodes (t : ctree) : list ctree :=
  match t with
  | CNode c ts => CNode c ts :: concat (map ct_nodes ts)
  end.

Definition is_leaf (t : ctree) : bool := match ct_children t with [] => true | _ => false end.
Definition ct_leaves (t : ctree) : list ctree := filter is_leaf (ct_nodes t).

(** ** Splitting strategies *)

(** RegularSplitting::splitting, splitting.hpp 25-40.  Division by zero is undefined. *)
Definition regular_splitting (min : nat) (c : cinfo) (perm : list nat) (nc : nat) : option (list (nat * nat)) :=
  if nc =? 0 then None
  else
    let children_size := ci_size c / nc in
    if min <? children_size then
      Some (map (fun p => (ci_off c + children_size * p, children_size)) (seq 0 (nc - 1))
            ++ [(ci_off c + children_size * (nc - 1), ci_size c - children_size * (nc - 1))])
    else Some [].

(** std::find_if over positions [count, stop) of the permutation; returns [stop] if nothing is found. *)
Fixpoint find_pos (far : nat -> bool) (perm : list nat) (count len : nat) : nat :=
  match len with
  | 0 => count
  | S len' => if far (nth count perm 0) then count else find_pos far perm (S count) len'
  end.

(** splitting.hpp 69-83, the loop over the first nc-1 children.  [far f a] is the geometric test of line 71 for
    first point [f] and point [a] (an arbitrary predicate here).  State: count, the index of the first point,
    the (offset,size) pairs computed so far.  A [break] leaves the remaining pairs at (0,0). *)
Fixpoint geometric_loop (far : nat -> nat -> bool) (perm : list nat) (stop : nat) (k : nat)
                        (count first : nat) : list (nat * nat) * nat :=
  match k with
  | 0 => ([], count)
  | S k' =>
      let result := find_pos (far first) perm count (stop - count) in
      if result =? length perm then (repeat (0, 0) (S k'), count)
      else
        let '(l, cf) := geometric_loop far perm stop k' result (nth result perm 0) in
        ((count, result - count) :: l, cf)
  end.

(** GeometricSplitting::splitting, splitting.hpp 49-97.  [nc = 0] makes offsets.back() undefined (line 84). *)
Definition geometric_splitting (far : nat -> nat -> bool) (min : nat) (c : cinfo) (perm : list nat) (nc : nat)
  : option (list (nat * nat)) :=
  if nc <? ci_size c then
    if nc =? 0 then None
    else
      let stop := ci_off c + ci_size c in
      let '(l, cf) := geometric_loop far perm stop (nc - 1) (ci_off c) (nth (ci_off c) perm 0) in
      let all := l ++ [(cf, ci_size c - fold_right plus 0 (map snd l))] in
      if forallb (fun os => min <? snd os) all then Some all
      else regular_splitting min c perm nc
  else Some [].

(** The two implementations of VirtualSplittingStrategy (splitting.hpp 21, 44).  For GeometricSplitting the
    geometric test of line 71, which depends on the cluster, the permutation and the number of children through
    the first and last points and the direction, is an arbitrary predicate. *)
Inductive strategy : Type :=
| Regular : strategy
| Geometric : (cinfo -> list nat -> nat -> nat -> nat -> bool) -> strategy.

Definition splitting_of (s : strategy) (min : nat) (c : cinfo) (perm : list nat) (nc : nat)
  : option (list (nat * nat)) :=
  match s with
  | Regular => regular_splitting min c perm nc
  | Geometric far => geometric_splitting (far c perm nc) min c perm nc
  end.

(** ClusterTreeBuilder with one of these strategies; [bp_min] is passed to the strategy
    (recursive_build.hpp 133). *)
Definition cluster_tree (sorter : cinfo -> list nat -> list nat) (s : strategy) (P : bparams) (fuel : nat)
  : option (bstate * ctree * bool) :=
  create_cluster_tree sorter (splitting_of s (bp_min P)) P fuel.

(** ** Renumbering, cluster_node.hpp 99-175 *)

(** out[perm[off+i]-off] = in[i] for i < sz, in order; an index below off or at or beyond the end of [out],
    or a read beyond the end of [inp] or [perm], is an access out of range: [None].
    Models root_cluster_to_global (100-108), local_cluster_to_local (123-133) and cluster_to_user (150-161),
    whose loops are identical; the checks that only log are dropped. *)
Fixpoint scatter {A : Type} (perm : list nat) (off : nat) (inp out : list A) (i : nat) (len : nat) : option (list A) :=
  match len with
  | 0 => Some out
  | S len' =>
      match nth_error perm (off + i), nth_error inp i with
      | Some u, Some x =>
          if (off <=? u) && (u - off <? length out)
          then scatter perm off inp (list_set out (u - off) x) (S i) len'
          else None
      | _, _ => None
      end
  end.

(** out[i] = in[perm[off+i]-off], global_to_root_cluster (111-119), local_to_local_cluster (135-146),
    user_to_cluster (163-175). *)
Fixpoint gather {A : Type} (perm : list nat) (off : nat) (inp out : list A) (i : nat) (len : nat) : option (list A) :=
  match len with
  | 0 => Some out
  | S len' =>
      match nth_error perm (off + i) with
      | Some u =>
          if (off <=? u) && (i <? length out)
          then match nth_error inp (u - off) with
               | Some x => gather perm off inp (list_set out i x) (S i) len'
               | None => None
               end
          else None
      | None => None
      end
  end.

(** [cluster_to_user c perm inp out]: arguments as in the code, the result is the new content of [out]. *)
Definition cluster_to_user {A : Type} (off sz : nat) (perm : list nat) (inp out : list A) : option (list A) :=
  scatter perm off inp out 0 sz.
Definition user_to_cluster {A : Type} (off sz : nat) (perm : list nat) (inp out : list A) : option (list A) :=
  gather perm off inp out 0 sz.
