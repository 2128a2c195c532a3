(** * Specification vocabulary for cluster trees (used by the statements of the properties). *)

From Coq Require Import List Arith ZArith Bool Permutation.
From Verif Require Import ClusterModel.
Import ListNotations.

(** [tiles lo hi l]: the intervals [o,o+s) of [l] are consecutive, start at [lo] and end at [hi]. *)
Fixpoint tiles (lo hi : nat) (l : list (nat * nat)) : Prop :=
  match l with
  | [] => lo = hi
  | (o, s) :: l' => o = lo /\ tiles (o + s) hi l'
  end.

(** The interval (offset, size) of a cluster. *)
Definition interval (t : ctree) : nat * nat := (ci_off (ct_info t), ci_size (ct_info t)).

(** Index [i] belongs to the interval [os]. *)
Definition in_iv (i : nat) (os : nat * nat) : bool := (fst os <=? i) && (i <? fst os + snd os).

(** A cluster is a leaf or its children tile it. *)
Definition node_ok (u : ctree) : Prop :=
    ct_children u = [] \/
    tiles (ci_off (ct_info u)) (ci_off (ct_info u) + ci_size (ct_info u)) (map interval (ct_children u)).

(** Nodes of a given depth, in preorder. *)
Definition level (d : nat) (t : ctree) : list ctree :=
  filter (fun u => ci_depth (ct_info u) =? d) (ct_nodes t).

(** The children are one level deeper. *)
Definition depth_ok (u : ctree) : Prop :=
  forall k, In k (ct_children u) -> ci_depth (ct_info k) = S (ci_depth (ct_info u)).

(** std::sort rearranges the range of the cluster and touches nothing else. *)
Definition sorter_ok (sorter : cinfo -> list nat -> list nat) : Prop :=
  forall c perm, ci_off c + ci_size c <= length perm ->
    Permutation (sorter c perm) (slice (ci_off c) (ci_size c) perm).

(** Contract of a splitting strategy: no children, or the requested number of non-empty consecutive
    intervals that tile the cluster. *)
Definition splitter_ok (splitter : cinfo -> list nat -> nat -> option (list (nat * nat))) : Prop :=
  forall c perm nc l, splitter c perm nc = Some l ->
    l = [] \/
    (tiles (ci_off c) (ci_off c + ci_size c) l /\ length l = nc /\ forall os, In os l -> 0 < snd os).

(** Only a number of children equal to zero is undefined. *)
Definition splitter_total (splitter : cinfo -> list nat -> nat -> option (list (nat * nat))) : Prop :=
  forall c perm nc, 1 <= nc -> splitter c perm nc <> None.

(** Two intervals without common index. *)
Definition disjoint_iv (a b : nat * nat) : Prop := fst a + snd a <= fst b \/ fst b + snd b <= fst a.

(** A node that was processed by the loop: any node, except the root for a given partition. *)
Definition processed (P : bparams) (t u : ctree) : Prop :=
  match bp_given P with
  | None => In u (ct_nodes t)
  | Some _ => exists k, In k (ct_children t) /\ In u (ct_nodes k)
  end.
