(** * Specification vocabulary for block trees. *)

From Coq Require Import List Arith ZArith Bool.
From Verif Require Import ClusterModel ClusterSpec IOModel IOSpec BlockModel.
Import ListNotations.

(** The pair (i,j) lies in the block. *)
Definition covers (i j : nat) (b : binfo) : bool := in_iv i (interval (b_t b)) && in_iv j (interval (b_s b)).
Definition count {A} (f : A -> bool) (l : list A) : nat := length (filter f l).

(** A cluster tree (or a subtree of one) with the clusters on the partition of the whole tree:
    children tile their parent; above the partition (rank -1) a cluster is split and the parts contained in it are
    proper descendants that tile it; the parts are numbered by rank and disjoint; a cluster of rank r lies in part r and
    so do its children; the first clusters met below those of rank -1 are the parts. *)
Record partitioned (root : ctree) (parts : list ctree) : Prop := {
  pt_node : forall u, In u (ct_nodes root) -> node_ok u;
  pt_above : forall u, In u (ct_nodes root) -> (ci_rank (ct_info u) < 0)%Z ->
    ct_children u <> [] /\
    (forall v, In v (filter (contains u) parts) -> exists k, In k (ct_children u) /\ In v (ct_nodes k)) /\
    filter (contains u) parts <> [] /\
    tiles (fst (interval u)) (fst (interval u) + snd (interval u)) (map interval (filter (contains u) parts));
  pt_rank : forall p u, nth_error parts p = Some u -> ci_rank (ct_info u) = Z.of_nat p;
  pt_disjoint : forall p q u v i, nth_error parts p = Some u -> nth_error parts q = Some v ->
    in_iv i (interval u) = true -> in_iv i (interval v) = true -> p = q;
  pt_below : forall u, In u (ct_nodes root) -> (0 <= ci_rank (ct_info u))%Z ->
    (exists v, nth_error parts (Z.to_nat (ci_rank (ct_info u))) = Some v /\
       forall i, in_iv i (interval u) = true -> in_iv i (interval v) = true) /\
    (forall k, In k (ct_children u) -> ci_rank (ct_info k) = ci_rank (ct_info u));
  pt_first : forall u k, In u (ct_nodes root) -> (ci_rank (ct_info u) < 0)%Z -> In k (ct_children u) ->
    (0 <= ci_rank (ct_info k))%Z -> nth_error parts (Z.to_nat (ci_rank (ct_info k))) = Some k
}.

(** Rows of the matrix that is built: those of the root or of the target part. *)
Definition row_in (B : bbuild) (T : ctree) (i : nat) : bool :=
  in_iv i (interval T) &&
  match bb_tpart B with
  | None => true
  | Some p => match nth_error (bb_tparts B) p with Some u => in_iv i (interval u) | None => false end
  end.

(** The target part, if any, is the root cluster or a part below it. *)
Definition part_valid (B : bbuild) (T : ctree) : Prop :=
  match bb_tpart B with
  | None => True
  | Some p => match nth_error (bb_tparts B) p with
              | Some u => u = T \/ ((c_rank T < 0)%Z /\ contains T u = true)
              | None => False
              end
  end.

(** Number of nodes: bounds the number of nested calls. *)
Definition nn (t : ctree) : nat := length (ct_nodes t).

(** The clusters are not empty. *)
Definition nonempty (T : ctree) : Prop := forall u, In u (ct_nodes T) -> 0 < ci_size (ct_info u).

(** The block mirrored with respect to the diagonal. *)
Definition covers_mirror (i j : nat) (b : binfo) : bool := covers j i b.
