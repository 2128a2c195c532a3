(** * Specification vocabulary for traversals, text files and saved cluster trees. *)

From Coq Require Import List Arith ZArith Bool Ascii.
From Verif Require Import ClusterModel IOModel.
Import ListNotations.

(** Nodes of a tree in preorder: a node, then its subtrees in order. *)
Fixpoint preorder {A} (t : rtree A) : list (rtree A) :=
  match t with RNode a ts => RNode a ts :: concat (map preorder ts) end.

(** Tokens separated by one character. *)
Fixpoint sep_by (c : ascii) (l : list str) : str :=
  match l with
  | [] => []
  | [s] => s
  | s :: l' => s ++ c :: sep_by c l'
  end.

(** Text without the characters that separate records, fields, lines and words. *)
Definition clean (s : str) : Prop :=
  ~ In ","%char s /\ ~ In "|"%char s /\ ~ In newline s /\ ~ In space s.

(** Nodes at depth [j] below the root of the tree, in preorder. *)
Fixpoint lev {A} (j : nat) (t : rtree A) : list (rtree A) :=
  match j with
  | 0 => [t]
  | S j' => concat (map (lev j') (rt_children t))
  end.

(** Map over a tree. *)
Fixpoint rmap {A B} (g : A -> B) (t : rtree A) : rtree B :=
  match t with RNode a ts => RNode (g a) (map (rmap g) ts) end.

(** A node as it is read back: the coordinates went through the text. *)
Definition regeo {R} (fmt : R -> str) (prs : str -> R) (n : inode R) : inode R :=
    mkInode R (in_rank R n) (in_off R n) (in_size R n) (in_counter R n) (prs (fmt (in_radius R n)))
      (map (fun r => prs (fmt r)) (in_center R n)).

(** The tree of the builder with the geometric data [geo] (radius, centre) of its clusters. *)
Definition conv_info {R} (geo : cinfo -> R * list R) (c : cinfo) : inode R :=
    mkInode R (ci_rank c) (ci_off c) (ci_size c) (ci_counter c) (fst (geo c)) (snd (geo c)).
Fixpoint conv {R} (geo : cinfo -> R * list R) (t : ctree) : rtree (inode R) :=
    match t with CNode c ts => RNode (conv_info geo c) (map (conv geo) ts) end.

