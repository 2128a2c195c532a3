(** * Copies of hierarchical matrices.

    Source: hmatrix/hmatrix.hpp 58-102 (copy constructor, copy assignment), basic_types/tree.hpp 31, 39-46 (children share the data of
    the tree).  The clusters are raw pointers, shared.  No proofs in this file. *)

From Coq Require Import List Arith Bool.
From Verif Require Import ClusterModel IOModel BlockModel Algebra BlasModel HMatModel.
Import ListNotations.

Section C.
  Variable K : Coef.
  Notation hinfo := (hinfo K).
  Notation hmat := (hmat K).

  (** The fields of a copied node, hmatrix.hpp 58 and 71-76: m_symmetry_type_for_leaves() is value-initialised (the character 0), and
      m_UPLO_for_leaves keeps its default 'N' (line 48). *)
  Definition copy_info (i : hinfo) : hinfo := mkHinfo K (h_t i) (h_s i) (h_sym i) (h_uplo i) (h_data i) Sy0 UpN.
  (** The copy constructor, hmatrix.hpp 58-77: the children are copied in order (lines 66-70). *)
  Fixpoint hcopy (A : hmat) : hmat := match A with RNode i cs => RNode (copy_info i) (map hcopy cs) end.
  (** The copy assignment, hmatrix.hpp 78-106: all the fields of the root (lines 91-97), the children through the copy constructor
      (lines 86-89).  Data of the kind that the source does not have (lines 99-104) is kept but m_storage_type, copied, hides it; the
      destination does not otherwise matter.  A self-assignment (lines 80-82) changes nothing. *)
  Definition hassign (self : bool) (dst A : hmat) : hmat :=
    if self then dst else match A with RNode i cs => RNode i (map hcopy cs) end.

  (** m_tree_data: for each node a pointer to its parameters (epsilon, eta, ...), any type [P]; the heap is the list of the objects
      allocated so far. *)
  Section TreeData.
    Variable P : Type.
    (** Construction of a tree: the root allocates (tree.hpp 26), add_child (lines 41-46) shares through the constructor TreeNode(parent)
        (line 39).  [shape]: the tree. *)
    Fixpoint share {X : Type} (p : nat) (shape : rtree X) : rtree nat := match shape with RNode _ cs => RNode p (map (share p) cs) end.
    Definition td_build {X : Type} (d : P) (shape : rtree X) (heap : list P) : rtree nat * list P := (share (length heap) shape, heap ++ [d]).
    (** The copy: each node allocates a copy of what it pointed to (hmatrix.hpp 64, 85), then its children are copied. *)
    Fixpoint td_copy (A : rtree nat) (heap : list P) : option (rtree nat * list P) :=
      match A with
      | RNode p cs =>
          match nth_error heap p with
          | None => None
          | Some d =>
              match (fix go (cs : list (rtree nat)) (h : list P) : option (list (rtree nat) * list P) :=
                       match cs with
                       | [] => Some ([], h)
                       | c :: cs' => match td_copy c h with
                                     | None => None
                                     | Some (c', h1) => match go cs' h1 with Some (r, h2) => Some (c' :: r, h2) | None => None end
                                     end
                       end) cs (heap ++ [d]) with
              | Some (cs', h) => Some (RNode (length heap) cs', h)
              | None => None
              end
          end
      end.
    (** set_epsilon and the other setters, hmatrix.hpp 206-215, on a node whose m_tree_data is [p]; the getters, lines 116, 219. *)
    Definition td_set (p : nat) (f : P -> P) (heap : list P) : list P :=
      match nth_error heap p with Some d => firstn p heap ++ f d :: skipn (S p) heap | None => heap end.
    Definition td_get (p : nat) (heap : list P) : option P := nth_error heap p.
  End TreeData.
End C.
