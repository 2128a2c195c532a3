(** * Specification of the copies. *)

From Coq Require Import List Arith Bool.
From Verif Require Import ClusterModel IOModel BlockModel Algebra BlasModel HMatModel HMatSpec DiagModel.
Import ListNotations.

Section C.
  Variable K : Coef.
  Notation hmat := (hmat K).

  (** Two matrices that nothing distinguishes: the same products, exports and diagonals for all the arguments (failures included). *)
  Record same_results (A B : hmat) : Prop := {
    sr_vector : forall t alpha x beta y, add_hmatrix_vector_product K t alpha A x beta y = add_hmatrix_vector_product K t alpha B x beta y;
    sr_matrix : forall t alpha x beta y mu,
      add_hmatrix_matrix_product_row_major K t alpha A x beta y mu = add_hmatrix_matrix_product_row_major K t alpha B x beta y mu;
    sr_dense : forall b, copy_to_dense K A b = copy_to_dense K B b;
    sr_dense_user : forall tp sp b, copy_to_dense_in_user_numbering K tp sp A b = copy_to_dense_in_user_numbering K tp sp B b;
    sr_diagonal : forall b, copy_diagonal K A b = copy_diagonal K B b;
    sr_diagonal_user : forall tp b, copy_diagonal_in_user_numbering K tp A b = copy_diagonal_in_user_numbering K tp B b
  }.
End C.

(** The pointers held by the nodes of a tree, and the tree of the values that the nodes read. *)
Fixpoint ids (A : rtree nat) : list nat := match A with RNode p cs => p :: concat (map ids cs) end.
Fixpoint values {P : Type} (A : rtree nat) (heap : list P) : rtree (option P) :=
  match A with RNode p cs => RNode (nth_error heap p) (map (fun c => values c heap) cs) end.
