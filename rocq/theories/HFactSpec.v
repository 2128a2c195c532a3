(** * Specification vocabulary for triangular solves and factorisations of hierarchical matrices. *)

From Coq Require Import List Arith ZArith Bool Permutation.
From Verif Require Import ClusterModel ClusterSpec IOModel IOSpec BlockModel BlockSpec Algebra BlasModel HMatModel HMatSpec Field
  DenseModel DenseSpec ArithSpec.
Import ListNotations.

(** Height of a cluster tree. *)
Definition cheight := fix go (c : ctree) : nat := match c with CNode _ cs => S (fold_right Nat.max 0 (map go cs)) end.
(** Every cluster has at most two children. *)
Inductive two_way : ctree -> Prop :=
| two_way_node : forall i cs, length cs <= 2 -> (forall c, In c cs -> two_way c) -> two_way (CNode i cs).
(** i is an index of the cluster. *)
Definition inc (c : ctree) (i : nat) : Prop := c_off c <= i < c_off c + c_size c.

Section S.
  Variable F : Fld.
  Notation K := (fk F).
  Notation C := (car K).
  Notation hmat := (rtree (hinfo K)).
  Variable parts : ctree -> list ctree.

  (** The block of rows o and columns j is strictly inside the triangle. *)
  Definition strictly (u : uplo) (o j : ctree) : Prop := match u with UpU => c_off o < c_off j | _ => c_off j < c_off o end.

  (** The triangular matrix T (indices of the clusters) is stored in the triangle u of the hierarchical matrix, with the
      diagonal convention d.  The blocks of the diagonal are dense leaves, in which a triangle, with row exchanges if there are
      some, is stored, or hierarchical; the other blocks of the triangle hold the entries of T.  Nothing is said of the blocks
      on the other side of the diagonal, in which T is zero. *)
  Inductive htri (u : uplo) (d : diagc) (T : nat -> nat -> C) : hmat -> Prop :=
  | htri_leaf : forall i D, h_data i = DDense D -> h_t i = h_s i -> cluster_tree parts (h_t i) ->
      wf_mat D (c_size (h_t i)) (c_size (h_t i)) ->
      (d = DgN -> forall k, k < c_size (h_t i) -> me D k k <> c0 K) ->
      mp D = [] \/ getrf_pivots (c_size (h_t i)) (mp D) ->
      (forall a b, a < c_size (h_t i) -> b < c_size (h_t i) -> T (c_off (h_t i) + a) (c_off (h_t i) + b) = factor u d D a b) ->
      htri u d T (RNode i [])
  | htri_node : forall i cs, h_data i = DNone -> h_t i = h_s i -> cluster_tree parts (h_t i) -> is_leaf (h_t i) = false ->
      NoDup (map block_of cs) -> incl (map block_of cs) (list_prod (ckids (h_t i)) (ckids (h_t i))) ->
      (forall k, In k (ckids (h_t i)) -> In (k, k) (map block_of cs)) ->
      (forall c k, In c cs -> block_of c = (k, k) -> htri u d T c) ->
      (forall o j, In o (ckids (h_t i)) -> In j (ckids (h_t i)) -> strictly u o j -> In (o, j) (map block_of cs)) ->
      (forall c o j, In c cs -> block_of c = (o, j) -> strictly u o j -> hrep parts T c) ->
      (forall o j a b, In o (ckids (h_t i)) -> In j (ckids (h_t i)) -> strictly u j o -> inc o a -> inc j b -> T a b = c0 K) ->
      htri u d T (RNode i cs).

  (** The triangle of a matrix, with the given diagonal. *)
  Definition triangle_of (u : uplo) (d : diagc) (M : nat -> nat -> C) (i j : nat) : C :=
    if i =? j then match d with DgU => c1 K | DgN => M i i end
    else if match u with UpU => i <? j | _ => j <? i end then M i j else c0 K.

  (** The leaves on the diagonal are dense (and have not been factored). *)
  Inductive dense_diagonal : hmat -> Prop :=
  | dense_diagonal_leaf : forall i D, h_data i = DDense D -> mp D = [] -> dense_diagonal (RNode i [])
  | dense_diagonal_node : forall i cs, h_data i = DNone ->
      (forall c k, In c cs -> block_of c = (k, k) -> dense_diagonal c) -> dense_diagonal (RNode i cs).

  (** The leaves on the diagonal are dense, and the leading principal submatrices of M (from the index [first]) that end with
      one of these leaves are not singular. *)
  Inductive factorable (M : nat -> nat -> C) (first : nat) : hmat -> Prop :=
  | factorable_leaf : forall i D, h_data i = DDense D ->
      injective (F := F) (c_off (h_t i) + c_size (h_t i) - first) (fun a b => M (first + a) (first + b)) -> factorable M first (RNode i [])
  | factorable_node : forall i cs, h_data i = DNone ->
      (forall c k, In c cs -> block_of c = (k, k) -> factorable M first c) -> factorable M first (RNode i cs).

  (** A hierarchical matrix in which the triangle u of the matrix M is stored: the leaves on the diagonal are dense blocks of M
      (all their entries), the blocks strictly inside the triangle hold the entries of M; the blocks on the other side of the
      diagonal may be missing. *)
  Inductive hsym (u : uplo) (M : nat -> nat -> C) : hmat -> Prop :=
  | hsym_leaf : forall i D, h_data i = DDense D -> h_t i = h_s i -> cluster_tree parts (h_t i) ->
      wf_mat D (c_size (h_t i)) (c_size (h_t i)) -> mp D = [] ->
      (forall a b, a < c_size (h_t i) -> b < c_size (h_t i) -> me D a b = M (c_off (h_t i) + a) (c_off (h_t i) + b)) ->
      hsym u M (RNode i [])
  | hsym_node : forall i cs, h_data i = DNone -> h_t i = h_s i -> cluster_tree parts (h_t i) -> is_leaf (h_t i) = false ->
      NoDup (map block_of cs) -> incl (map block_of cs) (list_prod (ckids (h_t i)) (ckids (h_t i))) ->
      (forall c, In c cs -> hdest c) ->
      (forall k, In k (ckids (h_t i)) -> In (k, k) (map block_of cs)) ->
      (forall c k, In c cs -> block_of c = (k, k) -> hsym u M c) ->
      (forall o j, In o (ckids (h_t i)) -> In j (ckids (h_t i)) -> strictly u o j -> In (o, j) (map block_of cs)) ->
      (forall c o j, In c cs -> block_of c = (o, j) -> strictly u o j -> hrep parts M c) ->
      hsym u M (RNode i cs).
  (** The block of M of a cluster, with the indices from 0. *)
  Definition block (c : ctree) (M : nat -> nat -> C) (a b : nat) : C := M (c_off c + a) (c_off c + b).

  (** X is the solution of op(T) X = alpha M (side L) or X op(T) = alpha M (side R): T is square, its indices are those of the
      cluster c; o is the other cluster of M and X. *)
  Definition solves (s : side) (t : trans) (T : nat -> nat -> C) (alpha : C) (c o : ctree) (M X : nat -> nat -> C) : Prop :=
    match s with
    | SdL => forall a b, inc c a -> inc o b -> csum c (fun x => cmul K (op_fun t T a x) (X x b)) = cmul K alpha (M a b)
    | SdR => forall a b, inc o a -> inc c b -> csum c (fun x => cmul K (X a x) (op_fun t T x b)) = cmul K alpha (M a b)
    end.
End S.
Arguments htri {F} parts u d T _.
Arguments triangle_of {F} u d M i j.
Arguments dense_diagonal {F} _.
Arguments factorable {F} M first _.
Arguments hsym {F} parts u M _.
Arguments block {F} c M a b.
Arguments solves {F} s t T alpha c o M X.
