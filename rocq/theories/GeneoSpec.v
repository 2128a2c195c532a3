(** * Specification of the GenEO coarse space. *)

From Coq Require Import List Arith Bool Permutation.
From Verif Require Import BlockModel Algebra BlasModel HMatModel HMatSpec Field DenseSpec SolverSpec CompSpec.
Import ListNotations.

Section S.
  Variable X : Num.
  Notation K := (fk (nfd X)).
  Notation C := (car K).

  (** The partition of unity: one on the points inside, zero on the overlap; and D A D. *)
  Definition unity (inside i : nat) : C := if i <? inside then c1 K else c0 K.
  Definition weighted (inside : nat) (A : nat -> nat -> C) (i j : nat) : C := cmul K (cmul K (unity inside i) (A i j)) (unity inside j).

  (** alpha B v = beta A v for a vector that is not zero; with beta = 1, A v = lambda B v. *)
  Definition product (n : nat) (A : nat -> nat -> C) (v : nat -> C) (i : nat) : C := sum n (fun j => cmul K (A i j) (v j)).
  Definition nonzero (n : nat) (v : nat -> C) : Prop := exists i, i < n /\ v i <> c0 K.
  Definition eigenvector (n : nat) (A B : nat -> nat -> C) (alpha beta : C) (v : nat -> C) : Prop :=
    nonzero n v /\ forall i, i < n -> cmul K beta (product n A v i) = cmul K alpha (product n B v i).

  (** x^H B y *)
  Definition inner (n : nat) (B : nat -> nat -> C) (x y : nat -> C) : C := sum n (fun i => cmul K (cconj K (x i)) (product n B y i)).

  (** Entry (i,j) is stored in triangle [u]. *)
  Definition in_triangle (u : uplo) (i j : nat) : Prop := match u with UpL => j <= i | UpU => i <= j | UpN => False end.
  (** The array [a] (leading dimension n) has the entries of A selected by [sel]. *)
  Definition stores (sel : nat -> nat -> Prop) (n : nat) (a : list C) (A : nat -> nat -> C) : Prop :=
    length a = n * n /\ forall i j, i < n -> j < n -> sel i j -> get a (i + j * n) = A i j.

  (** Column k of an array with n rows. *)
  Definition column (n : nat) (v : list C) (k i : nat) : C := get v (i + k * n).

  (** Lapack::gv answers for the pencil (A, B), whatever the array that stores the triangle [u] of A: eigenvalues, and eigenvectors that are
      B-orthonormal. *)
  Definition gv_answers (gv : uplo -> nat -> list C -> list C -> option (list C * list C)) (u : uplo) (n : nat) (b : list C) (A B : nat -> nat -> C) : Prop :=
    forall a, stores (in_triangle u) n a A ->
      exists w v, gv u n a b = Some (w, v) /\ length w = n /\ length v = n * n /\
        (forall k, k < n -> eigenvector n A B (get w k) (c1 K) (column n v k)) /\
        (forall k l, k < n -> l < n -> inner n B (column n v k) (column n v l) = if k =? l then c1 K else c0 K).
  (** The documentation of sygv / hegv: it answers if A is hermitian and B hermitian positive definite; only the triangles are read. *)
  Definition gv_rule (ppos : C -> bool) (gv : uplo -> nat -> list C -> list C -> option (list C * list C)) : Prop :=
    forall u n b A B, u <> UpN -> stores (in_triangle u) n b B -> hermitian n A -> hermitian n B -> posdef ppos n B -> gv_answers gv u n b A B.

  (** ggev: the right eigenvectors.  With real coefficients, column k is an eigenvector if eigenvalue k is real (alphai[k] = 0); otherwise
      columns k and k+1 are the real and imaginary parts of one. *)
  Definition ggev_answers (ggev : nat -> list C -> list C -> option (list C * list C * list C * list C)) (n : nat) (b : list C) (A B : nat -> nat -> C) : Prop :=
    forall a, stores (fun _ _ => True) n a A ->
      exists ar ai be v, ggev n a b = Some (ar, ai, be, v) /\ length ar = n /\ length be = n /\ length v = n * n /\
        forall k, k < n -> cplx K = true \/ get ai k = c0 K -> eigenvector n A B (get ar k) (get be k) (column n v k).
  (** All the eigenvalues that it returns are real, or the coefficients are complex. *)
  Definition real_answers (ggev : nat -> list C -> list C -> option (list C * list C * list C * list C)) (n : nat) (b : list C) (A : nat -> nat -> C) : Prop :=
    forall a ar ai be v, stores (fun _ _ => True) n a A -> ggev n a b = Some (ar, ai, be, v) -> cplx K = true \/ forall k, k < n -> get ai k = c0 K.

  (** std::sort. *)
  Definition sort_rule (sort : (nat -> nat -> bool) -> list nat -> list nat) : Prop :=
    forall comp l, strict_weak comp -> Permutation (sort comp l) l /\ sorted_by comp (sort comp l).

  (** The columns of Z are D v_k, for the numbers k of the list, in this order. *)
  Definition coarse_columns (n inside : nat) (v : nat -> nat -> C) (ks : list nat) (Z : mat K) : Prop :=
    wf_mat Z n (length ks) /\
    forall i j k, i < n -> nth_error ks j = Some k -> me Z i j = cmul K (unity inside i) (v k i).
End S.
Arguments unity {X} inside i.
Arguments weighted {X} inside A i j.
Arguments product {X} n A v i.
Arguments nonzero {X} n v.
Arguments eigenvector {X} n A B alpha beta v.
Arguments inner {X} n B x y.
Arguments stores {X} sel n a A.
Arguments column {X} n v k i.
Arguments gv_rule {X} ppos gv.
Arguments gv_answers {X} gv u n b A B.
Arguments ggev_answers {X} ggev n b A B.
Arguments real_answers {X} ggev n b A.
Arguments coarse_columns {X} n inside v ks Z.

(** The local matrix: of the size of the subdomain or of its part inside, with the selected entries of A inside. *)
Definition gives {X : Num} (sel : nat -> nat -> Prop) (inside n : nat) (Ai : mat (fk (nfd X))) (A : nat -> nat -> car (fk (nfd X))) : Prop :=
  exists m, (m = n \/ m = inside) /\ wf_mat Ai m m /\ forall i j, i < inside -> j < inside -> sel i j -> me Ai i j = A i j.

(** Distinct numbers of [0,n), by decreasing size, and no number left out is larger than one of them. *)
Definition leading (larger : nat -> nat -> bool) (n : nat) (ks : list nat) : Prop :=
  NoDup ks /\ (forall k, In k ks -> k < n) /\ sorted_by larger ks /\
  forall k k', In k ks -> k' < n -> ~ In k' ks -> larger k' k = false.
