(** * Specification vocabulary for dense factorisations. *)

From Coq Require Import List Arith Bool.
From Verif Require Import BlockModel Algebra BlasModel HMatModel HMatSpec Field DenseModel.
Import ListNotations.

(** The pivot vectors that getrf can return for an n x n matrix: row k is exchanged with a row that is not above it. *)
Definition getrf_pivots (n : nat) (ipiv : list nat) : Prop :=
  length ipiv = n /\ forall k, k < n -> k + 1 <= nth k ipiv 0 <= n.

(** The row of A that is row i of P A, P being the product of the exchanges of rows 1 and ipiv[1], then 2 and ipiv[2], ... *)
Fixpoint source_row (k : nat) (ipiv : list nat) (i : nat) : nat :=
  match ipiv with [] => i | p :: l => exch k (p - 1) (source_row (S k) l i) end.
(** The row of P A to which row i of A is moved. *)
Fixpoint target_row (k : nat) (ipiv : list nat) (i : nat) : nat :=
  match ipiv with [] => i | p :: l => target_row (S k) l (exch k (p - 1) i) end.

Section S.
  Variable F : Fld.
  Notation K := (fk F).
  Notation C := (car K).

  (** Lower and upper triangular matrices stored in a matrix, with the given diagonal. *)
  Definition triangle (u : uplo) (d : diagc) (A : mat K) (i j : nat) : C :=
    if i =? j then match d with DgU => c1 K | DgN => me A i i end
    else if match u with UpU => i <? j | _ => j <? i end then me A i j else c0 K.
  (** The factors of the factored matrix: the upper one is U, the lower one is P^T L. *)
  Definition factor (u : uplo) (d : diagc) (A : mat K) (i j : nat) : C :=
    triangle u d A (if is_L u then target_row 0 (mp A) i else i) j.

  (** X is the solution of op(T) X = alpha B (side L) or X op(T) = alpha B (side R), T square and B of size m x n. *)
  Definition is_solution (s : side) (t : trans) (T : nat -> nat -> C) (alpha : C) (m n : nat) (B X : nat -> nat -> C) : Prop :=
    forall i j, i < m -> j < n ->
      match s with
      | SdL => sum m (fun k => cmul K (op_fun t T i k) (X k j))
      | SdR => sum n (fun k => cmul K (X i k) (op_fun t T k j))
      end = cmul K alpha (B i j).

  (** The contract of the choice of the pivot (iamax on the rows k..M-1): a row not above k, with a non-zero entry if there is
      one, and the first row if all the entries are zero. *)
  Definition pivot_rule (piv : (nat -> C) -> nat -> nat -> nat) : Prop :=
    forall f k M, k < M -> k <= piv f k M < M /\ (f (piv f k M) = c0 K -> piv f k M = k /\ forall i, k <= i < M -> f i = c0 K).

  (** What is used of the comparison of absolute values: zero is less than any other number, and than zero nothing. *)
  Definition abs_order (lt : C -> C -> bool) : Prop := (forall x, x <> c0 K -> lt (c0 K) x = true) /\ forall x, lt x (c0 K) = false.

  (** The square matrix is invertible. *)
  Definition injective (n : nat) (A : nat -> nat -> C) : Prop :=
    forall x, (forall i, i < n -> sum n (fun k => cmul K (A i k) (x k)) = c0 K) -> forall k, k < n -> x k = c0 K.

  (** What is used of the square root of a positive real number. *)
  Definition sqrt_rule (ppos : C -> bool) (psqrt : C -> C) : Prop :=
    forall d, cconj K d = d -> ppos d = true -> psqrt d <> c0 K /\ cconj K (psqrt d) = psqrt d /\ cmul K (psqrt d) (psqrt d) = d.
  (** x^H A x, and positive definite matrices: x^H A x is a positive real number unless x is zero. *)
  Definition quadratic (n : nat) (A : nat -> nat -> C) (x : nat -> C) : C :=
    sum n (fun i => cmul K (cconj K (x i)) (sum n (fun j => cmul K (A i j) (x j)))).
  Definition posdef (ppos : C -> bool) (n : nat) (A : nat -> nat -> C) : Prop :=
    forall x, (exists i, i < n /\ x i <> c0 K) -> ppos (quadratic n A x) = true.
  Definition hermitian (n : nat) (A : nat -> nat -> C) : Prop := forall i j, i < n -> j < n -> A i j = cconj K (A j i).
End S.
Arguments sqrt_rule {F} ppos psqrt.
Arguments quadratic {F} n A x.
Arguments posdef {F} ppos n A.
Arguments hermitian {F} n A.
Arguments triangle {F} u d A i j.
Arguments factor {F} u d A i j.
Arguments is_solution {F} s t T alpha m n B X.
Arguments pivot_rule {F} piv.
Arguments injective {F} n A.
Arguments abs_order {F} lt.
