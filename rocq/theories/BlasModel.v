(** * Buffers and the BLAS routines used by the code.

    Source: wrappers/wrapper_blas.hpp (the declarations of the routines).  BLAS itself is not in the repository: its
    documented behaviour is modelled here (reference BLAS), with exact arithmetic.
    A buffer (a pointer with the memory that follows it) is the list of the coefficients from the pointer to the end of
    the allocation.  [None]: undefined behaviour (access out of the allocation) or an illegal argument reported by
    xerbla.  No proofs in this file. *)

From Coq Require Import List Arith Bool.
From Verif Require Import BlockModel Algebra.
Import ListNotations.

Inductive trans : Type := TrN | TrT | TrC.
Inductive side : Type := SdL | SdR.
Definition is_N (t : trans) : bool := match t with TrN => true | _ => false end.

Section Blas.
  Variable K : Coef.
  Notation C := (car K).
  Notation "x +! y" := (cadd K x y) (at level 50, left associativity).
  Notation "x *! y" := (cmul K x y) (at level 40, left associativity).

  Definition get (l : list C) (i : nat) : C := nth i l (c0 K).
  Definition mk (n : nat) (f : nat -> C) : list C := map f (seq 0 n).

  (** The pointer [l + k]. *)
  Definition ptr (l : list C) (k : nat) : option (list C) := if k <=? length l then Some (skipn k l) else None.
  (** The pointer [l + (a - b)], a negative displacement being out of the allocation. *)
  Definition ptr_diff (l : list C) (a b : nat) : option (list C) := if b <=? a then ptr l (a - b) else None.
  (** A routine [f] that writes through the pointer [l + (a - b)]. *)
  Definition write_at (l : list C) (a b : nat) (f : list C -> option (list C)) : option (list C) :=
    if (b <=? a) && (a - b <=? length l) then
      match f (skipn (a - b) l) with Some w => Some (firstn (a - b) l ++ w) | None => None end
    else None.

  (** Entry (i,j) of op(A), A stored by columns with leading dimension [ld]. *)
  Definition op_entry (t : trans) (A : list C) (ld i j : nat) : C :=
    match t with
    | TrN => get A (i + j * ld)
    | TrT => get A (j + i * ld)
    | TrC => cconj K (get A (j + i * ld))
    end.
  (** Entry (i,j) of a symmetric, or Hermitian, matrix of which one triangle is referenced. *)
  Definition in_triangle (u : uplo) (i j : nat) : bool := match u with UpU => i <=? j | _ => j <=? i end.
  Definition sym_entry (u : uplo) (A : list C) (ld i j : nat) : C :=
    if in_triangle u i j then get A (i + j * ld) else get A (j + i * ld).
  Definition herm_entry (u : uplo) (A : list C) (ld i j : nat) : C :=
    if i =? j then cre K (get A (i + j * ld))
    else if in_triangle u i j then get A (i + j * ld) else cconj K (get A (j + i * ld)).

  (** Leading dimension accepted by xerbla; the allocation contains a [rows] x [cols] matrix. *)
  Definition legal_ld (ld rows : nat) : bool := (1 <=? ld) && (rows <=? ld).
  Definition holds (A : list C) (ld rows cols : nat) : bool :=
    (rows =? 0) || (cols =? 0) || ((cols - 1) * ld + rows <=? length A).
  Definition rows_of (t : trans) (m n : nat) : nat := if is_N t then m else n.

  (** gemv: y := alpha op(A) x + beta y, A of size m x n.  Note the quick return of the reference implementation. *)
  Definition gemv (t : trans) (m n : nat) (alpha : C) (A : list C) (lda : nat) (x : list C) (beta : C) (y : list C)
    : option (list C) :=
    let out := rows_of t m n in
    let inn := rows_of t n m in
    if negb (legal_ld lda m) then None
    else if (m =? 0) || (n =? 0) then Some y
    else if holds A lda m n && (inn <=? length x) && (out <=? length y) then
      Some (mk out (fun i => (beta *! get y i) +! (alpha *! sum inn (fun j => op_entry t A lda i j *! get x j))) ++ skipn out y)
    else None.

  (** symv, hemv: y := alpha A x + beta y with the entries of A given by [e] (sym_entry or herm_entry). *)
  Definition xxmv (e : list C -> nat -> nat -> nat -> C) (n : nat) (alpha : C) (A : list C) (lda : nat) (x : list C) (beta : C)
    (y : list C) : option (list C) :=
    if negb (legal_ld lda n) then None
    else if n =? 0 then Some y
    else if holds A lda n n && (n <=? length x) && (n <=? length y) then
      Some (mk n (fun i => (beta *! get y i) +! (alpha *! sum n (fun j => e A lda i j *! get x j))) ++ skipn n y)
    else None.
  Definition symv (u : uplo) := xxmv (sym_entry u).
  Definition hemv (u : uplo) := xxmv (herm_entry u).

  (** Update of the M x N matrix stored in [Cb] with leading dimension [ldc] by entrywise function [f]. *)
  Definition update_mat (M N : nat) (Cb : list C) (ldc : nat) (f : nat -> nat -> C) : list C :=
    mk (length Cb) (fun p => if (p mod ldc <? M) && (p / ldc <? N) then f (p mod ldc) (p / ldc) else get Cb p).

  (** gemm: C := alpha op(A) op(B) + beta C, op(A) of size M x Kk, op(B) of size Kk x N. *)
  Definition gemm (ta tb : trans) (M N Kk : nat) (alpha : C) (A : list C) (lda : nat) (B : list C) (ldb : nat) (beta : C)
    (Cb : list C) (ldc : nat) : option (list C) :=
    if negb (legal_ld lda (rows_of ta M Kk) && legal_ld ldb (rows_of tb Kk N) && legal_ld ldc M) then None
    else if (M =? 0) || (N =? 0) then Some Cb
    else if holds A lda (rows_of ta M Kk) (rows_of ta Kk M) && holds B ldb (rows_of tb Kk N) (rows_of tb N Kk) && holds Cb ldc M N then
      Some (update_mat M N Cb ldc (fun i j =>
        (beta *! get Cb (i + j * ldc)) +! (alpha *! sum Kk (fun k => op_entry ta A lda i k *! op_entry tb B ldb k j))))
    else None.

  (** symm, hemm: C := alpha A B + beta C (side L) or alpha B A + beta C (side R); C and B of size M x N. *)
  Definition xxmm (e : list C -> nat -> nat -> nat -> C) (s : side) (M N : nat) (alpha : C) (A : list C) (lda : nat) (B : list C)
    (ldb : nat) (beta : C) (Cb : list C) (ldc : nat) : option (list C) :=
    let na := match s with SdL => M | SdR => N end in
    if negb (legal_ld lda na && legal_ld ldb M && legal_ld ldc M) then None
    else if (M =? 0) || (N =? 0) then Some Cb
    else if holds A lda na na && holds B ldb M N && holds Cb ldc M N then
      Some (update_mat M N Cb ldc (fun i j =>
        (beta *! get Cb (i + j * ldc)) +!
        (alpha *! match s with
                  | SdL => sum M (fun k => e A lda i k *! get B (k + j * ldb))
                  | SdR => sum N (fun k => get B (i + k * ldb) *! e A lda k j)
                  end)))
    else None.
  Definition symm (s : side) (u : uplo) := xxmm (sym_entry u) s.
  Definition hemm (s : side) (u : uplo) := xxmm (herm_entry u) s.

  (** axpy: y := alpha x + y on n coefficients; scal: x := a x; both with increment 1. *)
  Definition axpy (n : nat) (alpha : C) (x y : list C) : option (list C) :=
    if (n <=? length x) && (n <=? length y) then
      Some (mk n (fun i => (alpha *! get x i) +! get y i) ++ skipn n y)
    else None.
  Definition scal (n : nat) (a : C) (x : list C) : option (list C) :=
    if n <=? length x then Some (mk n (fun i => a *! get x i) ++ skipn n x) else None.
  (** std::transform on the first n coefficients (element * beta, conjugation), std::copy_n. *)
  Definition transform (n : nat) (f : C -> C) (x : list C) : option (list C) :=
    if n <=? length x then Some (mk n (fun i => f (get x i)) ++ skipn n x) else None.
  Definition copy_n (src : list C) (n : nat) (dst : list C) : option (list C) :=
    if (n <=? length src) && (n <=? length dst) then Some (firstn n src ++ skipn n dst) else None.
End Blas.
Arguments get {K} l i.
Arguments mk {K} n f.
