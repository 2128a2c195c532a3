(** * Specification vocabulary for the recompression: documentation of geqrf, gelqf and gesvd. *)

From Coq Require Import List Arith ZArith Bool.
From Verif Require Import Algebra BlasModel HMatModel HMatSpec Field CompModel CompSpec RecompModel.
Import ListNotations.

Section S.
  Variable X : Num.
  Notation K := (fk (nfd X)).
  Notation C := (car K).

  (** The n columns of q, of length m, are orthonormal; the n rows of q, of length m, are orthonormal. *)
  Definition columns_orthonormal (m n : nat) (q : nat -> nat -> C) : Prop :=
    forall k l, k < n -> l < n -> sum m (fun i => cmul K (q i k) (cconj K (q i l))) = if k =? l then c1 K else c0 K.
  Definition rows_orthonormal (m n : nat) (q : nat -> nat -> C) : Prop :=
    forall k l, k < n -> l < n -> sum m (fun j => cmul K (q k j) (cconj K (q l j))) = if k =? l then c1 K else c0 K.

  (** geqrf on the m x n matrix A: A = Q R, Q unitary given by the reflectors, R the upper triangle of the result. *)
  Definition qr_documented (geqrf : nat -> nat -> list C -> nat -> list C * list C) (m n : nat) (A : mat K) : Prop :=
    let (a, tau) := geqrf m n (md A) m in
    length a = m * n /\ length tau = Nat.min m n /\
    columns_orthonormal m m (qr_q X m (Nat.min m n) a m tau) /\
    forall i j, i < m -> j < n ->
      me A i j = sum m (fun k => cmul K (qr_q X m (Nat.min m n) a m tau i k) (if k <=? j then get a (k + j * m) else c0 K)).
  (** gelqf on the m x n matrix A: A = L Q, Q unitary, L the lower triangle of the result. *)
  Definition lq_documented (gelqf : nat -> nat -> list C -> nat -> list C * list C) (m n : nat) (A : mat K) : Prop :=
    let (a, tau) := gelqf m n (md A) m in
    length a = m * n /\ length tau = Nat.min m n /\
    rows_orthonormal n n (lq_q X n (Nat.min m n) a m tau) /\
    forall i j, i < m -> j < n ->
      me A i j = sum n (fun k => cmul K (if k <=? i then get a (i + k * m) else c0 K) (lq_q X n (Nat.min m n) a m tau k j)).
  (** gesvd on the m x n matrix with the entries f; the singular values are nonnegative: [rsqrt] squared gives them back. *)
  Definition svd_documented (gesvd : mat K -> svd3 X) (rsqrt : C -> C) (m n : nat) (f : nat -> nat -> C) : Prop :=
    forall A, wf_mat A m n -> (forall i j, i < m -> j < n -> me A i j = f i j) ->
      wf_mat (sv_u X (gesvd A)) m m /\ wf_mat (sv_vt X (gesvd A)) n n /\
      is_svd (X := X) (sv_u X (gesvd A)) (sv_s X (gesvd A)) (sv_vt X (gesvd A)) m n (me A) /\
      forall k, k < Nat.min m n -> cmul K (rsqrt (get (sv_s X (gesvd A)) k)) (rsqrt (get (sv_s X (gesvd A)) k)) = get (sv_s X (gesvd A)) k.

  (** The calls of LAPACK made by the recompression of the M x N matrix L = U V: the SVD of U V when the rank exceeds M or N;
      otherwise U = Q1 R, V = L Q2 and the SVD of R L. *)
  Definition lapack_documented (geqrf gelqf : nat -> nat -> list C -> nat -> list C * list C) gesvd rsqrt (L : lrm K) (M N : nat) : Prop :=
    let n := lrank L in
    if Nat.min M N <? n then svd_documented gesvd rsqrt M N (lr_entry L)
    else qr_documented geqrf M n (lU L) /\ lq_documented gelqf n N (lV L) /\
      svd_documented gesvd rsqrt n n (fun i j => sum n (fun k =>
        cmul K (if i <=? k then get (fst (geqrf M n (md (lU L)) M)) (i + k * M) else c0 K)
               (if j <=? k then get (fst (gelqf n N (md (lV L)) n)) (k + j * n) else c0 K))).
End S.
Arguments columns_orthonormal {X} m n q.
Arguments rows_orthonormal {X} m n q.
Arguments qr_documented {X} geqrf m n A.
Arguments lq_documented {X} gelqf m n A.
Arguments svd_documented {X} gesvd rsqrt m n f.
Arguments lapack_documented {X} geqrf gelqf gesvd rsqrt L M N.
