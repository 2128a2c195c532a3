(** * Specification vocabulary for the compression of blocks. *)

From Coq Require Import List Arith ZArith Bool.
From Verif Require Import Algebra BlasModel HMatModel HMatSpec Field.
Import ListNotations.

Section S.
  Variable K : Coef.
  Notation C := (car K).
  (** Square of the Frobenius norm of an M x N matrix. *)
  Definition frob2 (M N : nat) (f : nat -> nat -> C) : C := sum M (fun i => sum N (fun j => cmul K (f i j) (cconj K (f i j)))).
  (** Entrywise difference between a block and its low-rank approximation. *)
  Definition error_of (L : lrm K) (A : nat -> nat -> C) (i j : nat) : C := csub K (A i j) (lr_entry L i j).
  (** The factors have the dimensions of a rank r approximation of an M x N block. *)
  Definition factors (L : lrm K) (M N r : nat) : Prop := wf_mat (lU L) M r /\ wf_mat (lV L) r N.
  (** The approximation is exact on the given rows and columns. *)
  Definition exact_on (L : lrm K) (A : nat -> nat -> C) (M N : nat) (rows cols : list nat) : Prop :=
    (forall i, In i rows -> i < M /\ forall j, j < N -> lr_entry L i j = A i j) /\
    (forall j, In j cols -> j < N /\ forall i, i < M -> lr_entry L i j = A i j).
  (** A block that the generator gave up: the empty factors, replaced by a dense block (block_data in HMatModel.v). *)
  Definition gave_up (L : lrm K) : Prop := mr (lU L) = 0 /\ mc (lV L) = 0.
End S.
Arguments error_of {K} L A i j.
Arguments factors {K} L M N r.
Arguments exact_on {K} L A M N rows cols.
Arguments gave_up {K} L.

(** Laws of std::abs and < used by the theorems. *)
Record abs_laws (X : Num) : Prop := {
  al_asym : forall a b, nltb X a b = true -> nltb X b a = false;
  al_cotrans : forall a b c, nltb X a c = true -> nltb X a b = true \/ nltb X b c = true;
  al_nonneg : forall x, nltb X (nabs X x) (c0 _) = false
}.

(** Laws of std::abs and std::real used by the error estimator: the modulus of a sum of squares is that sum, and
    twice the real part is the sum with the conjugate. *)
Definition estimator_laws (X : Num) : Prop :=
  (forall n (f : nat -> car (fk (nfd X))),
     nabs X (sum n (fun i => cmul _ (cconj _ (f i)) (f i))) = sum n (fun i => cmul _ (cconj _ (f i)) (f i))) /\
  (forall x, cadd (fk (nfd X)) (cre _ x) (cre _ x) = cadd _ x (cconj _ x)).

Section T.
  Variable X : Num.
  Notation K := (fk (nfd X)).
  Notation C := (car K).
  (** The contribution of the last column of U and the last row of V. *)
  Definition last_term (L : lrm K) (i j : nat) : C := cmul K (me (lU L) i (lrank L - 1)) (me (lV L) (lrank L - 1) j).

  (** What a partial-pivoting ACA guarantees about the result (r, L) for the M x N block A and the requested rank req:
      - either it gave up (no factors), or r > 0 and the factors have r columns and rows, cost no more than the dense block
        and their product is not zero,
      - they reproduce the block exactly on r distinct rows and r distinct columns,
      - and it stopped because the requested rank was reached, or because of the test [over] applied to the square norms
        of the last cross and of the whole approximation, or because it met a row (or a column, [by_rows] = false) not
        yet used on which the error is nowhere above [tol]. *)
  Definition partial_outcome (over : C -> C -> bool) (tol : C) (M N : nat) (A : nat -> nat -> C) (req r : Z) (L : lrm K) (by_rows : bool) : Prop :=
    (r <= 0)%Z /\ gave_up L \/
    (0 < r)%Z /\ factors L M N (Z.to_nat r) /\ lrank L * (M + N) <= M * N /\
    (exists i j, i < M /\ j < N /\ lr_entry L i j <> c0 K) /\
    exists rows cols, NoDup rows /\ NoDup cols /\ length rows = Z.to_nat r /\ length cols = Z.to_nat r /\ exact_on L A M N rows cols /\
     ((0 < req /\ r = Z.min req (Z.min (Z.of_nat M) (Z.of_nat N)))%Z \/
      ((req < 0)%Z /\ (estimator_laws X -> over (frob2 K M N (last_term L)) (frob2 K M N (lr_entry L)) = false)) \/
      (abs_laws X ->
         if by_rows then exists i, i < M /\ ~ In i rows /\ forall j, j < N -> nltb X tol (nabs X (error_of L A i j)) = false
         else exists j, j < N /\ ~ In j cols /\ forall i, i < M -> nltb X tol (nabs X (error_of L A i j)) = false)).

  (** A = u diag(s) vt with u and vt unitary, s real: the documentation of gesvd. *)
  Record is_svd (u : mat K) (s : list C) (vt : mat K) (M N : nat) (A : nat -> nat -> C) : Prop := {
    sd_len : length s = Nat.min M N;
    sd_real : forall k, cconj K (get s k) = get s k;
    sd_u : forall k l, k < M -> l < M -> sum M (fun i => cmul K (me u i k) (cconj K (me u i l))) = if k =? l then c1 K else c0 K;
    sd_vt : forall k l, k < N -> l < N -> sum N (fun j => cmul K (me vt k j) (cconj K (me vt l j))) = if k =? l then c1 K else c0 K;
    sd_val : forall i j, i < M -> j < N -> A i j = sum (Nat.min M N) (fun k => cmul K (cmul K (me u i k) (get s k)) (me vt k j))
  }.
End T.
Arguments last_term {X} L i j.
Arguments partial_outcome {X} over tol M N A req r L by_rows.
Arguments is_svd {X} u s vt M N A.

(** The M x N block f is a sum of k outer products. *)
Definition rank_at_most {K : Coef} (k M N : nat) (f : nat -> nat -> car K) : Prop :=
  exists P Q : nat -> nat -> car K, forall i j, i < M -> j < N -> f i j = sum k (fun l => cmul K (P l i) (Q l j)).

(** For the result (r, L) of a partial-pivoting ACA on a block of rank at most k: the rank returned is at most k, the error has the
    missing rank, and a block that is given up is too small for its rank or has a negligible first row (column). *)
Definition rank_outcome {X : Num} (tol : car (fk (nfd X))) (M N k : nat) (A : nat -> nat -> car (fk (nfd X))) (r : Z) (L : lrm (fk (nfd X))) (by_rows : bool) : Prop :=
  (r <= Z.of_nat k)%Z /\
  ((0 < r)%Z -> factors L M N (Z.to_nat r) /\ rank_at_most (k - Z.to_nat r) M N (error_of L A)) /\
  ((r < 0)%Z -> M * N < S k * (M + N) \/
    (abs_laws X -> if by_rows then forall j, j < N -> nltb X tol (nabs X (A 0 j)) = false else forall i, i < M -> nltb X tol (nabs X (A i 0)) = false)).
