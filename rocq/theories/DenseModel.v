(** * Dense factorisations and triangular solves.

    Source: matrix/linalg/factorization.hpp, wrappers/wrapper_blas.hpp (trsm), wrappers/wrapper_lapack.hpp (laswp, getrf, getrs,
    potrf, potrs: declarations).  BLAS and LAPACK are not in the repository: their documented results are modelled, in exact
    arithmetic, by the unblocked reference algorithms.  Division is that of a field.  No proofs in this file. *)

From Coq Require Import List Arith Bool.
From Verif Require Import BlockModel Algebra BlasModel HMatModel Field.
Import ListNotations.

(** The character diag: 'U' (unit diagonal, not read) or 'N'. *)
Inductive diagc : Type := DgU | DgN.

(** Exchange of [i] and [p]. *)
Definition exch (i p k : nat) : nat := if k =? i then p else if k =? p then i else k.

Section Dense.
  Variable F : Fld.
  Notation K := (fk F).
  Notation C := (car K).
  Notation "x +! y" := (cadd K x y) (at level 50, left associativity).
  Notation "x -! y" := (csub K x y) (at level 50, left associativity).
  Notation "x *! y" := (cmul K x y) (at level 40, left associativity).

  (** Entry of the triangular matrix read by trsm. *)
  Definition tri_entry (u : uplo) (d : diagc) (A : list C) (ld i j : nat) : C :=
    if i =? j then match d with DgU => c1 K | DgN => get A (i + i * ld) end
    else if in_triangle u i j then get A (i + j * ld) else c0 K.
  Definition tri_op (t : trans) (u : uplo) (d : diagc) (A : list C) (ld i j : nat) : C :=
    match t with
    | TrN => tri_entry u d A ld i j
    | TrT => tri_entry u d A ld j i
    | TrC => cconj K (tri_entry u d A ld j i)
    end.
  (** op of a lower (upper) triangular matrix is lower. *)
  Definition op_lower (t : trans) (u : uplo) : bool :=
    match u with UpU => negb (is_N t) | _ => is_N t end.

  (** Forward substitution: x_i = (b_i - sum_{k<i} a_ik x_k) / a_ii. *)
  Fixpoint forward (n : nat) (a : nat -> nat -> C) (b : nat -> C) : list C :=
    match n with
    | 0 => []
    | S m => let x := forward m a b in x ++ [fdiv F (b m -! sum m (fun k => a m k *! get x k)) (a m m)]
    end.
  (** Backward substitution is forward substitution from the last unknown. *)
  Definition backward (n : nat) (a : nat -> nat -> C) (b : nat -> C) : list C :=
    rev (forward n (fun i k => a (n - 1 - i) (n - 1 - k)) (fun i => b (n - 1 - i))).
  Definition substitute (lower : bool) (n : nat) (a : nat -> nat -> C) (b : nat -> C) : list C :=
    if lower then forward n a b else backward n a b.

  (** trsm: op(A) X = alpha B (side L) or X op(A) = alpha B (side R), B of size m x n overwritten by X. *)
  Definition trsm (s : side) (u : uplo) (t : trans) (d : diagc) (m n : nat) (alpha : C) (A : list C) (lda : nat) (B : list C) (ldb : nat)
    : option (list C) :=
    let na := match s with SdL => m | SdR => n end in
    if negb (legal_ld lda na && legal_ld ldb m) then None
    else if (m =? 0) || (n =? 0) then Some B
    else if holds K A lda na na && holds K B ldb m n then
      Some (update_mat K m n B ldb (fun i j =>
        match s with
        | SdL => get (substitute (op_lower t u) m (tri_op t u d A lda) (fun k => alpha *! get B (k + j * ldb))) i
        | SdR => get (substitute (negb (op_lower t u)) n (fun p q => tri_op t u d A lda q p) (fun k => alpha *! get B (i + k * ldb))) j
        end))
    else None.

  (** Exchange of two rows on n columns. *)
  Definition swap_rows (n ld i p : nat) (b : list C) : list C :=
    mk (length b) (fun q => if q / ld <? n then get b (exch i p (q mod ld) + (q / ld) * ld) else get b q).
  (** laswp with k1 = 1, k2 = m: the exchanges of the rows k and ipiv[k], k = 1..m if incx = 1, k = m..1 if incx = -1. *)
  Definition laswp (fwd : bool) (n : nat) (B : list C) (ldb m : nat) (ipiv : list nat) : option (list C) :=
    if holds K B ldb ldb n then
      fold_opt K (fun k b =>
        match nth_error ipiv k with
        | Some p => if (1 <=? p) && (p <=? ldb) then Some (swap_rows n ldb k (p - 1) b) else None
        | None => None
        end) (if fwd then seq 0 m else rev (seq 0 m)) B
    else None.

  (** std::swap of two coefficients of a buffer. *)
  Definition swap2 (p q : nat) (b : list C) : option (list C) :=
    if (p <? length b) && (q <? length b) then
      Some (mk (length b) (fun k => get b (exch p q k)))
    else None.
  (** The loops of factorization.hpp 49-53 and 68-72: for each row i, the exchanges of B(i,ipiv[j]-1) and B(i,j), j in [js]. *)
  Definition column_swaps (js : list nat) (nr nc : nat) (ipiv : list nat) (b : list C) : option (list C) :=
    fold_opt K (fun i b =>
      fold_opt K (fun j b =>
        match nth_error ipiv j with
        | Some p => if (1 <=? p) && (p <=? nc) then swap2 (i + (p - 1) * nr) (i + j * nr) b else None
        | None => None
        end) js b) (seq 0 nr) b.

  (** is_pivoted, factorization.hpp 32-38. *)
  Definition is_pivoted (ipiv : list nat) : bool :=
    existsb (fun k => nth k ipiv 0 =? k + 1) (seq 0 (length ipiv)).
  Definition is_L (u : uplo) : bool := match u with UpL => true | _ => false end.
  Definition side_is_L (s : side) : bool := match s with SdL => true | SdR => false end.

  (** triangular_matrix_matrix_solve, factorization.hpp 23-75. *)
  Definition triangular_matrix_matrix_solve (s : side) (u : uplo) (t : trans) (d : diagc) (alpha : C) (A B : mat K) : option (mat K) :=
    let m := mr B in let n := mc B in
    let lda := match s with SdL => m | SdR => n end in
    let act := is_pivoted (mp A) && is_L u in
    let b1 :=
      if act then
        if side_is_L s && is_N t then laswp true n (md B) m m (mp A)
        else if negb (side_is_L s) && negb (is_N t) then column_swaps (seq 0 n) m n (mp A) (md B)
        else Some (md B)
      else Some (md B) in
    match b1 with
    | None => None
    | Some b1 =>
        match trsm s u t d m n alpha (md A) lda b1 m with
        | None => None
        | Some b2 =>
            let b3 :=
              if act then
                if side_is_L s && negb (is_N t) then laswp false n b2 m m (mp A)
                else if negb (side_is_L s) && is_N t then column_swaps (rev (seq 0 n)) m n (mp A) b2
                else Some b2
              else Some b2 in
            match b3 with Some b3 => Some (mkPMat m n b3 (mp B)) | None => None end
        end
    end.

  (** iamax on the entries f k, ..., f (M-1): the first entry of largest absolute value; [lt x y]: |x| < |y|. *)
  Definition iamax (lt : C -> C -> bool) (f : nat -> C) (k M : nat) : nat :=
    fold_left (fun p i => if lt (f p) (f i) then i else p) (seq (S k) (M - S k)) k.
  (** getrf, by columns (getf2).  [piv f k M]: the row of the pivot of column f among the rows k..M-1 (iamax). *)
  Definition getf2_step (piv : (nat -> C) -> nat -> nat -> nat) (k : nat) (A : mat K) : mat K * nat :=
    let M := mr A in let N := mc A in
    let p := piv (fun i => me A i k) k M in
    let A1 :=
      if ceqb K (me A p k) (c0 K) then A
      else
        let A' := of_fun K M N (fun i j => me A (exch k p i) j) in
        of_fun K M N (fun i j => if (j =? k) && (k <? i) then fdiv F (me A' i j) (me A' k k) else me A' i j) in
    (of_fun K M N (fun i j => if (k <? i) && (k <? j) then me A1 i j -! me A1 i k *! me A1 k j else me A1 i j), p + 1).
  Fixpoint getf2 (piv : (nat -> C) -> nat -> nat -> nat) (steps k : nat) (A : mat K) (ipiv : list nat) : mat K * list nat :=
    match steps with
    | 0 => (A, ipiv)
    | S n => let (A', p) := getf2_step piv k A in getf2 piv n (S k) A' (ipiv ++ [p])
    end.
  (** lu_factorization, factorization.hpp 11-20; the value of info is ignored by the code. *)
  Definition lu_factorization (piv : (nat -> C) -> nat -> nat -> nat) (A : mat K) : option (mat K) :=
    if (1 <=? mr A) && (length (md A) =? mr A * mc A) then
      let (B, ipiv) := getf2 piv (Nat.min (mr A) (mc A)) 0 A [] in Some (mkPMat (mr A) (mc A) (md B) ipiv)
    else None.

  (** getrs: laswp and two trsm. *)
  Definition getrs (t : trans) (n nrhs : nat) (A : list C) (lda : nat) (ipiv : list nat) (B : list C) (ldb : nat) : option (list C) :=
    if is_N t then
      match laswp true nrhs B ldb n ipiv with
      | Some b1 =>
          match trsm SdL UpL TrN DgU n nrhs (c1 K) A lda b1 ldb with
          | Some b2 => trsm SdL UpU TrN DgN n nrhs (c1 K) A lda b2 ldb
          | None => None
          end
      | None => None
      end
    else
      match trsm SdL UpU t DgN n nrhs (c1 K) A lda B ldb with
      | Some b1 =>
          match trsm SdL UpL t DgU n nrhs (c1 K) A lda b1 ldb with
          | Some b2 => laswp false nrhs b2 ldb n ipiv
          | None => None
          end
      | None => None
      end.
  (** lu_solve, factorization.hpp 77-88. *)
  Definition lu_solve (t : trans) (A B : mat K) : option (mat K) :=
    match getrs t (mr A) (mc B) (md A) (mr A) (mp A) (md B) (mr A) with
    | Some b => Some (mkPMat (mr B) (mc B) b (mp B))
    | None => None
    end.

  (** potrf (potf2).  [ppos]: the test on the pivot; [psqrt]: the square root.  The algorithm stops at a pivot that is not
      positive (info > 0, ignored by the code). *)
  Section Potrf.
    Variables (ppos : C -> bool) (psqrt : C -> C).
    Definition potf2_step (u : uplo) (j : nat) (A : mat K) : mat K * bool :=
      let n := mr A in
      match u with
      | UpU =>
          let d := cre K (me A j j) -! sum j (fun k => cconj K (me A k j) *! me A k j) in
          if ppos d then
            (of_fun K n n (fun i c =>
               if i =? j then
                 if c =? j then psqrt d
                 else if j <? c then fdiv F (me A i c -! sum j (fun k => cconj K (me A k j) *! me A k c)) (psqrt d) else me A i c
               else me A i c), true)
          else (of_fun K n n (fun i c => if (i =? j) && (c =? j) then d else me A i c), false)
      | _ =>
          let d := cre K (me A j j) -! sum j (fun k => me A j k *! cconj K (me A j k)) in
          if ppos d then
            (of_fun K n n (fun i c =>
               if c =? j then
                 if i =? j then psqrt d
                 else if j <? i then fdiv F (me A i c -! sum j (fun k => me A i k *! cconj K (me A j k))) (psqrt d) else me A i c
               else me A i c), true)
          else (of_fun K n n (fun i c => if (i =? j) && (c =? j) then d else me A i c), false)
      end.
    Fixpoint potf2 (u : uplo) (steps j : nat) (A : mat K) : mat K * bool :=
      match steps with
      | 0 => (A, true)
      | S n => match potf2_step u j A with (A', true) => potf2 u n (S j) A' | r => r end
      end.
    (** cholesky_factorization, factorization.hpp 90-97; the boolean is info = 0, which the code does not look at. *)
    Definition cholesky_factorization (u : uplo) (A : mat K) : option (mat K * bool) :=
      if (1 <=? mr A) && (length (md A) =? mr A * mr A) then
        let (B, ok) := potf2 u (mr A) 0 A in Some (mkPMat (mr A) (mc A) (md B) (mp A), ok)
      else None.
    (** cholesky_solve, factorization.hpp 99-108: potrs. *)
    Definition cholesky_solve (u : uplo) (A B : mat K) : option (mat K) :=
      let n := mr A in let nrhs := mc B in
      let run := fun t b => trsm SdL u t DgN n nrhs (c1 K) (md A) n b n in
      let r := match u with
               | UpU => match run TrC (md B) with Some b => run TrN b | None => None end
               | _ => match run TrN (md B) with Some b => run TrC b | None => None end
               end in
      match r with Some b => Some (mkPMat (mr B) (mc B) b (mp B)) | None => None end.
  End Potrf.
End Dense.
