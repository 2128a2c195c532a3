(** * Recompression of a low-rank matrix.

    Source: hmatrix/lrmat/utils/recompression.hpp, the truncation of lrmat/linalg/add_matrix_matrix_product.hpp,
    hmatrix/linalg/add_hmatrix_matrix_product.hpp and add_matrix_hmatrix_product.hpp.  No proofs in this file.

    LAPACK: the reflectors stored by geqrf and gelqf and their application by mqr and mlq are defined from LAPACK's
    documentation; geqrf, gelqf and gesvd are parameters, whose documentation is stated in RecompSpec.v.  The workspace
    queries (lwork = -1) are left out.  Exact arithmetic.  [None]: undefined behaviour or an illegal argument. *)

From Coq Require Import List Arith ZArith Bool.
From Verif Require Import Algebra BlasModel HMatModel Field DistModel ArithModel CompModel.
Import ListNotations.

Section Recomp.
  Variable X : Num.
  Notation K := (fk (nfd X)).
  Notation C := (car K).
  Notation "x *! y" := (cmul K x y) (at level 40, left associativity).
  Notation "x -! y" := (csub K x y) (at level 50, left associativity).

  (** ** LAPACK *)
  Definition ident (i j : nat) : C := if i =? j then c1 K else c0 K.
  Definition times (n : nat) (f g : nat -> nat -> C) (i j : nat) : C := sum n (fun k => f i k *! g k j).
  (** H = I - tau v v^H, an elementary reflector. *)
  Definition reflector (tau : C) (v : nat -> C) (i j : nat) : C := ident i j -! tau *! v i *! cconj K (v j).
  (** geqrf: "Q = H(1) H(2) . . . H(k); v(1:i-1) = 0 and v(i) = 1; v(i+1:m) is stored on exit in A(i+1:m,i)". *)
  Definition qr_vector (a : list C) (lda i j : nat) : C := if j <? i then c0 K else if j =? i then c1 K else get a (j + i * lda).
  Fixpoint qr_q (m k : nat) (a : list C) (lda : nat) (tau : list C) : nat -> nat -> C :=
    match k with
    | O => ident
    | S k' => times m (qr_q m k' a lda tau) (reflector (get tau k') (qr_vector a lda k'))
    end.
  (** gelqf: "Q = H(k)**H . . . H(2)**H H(1)**H; v(1:i-1) = 0 and v(i) = 1; conjg(v(i+1:n)) is stored on exit in A(i,i+1:n)". *)
  Definition lq_vector (a : list C) (lda i j : nat) : C := if j <? i then c0 K else if j =? i then c1 K else cconj K (get a (i + j * lda)).
  Fixpoint lq_q (n k : nat) (a : list C) (lda : nat) (tau : list C) : nat -> nat -> C :=
    match k with
    | O => ident
    | S k' => times n (reflector (cconj K (get tau k')) (lq_vector a lda k')) (lq_q n k' a lda tau)
    end.
  (** ormqr/unmqr with side 'L', trans 'N': C := Q C, C of size m x n, Q given by k reflectors. *)
  Definition mqr_LN (m n k : nat) (a : list C) (lda : nat) (tau c : list C) (ldc : nat) : option (list C) :=
    if negb ((k <=? m) && legal_ld lda m && legal_ld ldc m) then None
    else if (m =? 0) || (n =? 0) || (k =? 0) then Some c
    else if holds K a lda m k && (k <=? length tau) && holds K c ldc m n then
      Some (update_mat K m n c ldc (fun i j => sum m (fun l => qr_q m k a lda tau i l *! get c (l + j * ldc))))
    else None.
  (** ormlq/unmlq with side 'R', trans 'N': C := C Q, C of size m x n, Q given by k reflectors. *)
  Definition mlq_RN (m n k : nat) (a : list C) (lda : nat) (tau c : list C) (ldc : nat) : option (list C) :=
    if negb ((k <=? n) && legal_ld lda k && legal_ld ldc m) then None
    else if (m =? 0) || (n =? 0) || (k =? 0) then Some c
    else if holds K a lda k n && (k <=? length tau) && holds K c ldc m n then
      Some (update_mat K m n c ldc (fun i j => sum n (fun l => get c (i + l * ldc) *! lq_q n k a lda tau l j)))
    else None.

  (** geqrf(m, n, a, lda): the new content of a, and tau; gelqf; gesvd("A","A") of a matrix. *)
  Variable geqrf gelqf : nat -> nat -> list C -> nat -> list C * list C.
  Variable gesvd : mat K -> svd3 X.
  (** std::sqrt of a singular value; the test std::sqrt(e) / std::sqrt(n) < epsilon (CompModel.v). *)
  Variable rsqrt : C -> C.
  Variable small : C -> C -> bool.

  (** ** The new factors *)
  (** new_U := u sqrt(S) on the first [nu] rows, recompression.hpp 44-52 ([nu] = [ldu] = M) and 123-131 ([nu] = [ldu] = rank);
      add_matrix_matrix_product.hpp 48-56.  new_U.resize fills with 0, matrix.hpp 222-235. *)
  Definition new_U (M tr nu ldu : nat) (u s : list C) : option (mat K) :=
    option_map (@mkMat K M tr)
      (fold_opt K (fun r b =>
         do b1 <- write_at K b (r * M) 0 (fun p => do q <- ptr K u (r * ldu); copy_n K q nu p);
         write_at K b1 (r * M) 0 (scal K M (rsqrt (get s r))))
       (seq 0 tr) (repeat (c0 K) (M * tr))).
  (** new_V := sqrt(S) vt on the first [nv] columns, recompression.hpp 53-61 ([nv] = [ldvt] = N) and 132-140 ([nv] = [ldvt] = rank);
      add_matrix_matrix_product.hpp 57-65. *)
  Definition new_V (tr N nv ldvt : nat) (vt s : list C) : option (mat K) :=
    option_map (@mkMat K tr N)
      (do b <- fold_opt K (fun r b => write_at K b (r * tr) 0 (fun p => do q <- ptr K vt (r * ldvt); copy_n K q tr p))
                 (seq 0 nv) (repeat (c0 K) (tr * N));
       fold_opt K (fun rj b => set1 K (fst rj + snd rj * tr) (rsqrt (get s (fst rj)) *! get b (fst rj + snd rj * tr)) b)
         (list_prod (seq 0 tr) (seq 0 nv)) b).

  (** The truncated SVD of a dense matrix, add_matrix_matrix_product.hpp 25-66 (into U_1 and V_1, or into C). *)
  Definition truncated_svd (A : mat K) : option (lrm K) :=
    let d := gesvd A in
    do tr <- svd_truncation X small (sv_s X d);
    do U <- new_U (mr A) tr (mc (sv_u X d)) (mr (sv_u X d)) (md (sv_u X d)) (sv_s X d);
    do V <- new_V tr (mc A) (mc (sv_vt X d)) (mr (sv_vt X d)) (md (sv_vt X d)) (sv_s X d);
    Some (mkLrm U V).

  (** recompression, recompression.hpp 18-179. *)
  Definition recompression (L : lrm K) : option (lrm K) :=
    let U := lU L in let V := lV L in
    let rank := lrank L in
    if Nat.min (mr U) (mc V) <? rank then
      (* lines 25-63 *)
      do UV <- add_matrix_matrix_product K TrN TrN (c1 K) U V (c1 K) (zeros K (mr U) (mc V));
      let d := gesvd UV in
      do tr <- svd_truncation X small (sv_s X d);
      do U' <- new_U (mr U) tr (mr (sv_u X d)) (mr (sv_u X d)) (md (sv_u X d)) (sv_s X d);
      do V' <- new_V tr (mc V) (mc (sv_vt X d)) (mr (sv_vt X d)) (md (sv_vt X d)) (sv_s X d);
      Some (mkLrm U' V')
    else
      (* U = Q1 R, lines 66-79; V = L Q2, lines 82-95 *)
      let (qa, tq) := geqrf (mr U) (mc U) (md U) (mr U) in
      let (la, tl) := gelqf (mr V) (mc V) (md V) (mr V) in
      (* RL = R L, lines 98-114 *)
      let R := of_fun K rank rank (fun i j => if i <=? j then get qa (i + j * mr U) else c0 K) in
      let Lo := of_fun K rank rank (fun i j => if j <=? i then get la (i + j * mr V) else c0 K) in
      do RL <- add_matrix_matrix_product K TrN TrN (c1 K) R Lo (c0 K) (zeros K rank rank);
      (* RL = u S vt, lines 117-120 *)
      let d := gesvd RL in
      do tr <- svd_truncation X small (sv_s X d);
      do U' <- new_U (mr U) tr rank rank (md (sv_u X d)) (sv_s X d);
      do V' <- new_V tr (mc V) rank rank (md (sv_vt X d)) (sv_s X d);
      (* new_U = Q1 new_U, lines 144-158; new_V = new_V Q2, lines 161-177 *)
      do bu <- mqr_LN (mr U') (mc U') (length tq) qa (mr U') tq (md U') (mr U');
      do bv <- mlq_RN (mr V') (mc V') (length tl) la (mr V) tl (md V') (mr V');
      Some (mkLrm (with_data K U' bu) (with_data K V' bv)).
End Recomp.
