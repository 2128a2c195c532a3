(** * Local solvers of the domain decomposition preconditioner.

    Source: solvers/local_solvers/*.hpp, solvers/utility.hpp.  No proofs in this file.

    Exact arithmetic; the factorisations and the triangular solves are those of DenseModel and HFactModel.  A buffer is the list of
    the coefficients from the pointer to the end of the allocation; [None]: undefined behaviour or an illegal argument reported by
    BLAS. *)

From Coq Require Import List Arith Bool.
From Verif Require Import ClusterModel IOModel BlockModel Algebra BlasModel HMatModel Field DenseModel DistModel ArithModel HFactModel.
Import ListNotations.

Section Local.
  Variable F : Fld.
  Notation K := (fk F).
  Notation C := (car K).
  Notation mat := (mat K).
  Notation hmat := (rtree (hinfo K)).
  Notation hv := rt_val.
  Variable recompress : lrm K -> lrm K.
  Variable svd_factors : mat -> lrm K.
  Variable parts : ctree -> list ctree.
  Variable piv : (nat -> C) -> nat -> nat -> nat.
  Variable ppos : C -> bool.
  Variable psqrt : C -> C.
  (** is_complex<CoefficientPrecision>() ? 'C' : 'T'. *)
  Variable star : trans.
  Variable fuel : nat.

  (** Loops "for i < mu: std::copy_n(src + so + i * lds, n, dst + d0 + i * ldd)". *)
  Definition copy_columns (mu n : nat) (src : list C) (so lds : nat) (dst : list C) (d0 ldd : nat) : option (list C) :=
    fold_o (fun i d => write_at K d (d0 + i * ldd) 0 (fun w => do x <- ptr K src (so + i * lds); copy_n K x n w)) (seq 0 mu) dst.

  (** ** LocalDenseSolver, local_dense_solvers.hpp *)
  (** numfact, lines 16-18. *)
  Definition dense_numfact (A : mat) : option mat := lu_factorization F piv A.
  (** The view assign(nb_cols, mu, b, false) on the first nb_cols * mu coefficients of b, the solve through the view. *)
  Definition through_view (f : mat -> option mat) (r c : nat) (b : list C) : option (list C) :=
    if r * c <=? length b then
      do X <- f (mkMat r c (firstn (r * c) b)); Some (md X ++ skipn (r * c) b)
    else None.
  (** solve in place, lines 19-23. *)
  Definition dense_solve (A : mat) (b : list C) (mu : nat) : option (list C) := through_view (DenseModel.lu_solve F TrN A) (mc A) mu b.
  (** solve(b, x, mu), lines 24-29. *)
  Definition dense_solve_into (A : mat) (b x : list C) (mu : nat) : option (list C) :=
    do x1 <- copy_n K b (mc A * mu) x; through_view (DenseModel.lu_solve F TrN A) (mc A) mu x1.

  (** ** LocalHMatrixSolver, local_hmatrix_solvers.hpp *)
  (** numfact, lines 23-29, with the report of LAPACK (which the code ignores). *)
  Definition h_numfact (A : hmat) : option (hmat * bool) :=
    match h_sym (hv A) with
    | SyN => do A' <- lu F recompress svd_factors parts piv fuel A; Some (A', true)
    | SyS | SyH => cholesky F recompress svd_factors parts ppos psqrt star fuel (h_uplo (hv A)) A
    | Sy0 => Some (A, true)
    end.
  (** Lines 46-50 and 73-77. *)
  Definition h_internal (A : hmat) (X : mat) : option mat :=
    match h_sym (hv A) with
    | SyN => internal_lu_solve F parts fuel TrN A X
    | SyS | SyH => internal_cholesky_solve F parts star fuel (h_uplo (hv A)) A X
    | Sy0 => Some X
    end.
  (** user_to_cluster, cluster_to_user on each column. *)
  Variable perm : list nat.
  Definition columns_renumbered (ren : nat -> nat -> list nat -> list C -> list C -> option (list C)) (c : ctree) (mu : nat) (inp out : list C) : option (list C) :=
    fold_o (fun i d => write_at K d (c_size c * i) 0 (fun w => do x <- ptr K inp (c_size c * i); ren (c_off c) (c_size c) perm x w)) (seq 0 mu) out.
  (** With the permutation, lines 32-41, 52-57 and 60-68, 79-84 (x is b for the solve in place).  The buffer, of size
      nb_cols x mu, is kept from one call to the next by the code; it is entirely overwritten here. *)
  Definition h_solve_permuted (A : hmat) (b x : list C) (mu : nat) : option (list C) :=
    do buf <- columns_renumbered (@user_to_cluster C) (h_s (hv A)) mu b (repeat (c0 K) (h_cols K A * mu));
    do Y <- h_internal A (mkMat (h_cols K A) mu buf);
    columns_renumbered (@cluster_to_user C) (h_t (hv A)) mu (md Y) x.
  (** Without: the buffer is a view on b (lines 42-44), or on x after a copy (lines 69-71). *)
  Definition h_solve (permuted : bool) (A : hmat) (b : list C) (mu : nat) : option (list C) :=
    if permuted then h_solve_permuted A b b mu else through_view (h_internal A) (h_cols K A) mu b.
  Definition h_solve_into (permuted : bool) (A : hmat) (b x : list C) (mu : nat) : option (list C) :=
    if permuted then h_solve_permuted A b x mu
    else do x1 <- copy_n K b (mu * h_cols K A) x; through_view (h_internal A) (h_cols K A) mu x1.

  (** ** LocalHMatrixPlusOverlapSolver, local_hmatrix_plus_overlap_solvers.hpp *)
  Record overlap : Type := mkOverlap { o_A : hmat; o_B : mat; o_C : mat; o_D : mat }.

  (** numfact, lines 24-47. *)
  Definition o_numfact (o : overlap) : option (overlap * bool) :=
    let A := o_A o in let B := o_B o in let Cm := o_C o in let D := o_D o in
    match h_sym (hv A) with
    | SyN =>
        do A' <- lu F recompress svd_factors parts piv fuel A;
        if 0 <? mr Cm then
          do B' <- matrix_solve F parts fuel SdL UpL TrN DgU (c1 K) A' B;
          do C' <- matrix_solve F parts fuel SdR UpU TrN DgN (c1 K) A' Cm;
          do D' <- add_matrix_matrix_product K TrN TrN (copp K (c1 K)) C' B' (c1 K) D;
          do D'' <- lu_factorization F piv D';
          Some (mkOverlap A' B' C' D'', true)
        else Some (mkOverlap A' B Cm D, true)
    | SyS | SyH =>
        let u := h_uplo (hv A) in
        match cholesky F recompress svd_factors parts ppos psqrt star fuel u A with
        | None => None
        | Some (A', ok) =>
            match u with
            | UpL =>
                if 0 <? mr Cm then
                  do C' <- matrix_solve F parts fuel SdR UpL star DgN (c1 K) A' Cm;
                  do D' <- add_matrix_matrix_product K TrN star (copp K (c1 K)) C' C' (c1 K) D;
                  match cholesky_factorization F ppos psqrt UpL D' with
                  | Some (D'', ok') => Some (mkOverlap A' B C' D'', ok && ok')
                  | None => None
                  end
                else Some (mkOverlap A' B Cm D, ok)
            | UpU =>
                if 0 <? mc B then
                  do B' <- matrix_solve F parts fuel SdL UpU star DgN (c1 K) A' B;
                  do D' <- add_matrix_matrix_product K star TrN (copp K (c1 K)) B' B' (c1 K) D;
                  match cholesky_factorization F ppos psqrt UpU D' with
                  | Some (D'', ok') => Some (mkOverlap A' B' Cm D'', ok && ok')
                  | None => None
                  end
                else Some (mkOverlap A' B Cm D, ok)
            | UpN => Some (mkOverlap A' B Cm D, ok)
            end
        end
    | Sy0 => Some (o, true)
    end.

  (** solve(b1, b2), lines 85-124. *)
  Definition o_blocks_solve (o : overlap) (b1 b2 : mat) : option (mat * mat) :=
    let A := o_A o in let B := o_B o in let Cm := o_C o in let D := o_D o in
    let m1 := copp K (c1 K) in
    match h_sym (hv A) with
    | SyN =>
        do x1 <- matrix_solve F parts fuel SdL UpL TrN DgU (c1 K) A b1;
        do y <- (if 0 <? mr Cm then
                   do z1 <- add_matrix_matrix_product K TrN TrN m1 Cm x1 (c1 K) b2;
                   do z2 <- triangular_matrix_matrix_solve F SdL UpL TrN DgU (c1 K) D z1;
                   do z3 <- triangular_matrix_matrix_solve F SdL UpU TrN DgN (c1 K) D z2;
                   do x2 <- add_matrix_matrix_product K TrN TrN m1 B z3 (c1 K) x1;
                   Some (x2, z3)
                 else Some (x1, b2));
        do x3 <- matrix_solve F parts fuel SdL UpU TrN DgN (c1 K) A (fst y);
        Some (x3, snd y)
    | SyS | SyH =>
        match h_uplo (hv A) with
        | UpL =>
            do x1 <- matrix_solve F parts fuel SdL UpL TrN DgN (c1 K) A b1;
            do y <- (if 0 <? mr Cm then
                       do z1 <- add_matrix_matrix_product K TrN TrN m1 Cm x1 (c1 K) b2;
                       do z2 <- triangular_matrix_matrix_solve F SdL UpL TrN DgU (c1 K) D z1;
                       do z3 <- triangular_matrix_matrix_solve F SdL UpL star DgN (c1 K) D z2;
                       do x2 <- add_matrix_matrix_product K star TrN m1 Cm z3 (c1 K) x1;
                       Some (x2, z3)
                     else Some (x1, b2));
            do x3 <- matrix_solve F parts fuel SdL UpL star DgN (c1 K) A (fst y);
            Some (x3, snd y)
        | UpU =>
            do x1 <- matrix_solve F parts fuel SdL UpU star DgN (c1 K) A b1;
            do y <- (if 0 <? mc B then
                       do z1 <- add_matrix_matrix_product K star TrN m1 B x1 (c1 K) b2;
                       do z2 <- triangular_matrix_matrix_solve F SdL UpU TrN DgU (c1 K) D z1;
                       do x2 <- add_matrix_matrix_product K TrN TrN m1 B z2 (c1 K) x1;
                       Some (x2, z2)
                     else Some (x1, b2));
            do x3 <- matrix_solve F parts fuel SdL UpU TrN DgN (c1 K) A (fst y);
            Some (x3, snd y)
        | UpN => Some (b1, b2)
        end
    | Sy0 => Some (b1, b2)
    end.
  (** solve(b, x, mu), lines 67-83; solve(b, mu), lines 48-66, is the case where x is b. *)
  Definition o_solve_into (o : overlap) (b x : list C) (mu : nat) : option (list C) :=
    let n := c_size (h_t (hv (o_A o))) in let p := mr (o_D o) in
    do d1 <- copy_columns mu n b 0 (n + p) (repeat (c0 K) (n * mu)) 0 n;
    do d2 <- copy_columns mu p b n (n + p) (repeat (c0 K) (p * mu)) 0 p;
    do y <- o_blocks_solve o (mkMat n mu d1) (mkMat p mu d2);
    do x1 <- copy_columns mu n (md (fst y)) 0 n x 0 (n + p);
    copy_columns mu p (md (snd y)) 0 p x1 n (n + p).
  Definition o_solve (o : overlap) (b : list C) (mu : nat) : option (list C) := o_solve_into o b b mu.

  (** ** The blocks of the overlap, initialize_blocks_in_overlap of DDMSolverBuilder, solvers/utility.hpp 209-236.
      gen: the generator, in user numbering; l2g: local_to_global_numbering; sym: the operator is symmetric, or hermitian and
      complex; u: UPLO of the hierarchical matrix.  A default constructed Matrix is 0 x 0. *)
  Definition gen_block (gen : nat -> nat -> C) (rows cols : list nat) : mat :=
    of_fun K (length rows) (length cols) (fun i j => gen (nth i rows 0) (nth j cols 0)).
  Definition overlap_blocks (gen : nat -> nat -> C) (l2g : list nat) (n : nat) (sym : bool) (u : uplo) : mat * mat * mat :=
    let inside := firstn n l2g in let ovr := skipn n l2g in
    let D := gen_block gen ovr ovr in
    if negb sym || (match u with UpU => true | _ => false end) then (gen_block gen inside ovr, zeros K 0 0, D)
    else if negb sym || (match u with UpL => true | _ => false end) then (zeros K 0 0, gen_block gen ovr inside, D)
    else (zeros K 0 0, zeros K 0 0, D).
End Local.
Arguments mkOverlap {F}.
Arguments o_A {F}.
Arguments o_B {F}.
Arguments o_C {F}.
Arguments o_D {F}.
