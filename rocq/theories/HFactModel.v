(** * Triangular solves and factorisations of hierarchical matrices.

    Source: hmatrix/linalg/triangular_hmatrix_matrix_solve.hpp, triangular_hmatrix_lrmat_solve.hpp,
    triangular_hmatrix_hmatrix_solve.hpp, factorization.hpp.  No proofs in this file.

    Exact arithmetic; BLAS and LAPACK as in DenseModel; the truncations are parameters, as in ArithModel.  UPLO is 'L' or 'U'.
    [None]: undefined behaviour (a null pointer, an access out of a buffer) or an illegal argument reported by BLAS.  A pointer
    to a node of a hierarchical matrix is the path from the root of the matrix to the node; the recursive functions have a fuel. *)

From Coq Require Import List Arith ZArith Bool.
From Verif Require Import ClusterModel IOModel IOSpec BlockModel Algebra BlasModel HMatModel Field DenseModel DistModel ArithModel.
Import ListNotations.

Section HFact.
  Variable F : Fld.
  Notation K := (fk F).
  Notation C := (car K).
  Notation mat := (mat K).
  Notation lrm := (lrm K).
  Notation hmat := (rtree (hinfo K)).
  Notation hv := rt_val.
  Variable recompress : lrm -> lrm.
  Variable svd_factors : mat -> lrm.
  Variable parts : ctree -> list ctree.

  (** The traversal of the clusters: "Forward" (begin to end) or "Backward" (rbegin to rend). *)
  Definition in_order (forward : bool) (l : list ctree) : list ctree := if forward then l else rev l.
  (** The test on the offsets in the loops: forward, m is before p; backward, m is after p. *)
  Definition before (forward : bool) (m p : ctree) : bool := if forward then c_off m <? c_off p else c_off p <? c_off m.

  (** ** A dense right-hand side, triangular_hmatrix_matrix_solve.hpp *)
  (** Bt.assign(nb_rows, n, data + nb_rows * off, false): a view on n columns, read and written back. *)
  Definition columns (B : mat) (off n : nat) : option mat := copy_block K B 0 off (mr B) n (zeros K (mr B) n) 0 0.
  Definition set_columns (B : mat) (off : nat) (X : mat) : option mat := copy_block K X 0 0 (mr X) (mc X) B 0 off.

  (** internal_triangular_hmatrix_matrix_solve_row_major, lines 18-112, with side 'L' (the only value with which it is called);
      Bt is the transpose of the right-hand side. *)
  Fixpoint row_solve (fuel : nat) (u : uplo) (t : trans) (d : diagc) (alpha : C) (A : hmat) (Bt : mat) : option mat :=
    match fuel with
    | 0 => None
    | S f =>
        do B1 <- (if ceqb K alpha (c1 K) then Some Bt else mat_scale K alpha Bt);
        match rt_children A with
        | [] =>
            match h_data (hv A) with
            | DDense D =>
                do X <- triangular_matrix_matrix_solve F SdL u t d (c1 K) D (transpose K B1);
                Some (transpose_into K X B1)
            | _ => None
            end
        | _ :: _ =>
            let nc := above (h_t (hv A)) || above (h_s (hv A)) in
            let out := out_of K t A in
            let inn := mid_of K t A in
            let fw := op_lower t u in
            fold_o (fun o B =>
              fold_o (fun i B =>
                let A_child := if is_N t then sub K A o i else sub K A i o in
                if ceq o i then
                  do Ac <- A_child;
                  do b <- columns B (c_off o - c_off out) (c_size o);
                  do b' <- row_solve f u t d (c1 K) Ac b;
                  set_columns B (c_off o - c_off out) b'
                else if before fw i o then
                  do Ac <- A_child;
                  do x <- columns B (c_off i - c_off inn) (c_size i);
                  do b <- columns B (c_off o - c_off out) (c_size o);
                  do y <- add_hmatrix_matrix_product_row_major K t (copp K (c1 K)) Ac (md x) (c1 K) (md b) (mr x);
                  set_columns B (c_off o - c_off out) (with_data K b y)
                else Some B) (in_order fw (kids parts nc inn)) B) (in_order fw (kids parts nc out)) B1
        end
    end.

  (** internal_triangular_hmatrix_matrix_solve, lines 114-131. *)
  Definition matrix_solve (fuel : nat) (s : side) (u : uplo) (t : trans) (d : diagc) (alpha : C) (A : hmat) (B : mat) : option mat :=
    match s with
    | SdL => do X <- row_solve fuel u t d alpha A (transpose K B); Some (transpose_into K X B)
    | SdR =>
        do B1 <- conj_if K (is_C t) B;
        do X <- row_solve fuel u (if is_N t then TrT else TrN) d (if is_C t then cconj K alpha else alpha) A B1;
        conj_if K (is_C t) (with_data K B (md X))
    end.

  (** internal_triangular_hmatrix_lrmat_solve, triangular_hmatrix_lrmat_solve.hpp 10-20. *)
  Definition lrmat_solve (fuel : nat) (s : side) (u : uplo) (t : trans) (d : diagc) (alpha : C) (A : hmat) (L : lrm) : option lrm :=
    do L1 <- (if ceqb K alpha (c1 K) then Some L else lr_scale K alpha L);
    match s with
    | SdL => do U <- matrix_solve fuel SdL u t d (c1 K) A (lU L1); Some (mkLrm U (lV L1))
    | SdR => do V <- matrix_solve fuel SdR u t d (c1 K) A (lV L1); Some (mkLrm (lU L1) V)
    end.

  (** ** A hierarchical right-hand side, triangular_hmatrix_hmatrix_solve.hpp *)
  (** Modification of the node found by get_sub_hmatrix. *)
  Definition on_sub (H : hmat) (t s : ctree) (f : hmat -> option hmat) : option hmat :=
    do p <- sub_path K H t s; do X <- node_at p H; do X' <- f X; replace_at p X' H.
  (** set_dense_data, hmatrix.hpp 234-238: the children are deleted. *)
  Definition set_dense (H : hmat) (D : mat) : hmat := RNode (set_data K (hv H) (DDense D)) [].

  (** internal_triangular_hmatrix_hmatrix_solve, lines 16-196.  The four branches of the case of two hierarchical matrices are
      the same loops: with side 'L' (lines 77-131) p, the index of the outer loop, is the cluster of the rows of B and q the
      cluster of its columns; with side 'R' (lines 132-182) p is the cluster of the columns and q that of the rows. *)
  Fixpoint hh_solve (fuel : nat) (s : side) (u : uplo) (t : trans) (d : diagc) (alpha : C) (A B : hmat) : option hmat :=
    match fuel with
    | 0 => None
    | S f =>
        do B1 <- (if ceqb K alpha (c1 K) then Some B else h_scale K alpha B);
        match h_data (hv A), h_data (hv B1) with
        | DNone, DNone =>
            let nc := not_consistent K A B1 in
            let fw := match s with SdL => op_lower t u | SdR => negb (op_lower t u) end in
            let ps := in_order fw (kids parts nc (match s with SdL => out_of K t A | SdR => mid_of K t A end)) in
            let ms := in_order fw (kids parts nc (match s with SdL => mid_of K t A | SdR => out_of K t A end)) in
            let qs := in_order fw (kids parts nc (match s with SdL => h_s (hv B1) | SdR => h_t (hv B1) end)) in
            let in_B := fun (p q : ctree) => match s with SdL => (p, q) | SdR => (q, p) end in
            let A_child := fun (p m : ctree) => match s, is_N t with
                                                | SdL, true | SdR, false => sub K A p m
                                                | _, _ => sub K A m p
                                                end in
            fold_o (fun p B =>
              fold_o (fun q B =>
                fold_o (fun m B =>
                  if ceq p m then
                    do Ac <- A_child p m;
                    on_sub B (fst (in_B p q)) (snd (in_B p q)) (hh_solve f s u t d (c1 K) Ac)
                  else if before fw m p then
                    do Ac <- A_child p m;
                    do Bc <- sub K B (fst (in_B m q)) (snd (in_B m q));
                    on_sub B (fst (in_B p q)) (snd (in_B p q)) (fun X =>
                      match s with
                      | SdL => hh_h K recompress svd_factors parts f t TrN (copp K (c1 K)) Ac Bc (c1 K) X
                      | SdR => hh_h K recompress svd_factors parts f TrN t (copp K (c1 K)) Bc Ac (c1 K) X
                      end)
                  else Some B) ms B) qs B) ps B1
        | DDense D, DDense X =>
            do X' <- triangular_matrix_matrix_solve F s u t d (c1 K) D X; Some (with_hdata K B1 (DDense X'))
        | DDense D, DLow L =>
            match s with
            | SdL => do U <- triangular_matrix_matrix_solve F SdL u t d (c1 K) D (lU L); Some (with_hdata K B1 (DLow (mkLrm U (lV L))))
            | SdR => do V <- triangular_matrix_matrix_solve F SdR u t d (c1 K) D (lV L); Some (with_hdata K B1 (DLow (mkLrm (lU L) V)))
            end
        | DDense D, DNone =>
            do b <- copy_to_dense K B1 (repeat (c0 K) (h_rows K B1 * h_cols K B1));
            do X' <- triangular_matrix_matrix_solve F s u t d (c1 K) D (mkMat (h_rows K B1) (h_cols K B1) b);
            Some (set_dense B1 X')
        | DLow _, _ => Some B1  (* ERROR logged, line 186 *)
        | DNone, DLow L => do L' <- lrmat_solve f s u t d (c1 K) A L; Some (with_hdata K B1 (DLow L'))
        | DNone, DDense X => do X' <- matrix_solve f s u t d (c1 K) A X; Some (with_hdata K B1 (DDense X'))
        end
    end.

  (** ** LU, factorization.hpp *)
  Variable piv : (nat -> C) -> nat -> nat -> nat.
  (** lu_factorization, lines 18-75. *)
  Fixpoint lu (fuel : nat) (H : hmat) : option hmat :=
    match fuel with
    | 0 => None
    | S f =>
        match h_data (hv H) with
        | DDense D => do D' <- lu_factorization F piv D; Some (with_hdata K H (DDense D'))
        | DLow _ => Some H  (* ERROR logged, line 73 *)
        | DNone =>
            let cl := kids parts (above (h_t (hv H)) || above (h_s (hv H))) (h_t (hv H)) in
            fold_o (fun k H =>
              do H1 <- on_sub H k k (lu f);
              do H2 <- fold_o (fun o H =>
                if c_off k <? c_off o then
                  do P <- sub K H k k;
                  do H' <- on_sub H k o (hh_solve f SdL UpL TrN DgU (c1 K) P);
                  on_sub H' o k (hh_solve f SdR UpU TrN DgN (c1 K) P)
                else Some H) cl H1;
              fold_o (fun oi H =>
                if (c_off k <? c_off (fst oi)) && (c_off k <? c_off (snd oi)) then
                  do U <- sub K H k (snd oi);
                  do L <- sub K H (fst oi) k;
                  on_sub H (fst oi) (snd oi) (hh_h K recompress svd_factors parts f TrN TrN (copp K (c1 K)) L U (c1 K))
                else Some H) (pairs_of cl cl) H2) cl H
        end
    end.
  (** internal_lu_solve, lines 77-88. *)
  Definition internal_lu_solve (fuel : nat) (t : trans) (A : hmat) (X : mat) : option mat :=
    if is_N t then
      do X1 <- matrix_solve fuel SdL UpL TrN DgU (c1 K) A X;
      matrix_solve fuel SdL UpU TrN DgN (c1 K) A X1
    else
      do X1 <- matrix_solve fuel SdL UpU t DgN (c1 K) A X;
      matrix_solve fuel SdL UpL t DgU (c1 K) A X1.

  (** ** Cholesky *)
  Variable ppos : C -> bool.
  Variable psqrt : C -> C.
  (** is_complex<CoefficientPrecision>() ? 'C' : 'T'. *)
  Variable star : trans.
  (** A loop, the body of which also reports if the factorisations of LAPACK have all succeeded (info = 0; the code does not look
      at it). *)
  Fixpoint fold_b {A B : Type} (f : A -> B -> option (B * bool)) (l : list A) (b : B) : option (B * bool) :=
    match l with
    | [] => Some (b, true)
    | a :: l' =>
        match f a b with
        | Some (b', ok) => match fold_b f l' b' with Some (b'', ok') => Some (b'', ok && ok') | None => None end
        | None => None
        end
    end.
  (** cholesky_factorization, lines 90-159. *)
  Fixpoint cholesky (fuel : nat) (u : uplo) (H : hmat) : option (hmat * bool) :=
    match fuel with
    | 0 => None
    | S f =>
        match h_data (hv H) with
        | DDense D =>
            match cholesky_factorization F ppos psqrt u D with
            | Some (D', ok) => Some (with_hdata K H (DDense D'), ok)
            | None => None
            end
        | DLow _ => Some (H, true)  (* ERROR logged, line 157 *)
        | DNone =>
            let cl := kids parts (above (h_t (hv H)) || above (h_s (hv H))) (h_t (hv H)) in
            fold_b (fun k H =>
              do p <- sub_path K H k k;
              do P <- node_at p H;
              match cholesky f u P with
              | None => None
              | Some (P', ok) =>
                  do H1 <- replace_at p P' H;
                  do H2 <- fold_o (fun o H =>
                    if c_off k <? c_off o then
                      do P <- sub K H k k;
                      if is_L u then on_sub H o k (hh_solve f SdR u star DgN (c1 K) P)
                      else on_sub H k o (hh_solve f SdL u star DgN (c1 K) P)
                    else Some H) cl H1;
                  do H3 <- fold_o (fun oi H =>
                    if (c_off k <? c_off (fst oi)) && (c_off k <? c_off (snd oi)) &&
                       (if is_L u then c_off (snd oi) <=? c_off (fst oi) else c_off (fst oi) <=? c_off (snd oi)) then
                      if is_L u then
                        do L <- sub K H (fst oi) k;
                        on_sub H (fst oi) (snd oi) (hh_h K recompress svd_factors parts f TrN star (copp K (c1 K)) L L (c1 K))
                      else
                        do U <- sub K H k (snd oi);
                        on_sub H (fst oi) (snd oi) (hh_h K recompress svd_factors parts f star TrN (copp K (c1 K)) U U (c1 K))
                    else Some H) (pairs_of cl cl) H2;
                  Some (H3, ok)
              end) cl H
        end
    end.
  (** internal_cholesky_solve, lines 161-170. *)
  Definition internal_cholesky_solve (fuel : nat) (u : uplo) (A : hmat) (X : mat) : option mat :=
    if is_L u then
      do X1 <- matrix_solve fuel SdL UpL TrN DgN (c1 K) A X;
      matrix_solve fuel SdL UpL star DgN (c1 K) A X1
    else
      do X1 <- matrix_solve fuel SdL UpU star DgN (c1 K) A X;
      matrix_solve fuel SdL UpU TrN DgN (c1 K) A X1.

  (** ** Renumbering *)
  Variable perm : list nat.
  (** The loops of lu_solve (lines 177-179, 184-186) and cholesky_solve (lines 195-197, 202-204): column i of the right-hand side
      starts at the position i * get_size() of the cluster. *)
  Definition per_column (ren : nat -> nat -> list nat -> list C -> list C -> option (list C)) (c : ctree) (inp out : mat) : option mat :=
    do d <- fold_o (fun i d => write_at K d (c_size c * i) 0 (fun w => do x <- ptr K (md inp) (c_size c * i); ren (c_off c) (c_size c) perm x w))
              (seq 0 (mc inp)) (md out);
    Some (with_data K out d).
  (** lu_solve, lines 172-188; cholesky_solve, lines 190-206. *)
  Definition renumbered (solve : mat -> option mat) (A : hmat) (X : mat) : option mat :=
    do P <- per_column user_to_cluster (h_s (hv A)) X (zeros K (mr X) (mc X));
    do P' <- solve P;
    per_column cluster_to_user (h_t (hv A)) P' X.
  Definition lu_solve (fuel : nat) (t : trans) (A : hmat) (X : mat) : option mat := renumbered (internal_lu_solve fuel t A) A X.
  Definition cholesky_solve (fuel : nat) (u : uplo) (A : hmat) (X : mat) : option mat := renumbered (internal_cholesky_solve fuel u A) A X.
End HFact.
