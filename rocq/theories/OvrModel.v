(** * The local matrices of the domain decomposition solvers.

    Source: solvers/utility.hpp 71-197 (DDMSolverWithDenseLocalSolver) and 237-283 (the local hierarchical matrix of DDMSolverBuilder, the
    same code with another UPLO).  No proofs in this file.

    The generator is the function of the user numbering that copy_submatrix evaluates; a buffer is the list of the coefficients from the
    pointer to the end of the allocation; [None]: undefined behaviour.  The coarse space, the solvers and HPDDM are elsewhere. *)

From Coq Require Import List Arith Bool.
From Verif Require Import ClusterModel IOModel BlockModel Algebra BlasModel HMatModel Field DistModel.
Import ListNotations.

Section Ovr.
  Variable K : Coef.
  Notation C := (car K).
  Notation mat := (mat K).
  Notation hmat := (rtree (hinfo K)).

  (** initialize_diagonal_block_without_overlap, lines 82-86.  A Matrix is zero at first. *)
  Definition without_overlap (A : hmat) : option mat :=
    let nr := c_size (h_t (rt_val A)) in
    let nc := c_size (h_s (rt_val A)) in
    do b <- copy_to_dense K A (repeat (c0 K) (nr * nc)); Some (mkMat nr nc b).

  (** VirtualGenerator::copy_submatrix(rows, cols) into a fresh vector. *)
  Definition submatrix (gen : nat -> nat -> C) (rows cols : list nat) : list C :=
    md (of_fun K (length rows) (length cols) (fun i j => gen (nth i rows 0) (nth j cols 0))).

  (** for (j in js) std::copy_n(src + (j - j0) * n, n, dst + d0 + j * ld). *)
  Definition put_columns (js : list nat) (j0 n d0 ld : nat) (src dst : list C) : option (list C) :=
    fold_opt K (fun j d => do s <- ptr K src ((j - j0) * n); put K d s (d0 + j * ld) n) js dst.

  (** initialize_diagonal_block_adding_overlap, lines 88-127.  [l2g]: local_to_global_numbering; [sym]: the flag of line 117.  The
      iterator arithmetic of line 105 is undefined when the block is larger than the numbering. *)
  Definition adding_overlap (gen : nat -> nat -> C) (l2g : list nat) (sym : bool) (A : hmat) : option mat :=
    let n := length l2g in
    let m := c_size (h_t (rt_val A)) in
    if n <? m then None else
    do inner <- copy_to_dense K A (repeat (c0 K) (m * m));
    do b1 <- put_columns (seq 0 m) 0 m 0 n inner (repeat (c0 K) (n * n));
    let overlap_num := skipn m l2g in
    let inside_num := firstn m l2g in
    do b2 <- put_columns (seq 0 m) 0 (n - m) m n (submatrix gen overlap_num inside_num) b1;
    do b3 <- put_columns (seq 0 (n - m)) 0 (n - m) (m + m * n) n (submatrix gen overlap_num overlap_num) b2;
    do b4 <- (if sym then Some b3 else put_columns (seq m (n - m)) m m 0 n (submatrix gen inside_num overlap_num) b3);
    Some (mkMat n n b4).

  (** initialize_diagonal_block_with_overlap, lines 129-137.  [tp]: the permutation of the local cluster tree. *)
  Definition with_overlap (tp : nat -> nat) (A : hmat) : option mat :=
    let n := c_size (h_t (rt_val A)) in
    do b <- copy_to_dense_in_user_numbering K tp tp A (repeat (c0 K) (n * n)); Some (mkMat n n b).

  (** local_geometry, lines 141-149: coordinates of type V, d of them for each point. *)
  Definition local_geometry {V : Type} (d : nat) (l2g : list nat) (geo : list V) : option (list V) :=
    all_some (flat_map (fun g => map (fun k => nth_error geo (d * g + k)) (seq 0 d)) l2g).

  (** LocalGeneratorInUserNumbering, lines 158-176. *)
  Definition local_generator (gen : nat -> nat -> C) (l2g : list nat) (i j : nat) : C := gen (nth i l2g 0) (nth j l2g 0).

  (** initialize_local_hmatrix, lines 157-184: HMatrixTreeBuilder(cluster, cluster, epsilon, eta, symmetry, UPLO, -1, -1, -1), the default
      minimal depths and consistency, and InternalGeneratorWithPermutation (virtual_generator.hpp 33-50, tree_builder.hpp 153-155).
      [uplo]: 'L' or 'N' for DDMSolverWithDenseLocalSolver, the storage type of the operator for DDMSolverBuilder. *)
  Definition local_builder (adm : ctree -> ctree -> bool) (u : uplo) (parts : list ctree) : bbuild :=
    mkBbuild None u None 0 0 true adm parts parts.
  Definition local_hmatrix (gen : nat -> nat -> C) (l2g : list nat) (tp : nat -> nat) (sy : symc) (u : uplo) (adm : ctree -> ctree -> bool)
    (compress : ctree -> ctree -> lrm K) (fuel : nat) (T : ctree) (parts : list ctree) : option hmat :=
    hbuild K sy (local_builder adm u parts) (fun i j => local_generator gen l2g (tp i) (tp j)) compress fuel T T.
  (** Line 182: symmetry0 != 'N' ? 'L' : 'N'. *)
  Definition dense_solver_uplo (sy : symc) : uplo := match sy with SyN => UpN | _ => UpL end.
End Ovr.
