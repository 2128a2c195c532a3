(** * The GenEO coarse space builder.

    Source: solvers/geneo/coarse_space_builder.hpp.  No proofs in this file.  The local matrix (lines 27-37), the selection and the copy of
    the vectors (lines 98-129, 146-179) are in SolverModel.v; here they are put together with the two calls of LAPACK and with the
    constructors that take a hierarchical matrix.

    [gv uplo n a b]: Lapack::gv, itype 1, "V" (sygv, hegv): the eigenvalues and the content of [a] after the call.
    [ggev n a b]: Lapack::ggev, "N", "V": alphar, alphai, beta and vr; alphai is empty for complex coefficients.
    [sort comp l]: std::sort.  [None]: an error of LAPACK, or undefined behaviour.  The queries of the size of the workspace (lines 86-88,
    138-140) do not change the matrices and are not modelled. *)

From Coq Require Import List Arith Bool.
From Verif Require Import ClusterModel IOModel BlockModel Algebra BlasModel HMatModel Field DistModel SolverModel.
Import ListNotations.

Section Geneo.
  Variable X : Num.
  Notation K := (fk (nfd X)).
  Notation C := (car K).
  Notation mat := (mat K).
  Notation hmat := (rtree (hinfo K)).

  Variable gv : uplo -> nat -> list C -> list C -> option (list C * list C).
  Variable ggev : nat -> list C -> list C -> option (list C * list C * list C * list C).
  Variable sort : (nat -> nat -> bool) -> list nat -> list nat.
  (** 1e-15 *)
  Variable tiny : C.

  (** build_coarse_space, lines 66-181.  [thr]: m_geneo_threshold. *)
  Definition build_coarse_space (sy : symc) (up : uplo) (nu : nat) (thr : C) (inside n : nat) (DAiD Bi : mat) : option mat :=
    let above := if nltb X (c0 K) thr then Some (fun x => nltb X thr x) else None in
    match sy with
    | SyS | SyH =>
        do r <- gv up n (md DAiD) (md Bi);
        let w := fst r in
        let val := fun k => nabs X (get w k) in
        let index := sort (fun a b => nltb X (val b) (val a)) (seq 0 n) in
        coarse_space_sym K above nu val n inside (mkMat n n (snd r)) index
    | _ =>
        do r <- ggev n (md DAiD) (md Bi);
        let '(alphar, _, beta, vr) := r in
        let inf := fun k => nltb X (nabs X (get beta k)) tiny in
        let val := fun k => nabs X (fdiv (nfd X) (get alphar k) (get beta k)) in
        let index := sort (fun a b => (inf a || nltb X (val b) (val a)) && negb (inf b)) (seq 0 n) in
        coarse_space_gen K above nu inf val n inside (mkMat n n vr) index
    end.

  (** The constructor, lines 26-37, followed by build_coarse_space: GeneoWithNu (line 41) has the threshold -1, GeneoWithThreshold (line 53)
      has nu = 0. *)
  Definition geneo (sy : symc) (up : uplo) (nu : nat) (thr : C) (inside n : nat) (Ai Bi : mat) : option mat :=
    do D <- build_daid K inside n Ai;
    build_coarse_space sy up nu thr inside n D Bi.
  Definition geneo_with_nu (inside n : nat) (Ai Bi : mat) (sy : symc) (up : uplo) (nu : nat) : option mat :=
    geneo sy up nu (copp K (c1 K)) inside n Ai Bi.
  Definition geneo_with_threshold (inside n : nat) (Ai Bi : mat) (sy : symc) (up : uplo) (thr : C) : option mat :=
    geneo sy up 0 thr inside n Ai Bi.

  (** The dense copy of a hierarchical matrix, lines 44-49 and 56-61.  [tp]: the permutation of the (square) root. *)
  Definition geneo_dense (tp : nat -> nat) (inside n : nat) (A : hmat) : option mat :=
    let nr := c_size (h_t (rt_val A)) in
    let nc := c_size (h_s (rt_val A)) in
    let z := repeat (c0 K) (nr * nc) in
    do b <- (if nr =? n then copy_to_dense_in_user_numbering K tp tp A z
             else if nr =? inside then copy_to_dense K A z else Some z);
    Some (mkMat nr nc b).
  Definition geneo_with_nu_h (tp : nat -> nat) (inside n : nat) (A : hmat) (Bi : mat) (sy : symc) (up : uplo) (nu : nat) : option mat :=
    do Ai <- geneo_dense tp inside n A; geneo_with_nu inside n Ai Bi sy up nu.
  Definition geneo_with_threshold_h (tp : nat -> nat) (inside n : nat) (A : hmat) (Bi : mat) (sy : symc) (up : uplo) (thr : C) : option mat :=
    do Ai <- geneo_dense tp inside n A; geneo_with_threshold inside n Ai Bi sy up thr.
End Geneo.
