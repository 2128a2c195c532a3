(** * The products of a real hierarchical matrix and a vector, with rounded operations.

    HMatModel.v computes exactly.  Here the same functions call a BLAS given as a record (what a BLAS returns on floating point numbers is a real number), and the
    scaling of the output is made by a rounded product.  Real coefficients: the Hermitian branches are those of the real overloads.
    Source: matrix/linalg/add_matrix_vector_product.hpp 10-29, hmatrix/lrmat/linalg/add_lrmat_vector_product.hpp 9-24,
    hmatrix/linalg/add_hmatrix_vector_product.hpp 16-32, 56-97, 100-159.  No proofs in this file. *)

From Coq Require Import List Arith Bool Reals.
From Verif Require Import ClusterModel IOModel BlockModel Algebra BlasModel HMatModel RealNum.
Import ListNotations.

Notation vec := (list (car Rc)).

(** gemv trans m n alpha A lda x beta y, symv uplo n alpha A lda x beta y, axpy n alpha x y (increments 1), and the product of two numbers. *)
Record blas : Type := mkBlas {
  b_gemv : trans -> nat -> nat -> R -> vec -> nat -> vec -> R -> vec -> option vec;
  b_symv : uplo -> nat -> R -> vec -> nat -> vec -> R -> vec -> option vec;
  b_axpy : nat -> R -> vec -> vec -> option vec;
  b_mul : R -> R -> R
}.

(** Exact arithmetic: the functions of BlasModel.v. *)
Definition exact_blas : blas := mkBlas (gemv Rc) (symv Rc) (axpy Rc) Rmult.

Section Rounded.
  Variable B : blas.

  (** add_matrix_vector_product.hpp 10-17. *)
  Definition r_matvec (t : trans) (alpha : R) (A : mat Rc) (x : vec) (beta : R) (y : vec) : option vec :=
    b_gemv B t (mr A) (mc A) alpha (md A) (mr A) x beta y.
  (** add_matrix_vector_product.hpp 19-29. *)
  Definition r_symvec (u : uplo) (alpha : R) (A : mat Rc) (x : vec) (beta : R) (y : vec) : option vec :=
    if mr A =? 0 then Some y else b_symv B u (mr A) alpha (md A) (mr A) x beta y.
  (** add_lrmat_vector_product.hpp 9-24. *)
  Definition r_lowvec (t : trans) (alpha : R) (L : lrm Rc) (x : vec) (beta : R) (y : vec) : option vec :=
    if lrank L =? 0 then Some y
    else
      let a := repeat (c0 Rc) (lrank L) in
      let first := match t with TrN => lV L | _ => lU L end in
      let second := match t with TrN => lU L | _ => lV L end in
      match r_matvec t 1%R first x 0%R a with
      | Some a' => r_matvec t alpha second a' beta y
      | None => None
      end.
  (** The product with a leaf, add_hmatrix_vector_product.hpp 16-32. *)
  Definition r_leaf (t : trans) (alpha : R) (h : hinfo Rc) (x : vec) (beta : R) (y : vec) : option vec :=
    match h_data h with
    | DDense A =>
        match h_sym h with
        | SyN => r_matvec t alpha A x beta y
        | SyS => r_symvec (h_uplo h) alpha A x beta y
        | _ => Some y
        end
    | DLow L => r_lowvec t alpha L x beta y
    | DNone => None
    end.
  (** Scaling of the output, lines 77-79, 118-120. *)
  Definition r_scale (n : nat) (beta : R) (y : vec) : option vec :=
    if R_eqb beta 1%R then Some y else transform Rc n (fun c => b_mul B c beta) y.

  (** sequential_internal_add_hmatrix_vector_product, lines 56-97. *)
  Definition r_seq_vec (t : trans) (alpha : R) (A : hmat Rc) (x : vec) (beta : R) (y : vec) : option vec :=
    let r := rt_val A in
    let lin := c_off (in_cl Rc t r) in
    let lout := c_off (out_cl Rc t r) in
    let run := fun t' h x' y' => r_leaf t' alpha h x' 1%R y' in
    match hleaves Rc A with
    | None => None
    | Some (L, Y) =>
        match r_scale (c_size (out_cl Rc t r)) beta y with
        | None => None
        | Some y1 =>
            match leaves_loop Rc t lin lout 1 run L x y1 with
            | None => None
            | Some y2 =>
                if sym_is_N (h_lsym r) then Some y2
                else sym_loop Rc t (trans_sym t (h_lsym r)) lin lout 1 run Y x y2
            end
        end
    end.

  (** The critical sections in the order of the list [threads], line 157. *)
  Fixpoint r_critical (t : trans) (alpha : R) (r : hinfo Rc) (threads : list (list (hinfo Rc) * list (hinfo Rc))) (x y : vec) : option vec :=
    match threads with
    | [] => Some y
    | th :: ths =>
        match thread_vec Rc t r 1 (fun t' h x' y' => r_leaf t' 1%R h x' 1%R y') th x with
        | None => None
        | Some temp =>
            match b_axpy B (c_size (out_cl Rc t r) * 1) alpha temp y with
            | Some y' => r_critical t alpha r ths x y'
            | None => None
            end
        end
    end.
  (** openmp_internal_add_hmatrix_vector_product, lines 100-159. *)
  Definition r_omp_vec (threads : list (list (hinfo Rc) * list (hinfo Rc))) (t : trans) (alpha : R) (A : hmat Rc) (x : vec) (beta : R) (y : vec) : option vec :=
    let r := rt_val A in
    match r_scale (c_size (out_cl Rc t r)) beta y with
    | None => None
    | Some y1 => r_critical t alpha r threads x y1
    end.
End Rounded.
