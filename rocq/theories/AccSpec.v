(** * Specification vocabulary for the accuracy of a hierarchical matrix. *)

From Coq Require Import List Arith ZArith Bool Reals.
From Verif Require Import ClusterModel ClusterSpec IOModel BlockModel BlockSpec Algebra BlasModel HMatModel HMatSpec HMatBuild RealNum CompReal CompSpec.
Import ListNotations.

(** [md] is a modulus: std::abs on a real or complex type (C67_modulus_real, C67_modulus_complex). *)
Record modulus (K : Coef) (md : car K -> R) : Prop := {
  md_0 : md (c0 K) = 0%R;
  md_pos : forall x, (0 <= md x)%R;
  md_mul : forall x y, md (cmul K x y) = (md x * md y)%R;
  md_add : forall x y, (md (cadd K x y) <= md x + md y)%R;
  md_conj : forall x, md (cconj K x) = md x
}.

Section S.
  Variable K : Coef.
  Variable md : car K -> R.
  Notation C := (car K).
  (** Frobenius norm of an M x N matrix, Euclidean norm of a vector of n coefficients. *)
  Definition fnorm (M N : nat) (f : nat -> nat -> C) : R := sqrt (rsum M (fun i => rsum N (fun j => md (f i j) * md (f i j))%R)).
  Definition vnorm (n : nat) (x : nat -> C) : R := sqrt (rsum n (fun i => md (x i) * md (x i))%R).
  (** The block of [f] of the rows of [t] and the columns of [s]. *)
  Definition block_at (f : nat -> nat -> C) (t s : ctree) (i j : nat) : C := f (c_off t + i) (c_off s + j).
  (** Each compressed block has a relative error [eps] in the Frobenius norm, or an error nowhere above [tol]. *)
  Definition accurate (eps tol : R) (gen : nat -> nat -> C) (compress : ctree -> ctree -> lrm K) : Prop :=
    forall t s, 1 <= c_size t -> 1 <= c_size s -> mr (lU (compress t s)) = c_size t -> mc (lV (compress t s)) = c_size s ->
      (fnorm (c_size t) (c_size s) (error_of (compress t s) (block_at gen t s)) <= eps * fnorm (c_size t) (c_size s) (block_at gen t s))%R \/
      forall i j, i < c_size t -> j < c_size s -> (md (error_of (compress t s) (block_at gen t s) i j) <= tol)%R.
  (** Bound on the error of an M x N matrix [f]. *)
  Definition allowed (eps tol : R) (M N : nat) (f : nat -> nat -> C) : R := (eps * fnorm M N f + tol * sqrt (INR (M * N)))%R.
End S.
Arguments fnorm {K} md M N f.
Arguments vnorm {K} md n x.
Arguments block_at {K} f t s i j.
Arguments accurate {K} md eps tol gen compress.
Arguments allowed {K} md eps tol M N f.

(** What HMatrixTreeBuilder is given: an unsymmetric matrix, or a symmetric (Hermitian) one, the whole of it or the rows of one part. *)
Inductive build_inputs {K : Coef} (sy : symc) (B : bbuild) (gen : nat -> nat -> car K) (T S : ctree) : Prop :=
| in_unsymmetric : sy = SyN -> bb_uplo B = UpN -> partitioned T (bb_tparts B) -> partitioned S (bb_sparts B) -> nonempty T -> nonempty S ->
    part_valid B T -> build_inputs sy B gen T S
| in_symmetric : forall R, (sy = SyS \/ sy = SyH) -> (forall i j, gen j i = flip sy (gen i j)) -> bb_uplo B <> UpN -> S = T ->
    partitioned T (bb_tparts B) -> bb_sparts B = bb_tparts B -> nonempty T -> bb_cons B = true ->
    ((bb_tpart B = None /\ bb_qpart B = None /\ R = T) \/
     (exists q, bb_tpart B = Some q /\ bb_qpart B = Some q /\ nth_error (bb_tparts B) q = Some R /\
        (R = T \/ ((c_rank T < 0)%Z /\ contains T R = true)))) -> build_inputs sy B gen T S.
