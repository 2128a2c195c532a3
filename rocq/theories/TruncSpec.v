(** * Specification vocabulary for the accuracy of truncated sums and products. *)

From Coq Require Import List Arith ZArith Bool Reals.
From Verif Require Import ClusterModel IOModel Algebra BlasModel HMatModel HMatSpec RealNum CompReal CompSpec AccSpec.
Import ListNotations.

Section S.
  Variable K : Coef.
  Variable md : car K -> R.
  Notation C := (car K).
  (** A low-rank matrix of rank at least 1, of size r x c, at a distance at most [e] (Frobenius norm) of the matrix [f]. *)
  Definition close (e : R) (r c : nat) (f : nat -> nat -> C) (L : lrm K) : Prop :=
    wf_lrm L r c /\ 1 <= lrank L /\ (fnorm md r c (error_of L f) <= e)%R.
  (** The contract of recompression (C63): relative error eps; a rank between 1 and the given one. *)
  Definition truncates (eps : R) (recompress : lrm K -> lrm K) : Prop :=
    forall L r c, 1 <= r -> 1 <= c -> wf_lrm L r c -> 1 <= lrank L ->
      close (eps * fnorm md r c (lr_entry L)) r c (lr_entry L) (recompress L) /\ lrank (recompress L) <= lrank L.
  (** The contract of the truncated SVD of a dense matrix (C63). *)
  Definition svd_truncates (eps : R) (svd_factors : mat K -> lrm K) : Prop :=
    forall A r c, 1 <= r -> 1 <= c -> wf_mat A r c -> close (eps * fnorm md r c (me A)) r c (me A) (svd_factors A).
  (** alpha op(A) op(B) and beta C + alpha op(A) op(B), op(A) and op(B) having the entries f (r x k) and g (k x c). *)
  Definition product_of (alpha : C) (k : nat) (f g : nat -> nat -> C) (i j : nat) : C :=
    cmul K alpha (sum k (fun l => cmul K (f i l) (g l j))).
  Definition updated (alpha beta : C) (k : nat) (f g : nat -> nat -> C) (L : lrm K) (i j : nat) : C :=
    cadd K (cmul K beta (lr_entry L i j)) (product_of alpha k f g i j).
End S.
Arguments close {K} md e r c f L.
Arguments truncates {K} md eps recompress.
Arguments svd_truncates {K} md eps svd_factors.
Arguments product_of {K} alpha k f g i j.
Arguments updated {K} alpha beta k f g L i j.
