(** * Specification of the local matrices of the domain decomposition solvers. *)

From Coq Require Import List Arith Bool.
From Verif Require Import Algebra BlasModel HMatModel HMatSpec.
Import ListNotations.

Section S.
  Variable K : Coef.
  Notation C := (car K).
  (** On the entries selected by [sel], the n x n matrix [M] is the restriction of the global matrix [gen] to the points [l2g], up to [P]
      (the error of the compressed blocks: [P] is the equality when they are exact). *)
  Definition restriction (P : C -> C -> Prop) (sel : nat -> nat -> Prop) (gen : nat -> nat -> C) (l2g : list nat) (M : mat K) : Prop :=
    let n := length l2g in
    wf_mat M n n /\ forall i j, i < n -> j < n -> sel i j -> P (me M i j) (gen (nth i l2g 0) (nth j l2g 0)).
  Definition everywhere (i j : nat) : Prop := True.
  Definition lower (i j : nat) : Prop := j <= i.
  (** The numbering of the subdomain begins with the points of the cluster [off, off+m), in the order of the permutation of the tree. *)
  Definition starts_with_cluster (perm : nat -> nat) (off m : nat) (l2g : list nat) : Prop := firstn m l2g = map perm (seq off m).
End S.
Arguments restriction {K} P sel gen l2g M.
