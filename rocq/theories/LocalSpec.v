(** * Specification vocabulary for the local solvers. *)

From Coq Require Import List Arith.
From Verif Require Import ClusterModel ClusterSpec IOModel BlockModel Algebra BlasModel HMatModel HMatSpec Field DenseModel DenseSpec ArithSpec HFactSpec.
Import ListNotations.

Section S.
  Variable K : Coef.
  Notation C := (car K).

  (** The columns of length n stored in b one after the other: entry i of column j. *)
  Definition entry (n : nat) (b : list C) (i j : nat) : C := nth (i + j * n) b (c0 K).
  (** x is x0 in which the first mu columns of length n have been replaced by the solutions of A y = (columns of b). *)
  Definition solved (n mu : nat) (A : nat -> nat -> C) (b x0 x : list C) : Prop :=
    length x = length x0 /\
    (forall i j, i < n -> j < mu -> sum n (fun k => cmul K (A i k) (entry n x k j)) = entry n b i j) /\
    (forall k, n * mu <= k -> nth k x (c0 K) = nth k x0 (c0 K)).
  (** The matrix [[A, B], [C, D]], A of size n x n. *)
  Definition two_by_two (n : nat) (A B Cm D : nat -> nat -> C) (i j : nat) : C :=
    if i <? n then (if j <? n then A i j else B i (j - n)) else (if j <? n then Cm (i - n) j else D (i - n) (j - n)).
End S.
Arguments entry {K} n b i j.
Arguments solved {K} n mu A b x0 x.
Arguments two_by_two {K} n A B Cm D i j.

(** The matrices (entries M, numbering of the clusters) that the local solvers can factor: non-symmetric with non-singular leading
    blocks, or the stored triangle of a hermitian positive definite matrix. *)
Definition can_be_factored {F : Fld} (parts : ctree -> list ctree) (ppos : car (fk F) -> bool) (M : nat -> nat -> car (fk F)) (A : rtree (hinfo (fk F))) : Prop :=
  let c := h_t (rt_val A) in let u := h_uplo (rt_val A) in
  match h_sym (rt_val A) with
  | SyN => hrep parts M A /\ h_s (rt_val A) = c /\ factorable M (c_off c) A
  | SyS | SyH => u <> UpN /\ hsym parts u M A /\ two_way c /\ hermitian (F := F) (c_size c) (block c M) /\ posdef ppos (c_size c) (block c M)
  | Sy0 => False
  end.
