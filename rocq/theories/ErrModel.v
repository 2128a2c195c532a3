(** * Norms, error measures and storage of a low-rank block.

    Source: hmatrix/lrmat/lrmat.hpp 135-142, 168-187, matrix/matrix.hpp 709-724, basic_types/vector.hpp 82-124.  Exact arithmetic;
    double is R.  [abs]: std::abs.  Frobenius_relative_error (lrmat.hpp 144-166) calls a copy_submatrix that takes clusters, which no
    generator has: it cannot be instantiated and is not modelled.  No proofs in this file. *)

From Coq Require Import List Arith Bool ZArith Reals.
From Verif Require Import ClusterModel IOModel BlockModel Algebra BlasModel HMatModel DistModel RealNum.
Import ListNotations.
Local Open Scope nat_scope.

Section E.
  Variable K : Coef.
  Variable abs : car K -> R.
  Notation C := (car K).

  (** A(i,j) of a column-major matrix, and its update; [None]: outside the buffer. *)
  Definition fetch (A : mat K) (i j : nat) : option C := nth_error (md A) (i + j * mr A).
  Fixpoint upd (l : list C) (p : nat) (x : C) : option (list C) :=
    match l, p with
    | [], _ => None
    | _ :: l', 0 => Some (x :: l')
    | a :: l', S p' => do r <- upd l' p' x; Some (a :: r)
    end.

  (** Frobenius_absolute_error, lrmat.hpp 168-187.  [gen]: the generator, in the numbering of the clusters.  [None]: an access outside
      the matrices, or copy_submatrix writes beyond aux. *)
  Definition absolute_error (t s : ctree) (L : lrm K) (gen : nat -> nat -> C) (reqrank : Z) : option R :=
    let rank := if (reqrank =? -1)%Z then lrank L else Z.to_nat reqrank in
    let nr := mr (lU L) in
    let nc := mc (lV L) in
    if c_size t * c_size s <=? nr * nc then
      let aux := md (dense_data K gen t s) ++ repeat (c0 K) (nr * nc - c_size t * c_size s) in
      do st <- fold_left (fun st jk =>
        do x <- st;
        let '(aux, err) := x in
        let j := fst jk in
        let k := snd jk in
        do aux' <- fold_left (fun ax l =>
          do aux <- ax;
          do a <- nth_error aux (j + k * nr);
          do u <- fetch (lU L) j l;
          do v <- fetch (lV L) l k;
          upd aux (j + k * nr) (csub K a (cmul K u v))) (seq 0 rank) (Some aux);
        do e <- nth_error aux' (j + k * nr);
        Some (aux', (err + abs e * abs e)%R)) (list_prod (seq 0 nr) (seq 0 nc)) (Some (aux, 0%R));
      Some (sqrt (snd st))
    else None.

  (** normFrob, matrix.hpp 715-724. *)
  Definition norm_frob (A : mat K) : option R :=
    do s <- fold_left (fun st jk => do n <- st; do a <- fetch A (fst jk) (snd jk); Some (n + abs a * abs a)%R)
      (list_prod (seq 0 (mr A)) (seq 0 (mc A))) (Some 0%R);
    Some (sqrt s).

  (** dprod, vector.hpp 82-89; conjugation is the identity for real types. *)
  Definition dprod (a b : list C) : option C :=
    if length a <=? length b then Some (fold_left (fun s i => cadd K s (cmul K (get a i) (cconj K (get b i)))) (seq 0 (length a)) (c0 K)) else None.
  (** norm2, vector.hpp 91-92. *)
  Definition norm2 (u : list C) : option R := do d <- dprod u u; Some (sqrt (abs d)).
  (** argmax, vector.hpp 104-107 (0 for an empty vector); max and min, lines 94-102: an empty vector is dereferenced. *)
  Definition vargmax (u : list C) : nat :=
    fold_left (fun b i => if Rltb (abs (get u b)) (abs (get u i)) then i else b) (seq 1 (length u - 1)) 0.
  Definition vargmin (u : list C) : nat :=
    fold_left (fun b i => if Rltb (abs (get u i)) (abs (get u b)) then i else b) (seq 1 (length u - 1)) 0.
  Definition vmax (u : list C) : option C := nth_error u (vargmax u).
  Definition vmin (u : list C) : option C := nth_error u (vargmin u).

  (** compression_ratio and space_saving, lrmat.hpp 135-142; [None]: a division by zero. *)
  Definition compression_ratio (L : lrm K) : option R :=
    let d := mc (lU L) * (mr (lU L) + mc (lV L)) in
    if d =? 0 then None else Some (INR (mr (lU L) * mc (lV L)) / INR d)%R.
  Definition space_saving (L : lrm K) : option R :=
    if (mr (lU L) =? 0) || (mc (lV L) =? 0) then None
    else Some (1 - INR (mc (lU L)) * (1 / INR (mr (lU L)) + 1 / INR (mc (lV L))))%R.
End E.
