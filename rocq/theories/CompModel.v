(** * Low-rank compression of a block.

    Source: matrix/utils/SVD_truncation.hpp, hmatrix/lrmat/SVD.hpp, fullACA.hpp, partialACA.hpp, sympartialACA.hpp,
    lrmat.hpp 24-32, argmax and normFrob of matrix/matrix.hpp.  No proofs in this file.

    A block is given by its entries [A i j], i and j local to the block (the generator shifted by the offsets of the
    clusters).  Numbers: [Num] (exact arithmetic, std::abs and < as operations).  The comparisons that involve a square
    root are parameters of the functions, documented where they are used.  Sizes and ranks are mathematical integers.
    [None]: undefined behaviour, or not enough fuel (the theorems show that the fuel given suffices). *)

From Coq Require Import List Arith ZArith Bool.
From Verif Require Import Algebra BlasModel HMatModel Field DistModel.
Import ListNotations.

Section Comp.
  Variable X : Num.
  Notation F := (nfd X).
  Notation K := (fk F).
  Notation C := (car K).
  Notation abs := (nabs X).
  Notation lt := (nltb X).
  Notation "x *! y" := (cmul K x y) (at level 40, left associativity).
  Notation "x +! y" := (cadd K x y) (at level 50, left associativity).
  Notation "x -! y" := (csub K x y) (at level 50, left associativity).

  (** The matrices U and V before they are resized, lrmat.hpp 24: Matrix(). *)
  Definition empty_lrm : lrm K := mkLrm (@mkMat K 0 0 []) (@mkMat K 0 0 []).

  (** The end of the generators, fullACA.hpp 84-95, partialACA.hpp 178-188, sympartialACA.hpp 199-210: U and V are
      resized and filled only for a positive rank; column k of U is uu[k], row k of V is vv[k]. *)
  Definition fill_factors (M N : nat) (rank : Z) (uu vv : list (list C)) : lrm K :=
    if (0 <? rank)%Z then
      let r := Z.to_nat rank in
      mkLrm (@mkMat K M r (concat (firstn r uu))) (of_fun K r N (fun k j => get (nth k vv []) j))
    else empty_lrm.

  (** ** SVD *)
  (** SVD_truncation, SVD_truncation.hpp 36-52, on the singular values.  [small e n]: the test
      std::sqrt(e) / std::sqrt(n) < epsilon.  Reads the index -1 when there is no singular value. *)
  Definition sq (x : C) : C := x *! x.
  Fixpoint trunc_loop (small : C -> C -> bool) (s : list C) (norm error : C) (j : nat) : option nat :=
    match j with
    | O => None
    | S j' =>
        let error' := error +! sq (abs (get s j')) in
        if (0 <? j') && small error' norm then trunc_loop small s norm error' j' else Some (S j')
    end.
  Definition svd_norm2 (s : list C) : C := fold_left (fun a x => a +! sq x) s (c0 K).
  Definition svd_truncation (small : C -> C -> bool) (s : list C) : option nat :=
    trunc_loop small s (svd_norm2 s) (c0 K) (length s).

  (** What gesvd("A","A") returns: u (M x M), the singular values, vt (N x N). *)
  Record svd3 : Type := mkSvd { sv_u : mat K; sv_s : list C; sv_vt : mat K }.
  (** SVD::copy_low_rank_approximation, SVD.hpp 21-59.  The argument rank is not modified. *)
  Definition svd_generator (small : C -> C -> bool) (M N : nat) (d : svd3) (rank : Z) : option (lrm K) :=
    match svd_truncation small (sv_s d) with
    | None => None
    | Some tr =>
        let r := if (rank =? -1)%Z then (if M * N <? tr * (M + N) then (-1)%Z else Z.of_nat tr)
                 else Z.min rank (Z.min (Z.of_nat M) (Z.of_nat N)) in
        Some (if (0 <? r)%Z then
                let q := Z.to_nat r in
                mkLrm (of_fun K M q (fun i j => me (sv_u d) i j *! get (sv_s d) j)) (of_fun K q N (fun i j => me (sv_vt d) i j))
              else empty_lrm)
    end.

  (** ** ACA with full pivoting *)
  (** std::max_element of the moduli, matrix.hpp 626: the first maximal element. *)
  Definition max_element (l : list C) : nat :=
    fold_left (fun b i => if lt (abs (get l b)) (abs (get l i)) then i else b) (seq 1 (length l - 1)) 0.
  (** argmax, matrix.hpp 625-628; the position past the end is dereferenced when the matrix is empty. *)
  Definition argmax (m : mat K) : option (nat * nat) :=
    if length (md m) =? 0 then None
    else let p := max_element (md m) in Some (p mod mr m, p / mr m).
  (** normFrob, matrix.hpp 715-724, before the square root. *)
  Definition norm_frob2 (m : mat K) : C :=
    fold_left (fun a jk => a +! sq (abs (me m (fst jk) (snd jk)))) (list_prod (seq 0 (mr m)) (seq 0 (mc m))) (c0 K).

  (** Outcome of the loops: the rank, uu, vv, and the residual (kept here for the statements). *)
  Record aca : Type := mkAca { a_rank : Z; a_uu : list (list C); a_vv : list (list C) }.

  Section Full.
    (** [over n N]: the test sqrt(n) / sqrt(N) > epsilon (false when N = 0: comparison with a NaN); [tol]: 1e-15. *)
    Variable over : C -> C -> bool.
    Variable tol : C.
    (** The loop of fullACA::copy_low_rank_approximation, fullACA.hpp 61-83. *)
    Fixpoint full_loop (fuel : nat) (req : Z) (n0 : C) (q : nat) (m : mat K) (uu vv : list (list C)) : option aca :=
      match fuel with
      | O => None
      | S fuel' =>
          let M := mr m in let N := mc m in
          if ((0 <? req)%Z && (Z.of_nat q <? Z.min req (Z.min (Z.of_nat M) (Z.of_nat N)))%Z)
             || ((req <? 0)%Z && (over (norm_frob2 m) n0 || (q =? 0)))
          then
            if M * N <? S q * (M + N) then Some (mkAca (-1) uu vv)
            else
              match argmax m with
              | None => None
              | Some (i, j) =>
                  let pivot := me m i j in
                  if lt (abs pivot) tol then Some (mkAca (Z.of_nat q) uu vv)
                  else
                    let u := mk M (fun a => me m a j) in
                    let v := mk N (fun b => fdiv F (me m i b) pivot) in
                    full_loop fuel' req n0 (S q) (of_fun K M N (fun a b => me m a b -! (get u a *! get v b))) (uu ++ [u]) (vv ++ [v])
              end
          else Some (mkAca (Z.of_nat q) uu vv)
      end.
    (** fullACA::copy_low_rank_approximation, fullACA.hpp 45-95: the final value of rank and the factors. *)
    Definition full_aca (M N : nat) (A : nat -> nat -> C) (rank : Z) : option (Z * lrm K) :=
      let m := of_fun K M N A in
      match full_loop (M * N + 2) rank (norm_frob2 m) 0 m [] [] with
      | Some a => Some (a_rank a, fill_factors M N (a_rank a) (a_uu a) (a_vv a))
      | None => None
      end.
  End Full.

  (** ** ACA with partial pivoting *)
  (** Blas<T>::dot, wrapper_blas.hpp 138-143: conjugates its first argument. *)
  Definition dot (n : nat) (x y : list C) : C := sum n (fun i => cconj K (get x i) *! get y i).

  Section Partial.
    (** [over a f]: the test sqrt(a / f) > epsilon; [tol]: 1e-15. *)
    Variable over : C -> C -> bool.
    Variable tol : C.
    (** [swap]: the order of the arguments of the two dot products in the error estimator. *)
    Variable swap : bool.
    (** copy_submatrix of a row, of a column. *)
    Variables (n1 n2 : nat) (row col : nat -> list C).

    (** The search of the pivot, partialACA.hpp 106-117 and 131-141: the last unvisited index of maximal modulus;
        [best] is unchanged when every index was visited. *)
    Definition search (l : list C) (visited : list bool) (n best : nat) : nat :=
      snd (fold_left (fun pb k =>
        if nth k visited false then pb
        else if lt (abs (get l k)) (fst pb) then pb
        else (abs (get l k), k)) (seq 0 n) (c0 K, best)).
    (** partialACA.hpp 101-104 and 126-129: y -= x1[k][i] * x2[k] for each cross k. *)
    Definition subtract (n i : nat) (x1 x2 : list (list C)) (y : list C) : option (list C) :=
      foldM (fun k y => axpy K n (copp K (get (nth k x1 []) i)) (nth k x2 []) y) (seq 0 (length x1)) y.
    Definition set_true (i : nat) (l : list bool) : list bool := firstn i l ++ true :: skipn (S i) l.
    (** Error estimator, partialACA.hpp 144-158, sympartialACA.hpp 166-178. *)
    Definition two (x : C) : C := x +! x.
    Definition cross_norm2 (c r : list C) : C := abs (dot n1 c c) *! abs (dot n2 r r).
    Definition cross_terms (uu vv : list (list C)) (c r : list C) : C :=
      fold_left (fun a j =>
        let u := nth j uu [] in let v := nth j vv [] in
        a +! (if swap then dot n2 r v *! dot n1 c u else dot n2 v r *! dot n1 u c)) (seq 0 (length uu)) (c0 K).

    (** The loop, partialACA.hpp 85-176, sympartialACA.hpp 103-196 (I1, I2, u1, u2 for I, J, r, c). *)
    Fixpoint partial_loop (fuel : nat) (req : Z) (I J q : nat) (uu vv : list (list C)) (v1 v2 : list bool) (aux frob : C)
      : option aca :=
      match fuel with
      | O => None
      | S fuel' =>
          if ((0 <? req)%Z && (Z.of_nat q <? Z.min req (Z.min (Z.of_nat n1) (Z.of_nat n2)))%Z)
             || ((req <? 0)%Z && ((q =? 0) || over aux frob))
          then
            if n1 * n2 <? S q * (n1 + n2) then Some (mkAca (-1) uu vv)
            else
              do r <- subtract n2 I uu vv (row I);
              let J' := search r v2 n2 J in
              if length r <=? J' then None
              else
                let v1' := set_true I v1 in
                if lt tol (abs (get r J')) then
                  do w <- subtract n1 J' vv uu (col J');
                  let c := map (fun x => x *! fdiv F (c1 K) (get r J')) w in
                  let I' := search c v1' n1 I in
                  let v2' := set_true J' v2 in
                  let aux' := if (req <? 0)%Z then cross_norm2 c r else aux in
                  let frob' := if (req <? 0)%Z then frob +! (aux' +! two (cre K (cross_terms uu vv c r))) else frob in
                  partial_loop fuel' req I' J' (S q) (uu ++ [c]) (vv ++ [r]) v1' v2' aux' frob'
                else Some (mkAca (if q =? 0 then -1 else Z.of_nat q) uu vv)
          else Some (mkAca (Z.of_nat q) uu vv)
      end.
    Definition partial_start (req : Z) : option aca :=
      partial_loop (n1 * n2 + 2) req 0 0 0 [] [] (repeat false n1) (repeat false n2) (c0 K) (c0 K).
  End Partial.

  (** partialACA::copy_low_rank_approximation, partialACA.hpp 49-189. *)
  Definition partial_aca (over : C -> C -> bool) (tol : C) (M N : nat) (A : nat -> nat -> C) (rank : Z) : option (Z * lrm K) :=
    match partial_start over tol false M N (fun i => mk N (fun j => A i j)) (fun j => mk M (fun i => A i j)) rank with
    | Some a => Some (a_rank a, fill_factors M N (a_rank a) (a_uu a) (a_vv a))
    | None => None
    end.
  (** sympartialACA::copy_low_rank_approximation, sympartialACA.hpp 49-220; [below]: t.get_offset() >= s.get_offset().
      Otherwise the roles of the rows and the columns are exchanged. *)
  Definition sym_partial_aca (over : C -> C -> bool) (tol : C) (below : bool) (M N : nat) (A : nat -> nat -> C) (rank : Z)
    : option (Z * lrm K) :=
    let rows := fun i => mk N (fun j => A i j) in
    let cols := fun j => mk M (fun i => A i j) in
    if below then
      match partial_start over tol true M N rows cols rank with
      | Some a => Some (a_rank a, fill_factors M N (a_rank a) (a_uu a) (a_vv a))
      | None => None
      end
    else
      match partial_start over tol true N M cols rows rank with
      | Some a => Some (a_rank a, fill_factors M N (a_rank a) (a_vv a) (a_uu a))
      | None => None
      end.

  (** The constructor of LowRankMatrix, lrmat.hpp 24-32. *)
  Definition low_rank_ctor (M N : nat) (rank : Z) (generator : Z -> option (lrm K)) : option (lrm K) :=
    if (rank =? 0)%Z then Some (mkLrm (@mkMat K M 0 []) (@mkMat K 0 N [])) else generator rank.
End Comp.
