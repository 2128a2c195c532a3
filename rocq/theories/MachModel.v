(** * The compressors and the cluster counters with the machine integers of the code.

    The other models use mathematical integers.  Here the products of sizes, ranks and counters, of type [int] in the code, are computed in 32 bits:
    with [iadd], [imul] an overflow is undefined behaviour ([None]), which is what the language says; with [wrap] it wraps around, which is what compilers usually do.
    Sources: hmatrix/lrmat/fullACA.hpp 46-47, 64, partialACA.hpp 91, sympartialACA.hpp 108, SVD.hpp 23-24, 38; clustering/tree_builder/recursive_build.hpp 143-146;
    matrix/matrix.hpp 29-32.  No proofs in this file. *)

From Coq Require Import List Arith ZArith Bool.
From Verif Require Import Algebra BlasModel HMatModel Field DistModel CompModel ClusterModel.
Import ListNotations.

Definition int_ok (z : Z) : bool := ((- 2 ^ 31 <=? z) && (z <? 2 ^ 31))%Z.
Definition iadd (a b : Z) : option Z := if int_ok (a + b) then Some (a + b)%Z else None.
Definition imul (a b : Z) : option Z := if int_ok (a * b) then Some (a * b)%Z else None.
Definition wrap (z : Z) : Z := ((z + 2 ^ 31) mod 2 ^ 32 - 2 ^ 31)%Z.

(** q * (M + N) > M * N: fullACA.hpp 64, partialACA.hpp 91, sympartialACA.hpp 108, SVD.hpp 38, lrmat/linalg/add_lrmat_matrix_product.hpp 57. *)
Definition cost_test (q M N : nat) : option bool :=
  do s <- iadd (Z.of_nat M) (Z.of_nat N); do a <- imul (Z.of_nat q) s; do b <- imul (Z.of_nat M) (Z.of_nat N); Some (b <? a)%Z.
Definition cost_test_wrap (q M N : nat) : option bool :=
  Some (wrap (Z.of_nat M * Z.of_nat N) <? wrap (Z.of_nat q * wrap (Z.of_nat M + Z.of_nat N)))%Z.
(** Matrix(nbr, nbc), matrix.hpp 29-32: the size of the allocation, nbr * nbc. *)
Definition allocate (r c : nat) : option nat := do z <- imul (Z.of_nat r) (Z.of_nat c); Some (Z.to_nat z).

Section Mach.
  Variable X : Num.
  Notation F := (nfd X).
  Notation K := (fk F).
  Notation C := (car K).
  Notation abs := (nabs X).
  Notation lt := (nltb X).
  Notation "x *! y" := (cmul K x y) (at level 40, left associativity).
  Notation "x +! y" := (cadd K x y) (at level 50, left associativity).
  Notation "x -! y" := (csub K x y) (at level 50, left associativity).
  (** How q * (M + N) > M * N is computed: [cost_test] or [cost_test_wrap]. *)
  Variable test : nat -> nat -> nat -> option bool.

  (** fullACA.hpp 61-83: CompModel.full_loop with the machine test. *)
  Fixpoint full_loop_m (over : C -> C -> bool) (tol : C) (fuel : nat) (req : Z) (n0 : C) (q : nat) (m : mat K) (uu vv : list (list C)) : option (aca X) :=
    match fuel with
    | O => None
    | S fuel' =>
        let M := mr m in let N := mc m in
        if ((0 <? req)%Z && (Z.of_nat q <? Z.min req (Z.min (Z.of_nat M) (Z.of_nat N)))%Z)
           || ((req <? 0)%Z && (over (norm_frob2 X m) n0 || (q =? 0)))
        then
          do t <- test (S q) M N;
          if t : bool then Some (mkAca X (-1) uu vv)
          else
            match argmax X m with
            | None => None
            | Some (i, j) =>
                let pivot := me m i j in
                if lt (abs pivot) tol then Some (mkAca X (Z.of_nat q) uu vv)
                else
                  let u := mk M (fun a => me m a j) in
                  let v := mk N (fun b => fdiv F (me m i b) pivot) in
                  full_loop_m over tol fuel' req n0 (S q) (of_fun K M N (fun a b => me m a b -! (get u a *! get v b))) (uu ++ [u]) (vv ++ [v])
            end
        else Some (mkAca X (Z.of_nat q) uu vv)
    end.
  (** fullACA.hpp 45-95; the block is assembled in Matrix mat(M, N). *)
  Definition full_aca_m (over : C -> C -> bool) (tol : C) (M N : nat) (A : nat -> nat -> C) (rank : Z) : option (Z * lrm K) :=
    do _ <- allocate M N;
    let m := of_fun K M N A in
    match full_loop_m over tol (M * N + 2) rank (norm_frob2 X m) 0 m [] [] with
    | Some a => Some (a_rank X a, fill_factors X M N (a_rank X a) (a_uu X a) (a_vv X a))
    | None => None
    end.

  Section Partial.
    Variable over : C -> C -> bool.
    Variable tol : C.
    Variable swap : bool.
    Variables (n1 n2 : nat) (row col : nat -> list C).
    (** partialACA.hpp 85-176, sympartialACA.hpp 103-196: CompModel.partial_loop with the machine test.  No matrix of the size of the block is allocated. *)
    Fixpoint partial_loop_m (fuel : nat) (req : Z) (I J q : nat) (uu vv : list (list C)) (v1 v2 : list bool) (aux frob : C) : option (aca X) :=
      match fuel with
      | O => None
      | S fuel' =>
          if ((0 <? req)%Z && (Z.of_nat q <? Z.min req (Z.min (Z.of_nat n1) (Z.of_nat n2)))%Z)
             || ((req <? 0)%Z && ((q =? 0) || over aux frob))
          then
            do t <- test (S q) n1 n2;
            if t : bool then Some (mkAca X (-1) uu vv)
            else
              do r <- subtract X n2 I uu vv (row I);
              let J' := search X r v2 n2 J in
              if length r <=? J' then None
              else
                let v1' := set_true I v1 in
                if lt tol (abs (get r J')) then
                  do w <- subtract X n1 J' vv uu (col J');
                  let c := map (fun x => x *! fdiv F (c1 K) (get r J')) w in
                  let I' := search X c v1' n1 I in
                  let v2' := set_true J' v2 in
                  let aux' := if (req <? 0)%Z then cross_norm2 X n1 n2 c r else aux in
                  let frob' := if (req <? 0)%Z then frob +! (aux' +! two X (cre K (cross_terms X swap n1 n2 uu vv c r))) else frob in
                  partial_loop_m fuel' req I' J' (S q) (uu ++ [c]) (vv ++ [r]) v1' v2' aux' frob'
                else Some (mkAca X (if q =? 0 then -1 else Z.of_nat q) uu vv)
          else Some (mkAca X (Z.of_nat q) uu vv)
      end.
    Definition partial_start_m (req : Z) : option (aca X) :=
      partial_loop_m (n1 * n2 + 2) req 0 0 0 [] [] (repeat false n1) (repeat false n2) (c0 K) (c0 K).
  End Partial.
  (** partialACA.hpp 49-189. *)
  Definition partial_aca_m (over : C -> C -> bool) (tol : C) (M N : nat) (A : nat -> nat -> C) (rank : Z) : option (Z * lrm K) :=
    match partial_start_m over tol false M N (fun i => mk N (fun j => A i j)) (fun j => mk M (fun i => A i j)) rank with
    | Some a => Some (a_rank X a, fill_factors X M N (a_rank X a) (a_uu X a) (a_vv X a))
    | None => None
    end.
  (** sympartialACA.hpp 49-220. *)
  Definition sym_partial_aca_m (over : C -> C -> bool) (tol : C) (below : bool) (M N : nat) (A : nat -> nat -> C) (rank : Z) : option (Z * lrm K) :=
    let rows := fun i => mk N (fun j => A i j) in
    let cols := fun j => mk M (fun i => A i j) in
    if below then
      match partial_start_m over tol true M N rows cols rank with
      | Some a => Some (a_rank X a, fill_factors X M N (a_rank X a) (a_uu X a) (a_vv X a))
      | None => None
      end
    else
      match partial_start_m over tol true N M cols rows rank with
      | Some a => Some (a_rank X a, fill_factors X M N (a_rank X a) (a_vv X a) (a_uu X a))
      | None => None
      end.
  (** SVD.hpp 21-59: Matrix mat(M, N), u(M, M), vt(N, N), and the machine test. *)
  Definition svd_generator_m (small : C -> C -> bool) (M N : nat) (d : svd3 X) (rank : Z) : option (lrm K) :=
    do _ <- allocate M N; do _ <- allocate M M; do _ <- allocate N N;
    match svd_truncation X small (sv_s X d) with
    | None => None
    | Some tr =>
        do r <- (if (rank =? -1)%Z then do t <- test tr M N; Some (if t : bool then (-1)%Z else Z.of_nat tr)
                 else Some (Z.min rank (Z.min (Z.of_nat M) (Z.of_nat N))));
        Some (if (0 <? r)%Z then
                let q := Z.to_nat r in
                mkLrm (of_fun K M q (fun i j => me (sv_u X d) i j *! get (sv_s X d) j)) (of_fun K q N (fun i j => me (sv_vt X d) i j))
              else empty_lrm X)
    end.
End Mach.

(** counter_of_child, rank_of_child: recursive_build.hpp 142-148, for the p-th child of [c]; both products are evaluated on the level of the partition. *)
Definition child_counter (P : bparams) (c : cinfo) (p : nat) : option Z :=
  do a <- imul (Z.of_nat (ci_counter c)) (Z.of_nat (current_nc P c)); do b <- iadd a (Z.of_nat p);
  if on_level P c then do r <- imul (Z.of_nat (ci_counter c)) (Z.of_nat (level_children P)); iadd r (Z.of_nat p) else Some b.
