(** * Specification vocabulary for the rounding errors of the products of a hierarchical matrix and a vector. *)

From Coq Require Import List Arith Bool Reals.
From Verif Require Import ClusterModel ClusterSpec IOModel BlockModel BlockSpec Algebra BlasModel HMatModel HMatSpec RealNum CompReal RoundModel.
Import ListNotations.
Local Open Scope R_scope.

(** (1+u)^k - 1: the relative error of k roundings of relative error u. *)
Definition gam (u : R) (k : nat) : R := (1 + u) ^ k - 1.

(** Each coefficient of the result of gemv, symv, axpy is the exact one up to the roundings of a sum of products: the error is relative to the sum of the absolute
    values.  The memory behind the output is unchanged. *)
Record accurate_blas (u : R) (B : blas) : Prop := {
  ab_u : 0 <= u;
  ab_gemv : forall t m n alpha (A x : vec) beta (y : vec), (1 <= m)%nat -> (1 <= n)%nat -> length A = (m * n)%nat ->
    (rows_of t n m <= length x)%nat -> (rows_of t m n <= length y)%nat ->
    exists y', b_gemv B t m n alpha A m x beta y = Some y' /\ length y' = length y /\
      (forall i, (i < rows_of t m n)%nat ->
        Rabs (get y' i - (beta * get y i + alpha * rsum (rows_of t n m) (fun j => op_entry Rc t A m i j * get x j))) <=
        gam u (rows_of t n m + 3) * (Rabs beta * Rabs (get y i) + Rabs alpha * rsum (rows_of t n m) (fun j => Rabs (op_entry Rc t A m i j) * Rabs (get x j)))) /\
      (forall i, (rows_of t m n <= i)%nat -> get y' i = get y i);
  ab_symv : forall up n alpha (A x : vec) beta (y : vec), (1 <= n)%nat -> length A = (n * n)%nat -> (n <= length x)%nat -> (n <= length y)%nat ->
    exists y', b_symv B up n alpha A n x beta y = Some y' /\ length y' = length y /\
      (forall i, (i < n)%nat ->
        Rabs (get y' i - (beta * get y i + alpha * rsum n (fun j => sym_entry Rc up A n i j * get x j))) <=
        gam u (n + 3) * (Rabs beta * Rabs (get y i) + Rabs alpha * rsum n (fun j => Rabs (sym_entry Rc up A n i j) * Rabs (get x j)))) /\
      (forall i, (n <= i)%nat -> get y' i = get y i);
  ab_axpy : forall n alpha (x y : vec), (n <= length x)%nat -> (n <= length y)%nat ->
    exists y', b_axpy B n alpha x y = Some y' /\ length y' = length y /\
      (forall i, (i < n)%nat -> Rabs (get y' i - (alpha * get x i + get y i)) <= gam u 2 * (Rabs alpha * Rabs (get x i) + Rabs (get y i))) /\
      (forall i, (n <= i)%nat -> get y' i = get y i);
  ab_mul : forall a b, Rabs (b_mul B a b - a * b) <= gam u 1 * Rabs (a * b)
}.

(** Entry (i,j) of |U| |V| for a compressed leaf, of the matrix of absolute values for a dense one. *)
Definition leaf_abs (h : hinfo Rc) (i j : nat) : R :=
  match h_data h with
  | DLow L => rsum (lrank L) (fun k => Rabs (me (lU L) i k) * Rabs (me (lV L) k j))
  | _ => Rabs (leaf_entry h i j)
  end.
(** The same for the whole matrix. *)
Definition abs_value (L Y : list (hinfo Rc)) (i j : nat) : R :=
  match find (hcovers i j) L with
  | Some h => leaf_abs h (i - c_off (h_t h)) (j - c_off (h_s h))
  | None =>
      match find (hcovers j i) Y with
      | Some h => leaf_abs h (j - c_off (h_t h)) (i - c_off (h_s h))
      | None => 0
      end
  end.

(** Roundings of the product with one leaf with [inn] columns. *)
Definition leaf_cost (inn : nat) (h : hinfo Rc) : nat := match h_data h with DLow L => inn + lrank L + 6 | _ => inn + 3 end.
(** The leaves, and the mirror images, that touch the row i of the output. *)
Definition row_cost (t : trans) (L Y : list (hinfo Rc)) (i : nat) : nat :=
  list_sum (map (fun h => if in_iv i (interval (out_cl Rc t h)) then leaf_cost (c_size (in_cl Rc t h)) h else 0%nat) L) +
  list_sum (map (fun h => if in_iv i (interval (in_cl Rc t h)) then leaf_cost (c_size (out_cl Rc t h)) h else 0%nat) Y).

(** Row i of beta y + alpha op(M) x, i counted from the beginning of the output. *)
Definition exact_row (r : hinfo Rc) (M : nat -> nat -> R) (t : trans) (alpha beta : R) (x y : vec) (i : nat) : R :=
  beta * get y i + alpha * rsum (c_size (in_cl Rc t r)) (fun j => op_fun (K := Rc) t M (c_off (out_cl Rc t r) + i) (c_off (in_cl Rc t r) + j) * get x j).
(** The same with absolute values. *)
Definition abs_row (r : hinfo Rc) (MA : nat -> nat -> R) (t : trans) (alpha beta : R) (x y : vec) (i : nat) : R :=
  Rabs beta * Rabs (get y i) +
  Rabs alpha * rsum (c_size (in_cl Rc t r)) (fun j => op_fun (K := Rc) t MA (c_off (out_cl Rc t r) + i) (c_off (in_cl Rc t r) + j) * Rabs (get x j)).

(** Operations rounded one by one by [rnd], rows by rows. *)
Section Reference.
  Variable rnd : R -> R.
  Fixpoint rdot (n : nat) (f g : nat -> R) : R := match n with O => 0 | S k => rnd (rdot k f g + rnd (f k * g k)) end.
  Definition ref_gemv (t : trans) (m n : nat) (alpha : R) (A : vec) (lda : nat) (x : vec) (beta : R) (y : vec) : option vec :=
    if negb (legal_ld lda m) then None
    else if ((m =? 0) || (n =? 0))%nat then Some y
    else if holds Rc A lda m n && (rows_of t n m <=? length x)%nat && (rows_of t m n <=? length y)%nat then
      Some (mk (K := Rc) (rows_of t m n) (fun i => rnd (rnd (beta * get y i) + rnd (alpha * rdot (rows_of t n m) (op_entry Rc t A lda i) (get x)))) ++ skipn (rows_of t m n) y)
    else None.
  Definition ref_symv (up : uplo) (n : nat) (alpha : R) (A : vec) (lda : nat) (x : vec) (beta : R) (y : vec) : option vec :=
    if negb (legal_ld lda n) then None
    else if (n =? 0)%nat then Some y
    else if holds Rc A lda n n && (n <=? length x)%nat && (n <=? length y)%nat then
      Some (mk (K := Rc) n (fun i => rnd (rnd (beta * get y i) + rnd (alpha * rdot n (sym_entry Rc up A lda i) (get x)))) ++ skipn n y)
    else None.
  Definition ref_axpy (n : nat) (alpha : R) (x y : vec) : option vec :=
    if (n <=? length x)%nat && (n <=? length y)%nat then Some (mk (K := Rc) n (fun i => rnd (rnd (alpha * get x i) + get y i)) ++ skipn n y) else None.
  Definition ref_blas : blas := mkBlas ref_gemv ref_symv ref_axpy (fun a b => rnd (a * b)).
End Reference.
