(** * The operators of the class Matrix and its text output.

    Source: matrix/matrix.hpp 145-203, 240-316, 609-617, 680-705.  Exact arithmetic.  A new matrix is filled with zeros (constructor, lines
    36-45).  [None]: an access outside a buffer.  [fmt]: operator<< of a coefficient; the failure to open a file is not modelled.
    No proofs in this file. *)

From Coq Require Import Ascii String List Arith Bool ZArith Reals.
From Verif Require Import ClusterModel IOModel BlockModel Algebra BlasModel HMatModel DistModel RealNum ErrModel.
Import ListNotations.
Local Open Scope list_scope.
Local Open Scope nat_scope.

Section M.
  Variable K : Coef.
  Notation C := (car K).

  (** get_stridedslice, get_row, get_col, lines 145-174. *)
  Definition get_stridedslice (A : mat K) (start len stride : nat) : option (list C) :=
    all_some (map (fun i => nth_error (md A) (start + i * stride)) (seq 0 len)).
  Definition get_row (A : mat K) (row : nat) : option (list C) := get_stridedslice A row (mc A) (mr A).
  Definition get_col (A : mat K) (col : nat) : option (list C) := get_stridedslice A (col * mr A) (mr A) 1.

  (** set_stridedslice, set_row, set_col, lines 182-206. *)
  Definition set_stridedslice (A : mat K) (start len stride : nat) (a : list C) : option (mat K) :=
    do d <- fold_left (fun st i => do d <- st; do x <- nth_error a i; upd K d (start + i * stride) x) (seq 0 len) (Some (md A));
    Some (mkPMat (mr A) (mc A) d (mp A)).
  Definition set_row (A : mat K) (row : nat) (a : list C) : option (mat K) := set_stridedslice A row (mc A) (mr A) a.
  Definition set_col (A : mat K) (col : nat) (a : list C) : option (mat K) := set_stridedslice A (col * mr A) (mr A) 1 a.

  (** The loops over i and j that write R(i,j). *)
  Definition write_entries (nr nc : nat) (f : nat -> nat -> option C) : option (mat K) :=
    do d <- fold_left (fun st ij => do d <- st; do x <- f (fst ij) (snd ij); upd K d (fst ij + snd ij * nr) x)
      (list_prod (seq 0 nr) (seq 0 nc)) (Some (repeat (c0 K) (nr * nc)));
    Some (mkMat (K:=K) nr nc d).
  (** operator* by a scalar, lines 244-256. *)
  Definition op_scal (A : mat K) (a : C) : option (mat K) :=
    write_entries (mr A) (mc A) (fun i j => do x <- fetch K A i j; Some (cmul K x a)).
  (** operator+ and operator-, lines 262-286: the sizes are those of the argument [A], the number of rows used to read [this] its own. *)
  Definition op_plus (this A : mat K) : option (mat K) :=
    write_entries (mr A) (mc A) (fun i j => do x <- nth_error (md this) (i + j * mr this); do y <- fetch K A i j; Some (cadd K x y)).
  Definition op_minus (this A : mat K) : option (mat K) :=
    write_entries (mr A) (mc A) (fun i j => do x <- nth_error (md this) (i + j * mr this); do y <- fetch K A i j; Some (csub K x y)).
  (** operator* by a vector, lines 292-300. *)
  Definition op_vec (this : mat K) (rhs : list C) : option (list C) :=
    fold_left (fun st ik => do l <- st;
      do a <- nth_error l (fst ik);
      do m <- nth_error (md this) (fst ik + snd ik * mr this);
      do b <- nth_error rhs (snd ik);
      upd K l (fst ik) (cadd K a (cmul K m b))) (list_prod (seq 0 (mr this)) (seq 0 (mc this))) (Some (repeat (c0 K) (mr this))).
  (** operator* by a matrix, lines 305-315. *)
  Definition op_mat (this B : mat K) : option (mat K) :=
    do d <- fold_left (fun st ijk => do d <- st;
      let i := fst (fst ijk) in let j := snd (fst ijk) in let k := snd ijk in
      do r <- nth_error d (i + j * mr this);
      do a <- nth_error (md this) (i + k * mr this);
      do b <- fetch K B k j;
      upd K d (i + j * mr this) (cadd K r (cmul K a b)))
      (list_prod (list_prod (seq 0 (mr this)) (seq 0 (mc B))) (seq 0 (mc this))) (Some (repeat (c0 K) (mr this * mc B)));
    Some (mkMat (K:=K) (mr this) (mc B) d).
  (** argmax, lines 614-617; [None]: remainder by zero. *)
  Definition op_argmax (abs : C -> R) (A : mat K) : option (nat * nat) :=
    let p := vargmax K abs (firstn (mc A * mr A) (md A)) in
    if mr A =? 0 then None else Some (p mod mr A, p / mr A).

  Variable fmt : C -> str.
  (** print, lines 680-691: what is written to the stream. *)
  Definition print_row (delim : str) (row : list C) : str :=
    concat (map (fun x => fmt x ++ delim) (removelast row)) ++ (match rev row with x :: _ => fmt x | [] => [] end) ++ [newline].
  Definition print_matrix (delim : str) (A : mat K) : option str :=
    if mc A =? 0 then Some []
    else do rows <- all_some (map (get_row A) (seq 0 (mr A))); Some (concat (map (print_row delim) rows)).
  (** csv_save, lines 693-711: the name and the content of the file. *)
  Definition csv_save (file delim : str) (A : mat K) : option (str * str) := do t <- print_matrix delim A; Some (file, t).
End M.
