(** * Extraction of the diagonal of a hierarchical matrix.

    Source: hmatrix/hmatrix.hpp 373-443 (copy_diagonal, copy_diagonal_in_user_numbering).  No proofs in this file. *)

From Coq Require Import List Arith Bool.
From Verif Require Import ClusterModel IOModel BlockModel Algebra BlasModel HMatModel.
Import ListNotations.

Section D.
  Variable K : Coef.
  Notation C := (car K).
  Notation hinfo := (hinfo K).
  Notation hmat := (hmat K).

  (** The dense matrix whose diagonal is read: the dense data, or the low-rank block expanded into Matrix(local_nc, local_nr) (number of
      columns first, hmatrix.hpp 398 and 437; copy_to_dense writes it with the leading dimension of U). *)
  Definition diag_source (h : hinfo) : option (option (mat K)) :=
    match h_data h with
    | DDense A => Some (Some A)
    | DLow L => match lr_to_dense K L (c_size (h_s h)) (c_size (h_t h)) with Some D => Some (Some D) | None => None end
    | DNone => Some None
    end.
  (** The body of the loop over the leaves; [pos]: where ptr receives the entry of index i (cluster numbering); [equal]: offset_i == offset_j. *)
  Definition diag_leaf (equal : bool) (pos : nat -> nat) (h : hinfo) (b : list C) : option (list C) :=
    if equal then
      match diag_source h with
      | None => None
      | Some None => Some b
      | Some (Some D) => fold_opt K (fun k b => set1 K (pos (k + c_off (h_t h))) (me D k k) b) (seq 0 (Nat.min (c_size (h_t h)) (c_size (h_s h)))) b
      end
    else Some b.
  (** copy_diagonal, hmatrix.hpp 373-405: offsets relative to the root; the error logged for a matrix that is not square is not modelled. *)
  Definition copy_diagonal (A : hmat) (b : list C) : option (list C) :=
    let r := rt_val A in
    match hleaves K A with
    | None => None
    | Some (L, _) =>
        fold_opt K (fun h => diag_leaf (c_off (h_t h) - c_off (h_t r) =? c_off (h_s h) - c_off (h_s r)) (fun i => i - c_off (h_t r)) h) L b
    end.
  (** copy_diagonal_in_user_numbering, hmatrix.hpp 408-443: absolute offsets; [tp]: the permutation of the target cluster tree. *)
  Definition copy_diagonal_in_user_numbering (tp : nat -> nat) (A : hmat) (b : list C) : option (list C) :=
    let r := rt_val A in
    match hleaves K A with
    | None => None
    | Some (L, _) => fold_opt K (fun h => diag_leaf (c_off (h_t h) =? c_off (h_s h)) (fun i => tp i - c_off (h_t r)) h) L b
    end.
End D.
