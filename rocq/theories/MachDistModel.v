(** * The products of several vectors by a distributed operator, with the machine integers of the code.

    DistModel.v uses mathematical integers.  Here the sizes, counts, displacements and indices, of type [int] in the code, are computed in 32 bits; an overflow is undefined
    behaviour ([None]).  Additions to pointers are not additions of [int]s.  The local operators and MPI are those of DistModel.v.
    Source: distributed_operator/distributed_operator.hpp 139-210, 254-309, 342-393, 439-505, 518-527, 543-554, 566-574, 622-664, 694-711.  No proofs in this file. *)

From Coq Require Import List Arith ZArith Bool.
From Verif Require Import ClusterModel IOModel BlockModel Algebra BlasModel HMatModel DistModel MachModel.
Import ListNotations.

(** a + b and a * b on nonnegative [int]s. *)
Definition na (a b : nat) : option nat := do z <- iadd (Z.of_nat a) (Z.of_nat b); Some (Z.to_nat z).
Definition nm (a b : nat) : option nat := do z <- imul (Z.of_nat a) (Z.of_nat b); Some (Z.to_nat z).

(** recvcounts[i] = get_size_of_partition(i) * mu, lines 185-186, 647, 705-706. *)
Definition part_counts_m (p : partition) (P mu : nat) : option (list nat) := on_ranks P (fun r => do s <- part_size p r; nm s mu).
(** displs[i] = displs[i - 1] + recvcounts[i - 1] for i > 0, lines 187-188, 649-652, 707-708. *)
Fixpoint prefix_sums_m (acc : nat) (l : list nat) : option (list nat) :=
  match l with
  | [] => Some []
  | a :: l' => match l' with [] => Some [acc] | _ => do acc' <- na acc a; do t <- prefix_sums_m acc' l'; Some (acc :: t) end
  end.

Section MachDist.
  Variable K : Coef.
  Notation C := (car K).
  Notation buf := (list C).
  Section Op.
    Variable D : dop K.
    Notation nr := (nr K D).
    Notation nc := (nc K D).
    Notation world := (world K D).
    Notation vec0 := (vec0 K).
    Notation at_rank := (at_rank K).

    (** row[i + j*mu] = col_i[j] for mu columns of n coefficients, lines 153-167, 278-292, 362-375, 470-485.  Column i begins at [i * ld] in the input; without permutation
        its coefficient j is read at [o + j + i * ld]. *)
    Definition pack_rows_m (perm : bool) (mu n ld o : nat) (col : nat -> option buf) (b : buf) : option buf :=
      fold_opt K (fun i b =>
        do k <- nm i ld;
        do c <- col k;
        fold_opt K (fun j b' =>
          do m <- nm j mu;
          do q <- na i m;
          do _ <- (if perm then Some 0 else na (o + j) k);
          mov K c j q b') (seq 0 n) b) (seq 0 mu) b.

    (** internal_matrix_product_global_to_local, lines 518-527. *)
    Definition int_mat_g2l_m (r : nat) (inp out : buf) (mu : nat) : option buf :=
      do s <- part_size (d_t K D) r;
      do n <- nm s mu;
      do o <- fill0 K n out;
      fold_opt K (fun v b => vl_mat K v (c1 K) inp (c1 K) b mu) (ops_of K D r) o.

    (** matrix_product_global_to_global, lines 139-210. *)
    Definition mat_g2g_m (ins outs : list buf) (mu : nat) : option (list buf) :=
      do locs <- on_ranks world (fun r =>
        do s <- part_size (d_t K D) r;
        do s2 <- nm 2 s;
        do size_op <- nm s2 mu;
        do size_in <- nm nc mu;
        do input <- pack_rows_m (d_perm K D) mu nc nc 0 (fun k => do p <- ptr K (at_rank ins r) k; if d_perm K D then to_part K (d_s K D) p (vec0 nc) else Some p) (vec0 size_in);
        do sm <- nm s mu;
        do op <- write_at K (vec0 size_op) sm 0 (fun w => int_mat_g2l_m r input w mu);
        fold_opt K (fun i b => fold_opt K (fun j b' =>
          do a1 <- nm i s; do q <- na a1 j;
          do a2 <- nm s mu; do a3 <- na a2 i; do a4 <- nm j mu; do p <- na a3 a4;
          mov K b' p q b') (seq 0 s) b) (seq 0 mu) op);
      do cs <- part_counts_m (d_t K D) world mu;
      do ds <- prefix_sums_m 0 cs;
      on_ranks world (fun r =>
        do size_out <- (if d_perm K D then do n2 <- nm 2 nr; nm n2 mu else nm nr mu);
        do ob <- allgatherv K world cs ds locs (vec0 size_out);
        if d_perm K D then
          do res <- foldM (fun i (bo : buf * buf) =>
              do b1 <- fold_opt K (fun j b' =>
                     do ic <- nm i (nth j cs 0);
                     do src <- ptr K b' (nth j ds 0 + ic / mu);
                     do nm' <- nm nr mu; do inr <- nm i nr;
                     put K b' src (nm' + inr + nth j ds 0 / mu) (nth j cs 0 / mu)) (seq 0 world) (fst bo);
              do nm' <- nm nr mu; do inr <- nm i nr;
              do src <- ptr K b1 (nm' + inr);
              do out1 <- write_at K (snd bo) inr 0 (fun w => to_user K (d_t K D) src w);
              Some (b1, out1)) (seq 0 mu) (ob, at_rank outs r);
          Some (snd res)
        else
          fold_opt K (fun i out => fold_opt K (fun j o =>
            do ic <- nm i (nth j cs 0);
            do src <- ptr K ob (nth j ds 0 + ic / mu);
            do inr <- nm i nr;
            put K o src (inr + nth j ds 0 / mu) (nth j cs 0 / mu)) (seq 0 world) out) (seq 0 mu) (at_rank outs r)).

    (** internal_matrix_product_transp_local_to_global, lines 543-554. *)
    Definition int_tmat_l2g_m (ins outs : list buf) (mu : nat) : option (list buf) :=
      do parts <- on_ranks world (fun r =>
        do n <- nm nc mu;
        do o <- fill0 K n (at_rank outs r);
        fold_opt K (fun v b => vl_tmat K v (c1 K) (at_rank ins r) (c1 K) b mu) (ops_of K D r) o);
      on_ranks world (fun r => do n <- nm nc mu; allreduce K n parts r).

    (** matrix_product_transp_global_to_global, lines 254-309.  The output of the local operators is the end of in_perm, whose size is local_size * mu + mu * nc. *)
    Definition tmat_g2g_m (ins outs : list buf) (mu : nat) : option (list buf) :=
      match d_sym K D with
      | SyS => mat_g2g_m ins outs mu
      | SyH =>
          do ic <- on_ranks world (fun r => do n <- nm nr mu; conj_copy K n (at_rank ins r));
          do os <- mat_g2g_m ic outs mu;
          on_ranks world (fun r => do n <- nm mu nc; conj_buf K n (at_rank os r))
      | _ =>
          do inputs <- on_ranks world (fun r =>
            do s <- part_size (d_t K D) r;
            do o <- part_off (d_t K D) r;
            do size_out <- nm mu nc;
            do sm <- nm s mu;
            do _ <- na sm size_out;
            do _ <- na o s;
            pack_rows_m (d_perm K D) mu s nr o (fun k => do p <- ptr K (at_rank ins r) k;
                                                         do b <- (if d_perm K D then to_part K (d_t K D) p (vec0 nr) else Some p);
                                                         ptr K b o) (vec0 sm));
          do outs0 <- on_ranks world (fun _ => do n <- nm mu nc; Some (vec0 n));
          do os <- int_tmat_l2g_m inputs outs0 mu;
          on_ranks world (fun r =>
            do s <- part_size (d_t K D) r;
            let row := at_rank os r in
            if d_perm K D then
              fold_opt K (fun i out =>
                do c <- fold_opt K (fun j c =>
                  do inc <- nm i nc; do _ <- na inc j;
                  do jm <- nm j mu; do p <- na i jm; do sm <- nm s mu; do _ <- na p sm;
                  mov K row p j c) (seq 0 nc) (vec0 nc);
                do inc <- nm i nc;
                write_at K out inc 0 (fun w => to_user K (d_s K D) c w)) (seq 0 mu) (at_rank outs r)
            else
              fold_opt K (fun i out => fold_opt K (fun j o =>
                do inc <- nm i nc; do q <- na inc j;
                do jm <- nm j mu; do p <- na i jm; do sm <- nm s mu; do _ <- na p sm;
                mov K row p q o) (seq 0 nc) out) (seq 0 mu) (at_rank outs r))
      end.

    (** local_to_global_source, lines 694-711. *)
    Definition l2g_source_m (ins outs : list buf) (mu : nat) : option (list buf) :=
      do cs <- part_counts_m (d_s K D) world mu;
      do ds <- prefix_sums_m 0 cs;
      on_ranks world (fun r => allgatherv K world cs ds ins (at_rank outs r)).
    (** internal_matrix_product_local_to_local, lines 566-574, with a work array. *)
    Definition int_mat_l2l_m (ins outs works : list buf) (mu : nat) : option (list buf) :=
      do bs <- l2g_source_m ins works mu;
      on_ranks world (fun r => int_mat_g2l_m r (at_rank bs r) (at_rank outs r) mu).
    (** Lines 379-392, 489-504. *)
    Definition unpack_rows_m (p : partition) (mu r s : nat) (row out : buf) : option buf :=
      if d_perm K D then
        fold_opt K (fun i out =>
          do c <- fold_opt K (fun j c => do jm <- nm j mu; do q <- na i jm; mov K row q j c) (seq 0 s) (vec0 s);
          do is <- nm i s;
          write_at K out is 0 (fun w => to_user_local K p r c w)) (seq 0 mu) out
      else
        fold_opt K (fun i out => fold_opt K (fun j o =>
          do is <- nm i s; do d <- na j is; do jm <- nm j mu; do q <- na i jm; mov K row q d o) (seq 0 s) out) (seq 0 mu) out.
    (** Lines 357, 362-375, 466, 470-485. *)
    Definition pack_local_m (p : partition) (mu r s : nat) (inp : buf) : option buf :=
      do n <- nm s mu;
      pack_rows_m (d_perm K D) mu s s 0 (fun k => do q <- ptr K inp k; if d_perm K D then to_part_local K p r q (vec0 s) else Some q) (vec0 n).
    (** The work array: given by the caller, or of the computed size when the pointer is null. *)
    Definition work_m (works : option (list buf)) (size : nat -> option nat) : option (list buf) :=
      match works with Some w => Some w | None => on_ranks world (fun r => do n <- size r; Some (vec0 n)) end.

    (** matrix_product_local_to_local, lines 342-393. *)
    Definition mat_l2l_m (ins outs : list buf) (works : option (list buf)) (mu : nat) : option (list buf) :=
      do ws <- work_m works (fun _ => nm nc mu);
      do ip <- on_ranks world (fun r => do s <- part_size (d_s K D) r; pack_local_m (d_s K D) mu r s (at_rank ins r));
      do op <- on_ranks world (fun r => do s <- part_size (d_t K D) r; do n <- nm s mu; Some (vec0 n));
      do os <- int_mat_l2l_m ip op ws mu;
      on_ranks world (fun r => do s <- part_size (d_t K D) r; unpack_rows_m (d_t K D) mu r s (at_rank os r) (at_rank outs r)).

    (** internal_matrix_product_transp_local_to_local, lines 622-664, with a work array. *)
    Definition int_tmat_l2l_m (ins outs works : list buf) (mu : nat) : option (list buf) :=
      match d_sym K D with
      | SyS | SyH => int_mat_l2l_m ins outs works mu
      | _ =>
          do parts <- on_ranks world (fun r =>
            do n <- nm nc mu;
            do b <- fill0 K n (at_rank works r);
            fold_opt K (fun v b => vl_tmat K v (c1 K) (at_rank ins r) (c1 K) b mu) (ops_of K D r) b);
          do sc <- part_counts_m (d_s K D) world mu;
          do sd <- prefix_sums_m 0 sc;
          on_ranks world (fun r =>
            do s <- part_size (d_s K D) r;
            do rc <- on_ranks world (fun _ => nm s mu);
            do rd <- prefix_sums_m 0 rc;
            do n <- nm nc mu;
            do rbuf <- ptr K (at_rank parts r) n;
            do rb <- alltoallv K world sc sd rc rd parts r rbuf;
            fold_opt K (fun i o => do sm <- nm s mu; do q <- ptr K rb (nth i rd 0); axpy K sm (c1 K) q o) (seq 0 world) (at_rank outs r))
      end.
    (** matrix_product_transp_local_to_local, lines 439-505. *)
    Definition tmat_l2l_m (ins outs : list buf) (works : option (list buf)) (mu : nat) : option (list buf) :=
      do ws <- work_m works (fun r => do s <- part_size (d_s K D) r; do ps <- nm world s; do t <- na nc ps; nm t mu);
      match d_sym K D with
      | SyS => mat_l2l_m ins outs (Some ws) mu
      | SyH =>
          do ic <- on_ranks world (fun r => do s <- part_size (d_t K D) r; do n <- nm s mu; conj_copy K n (at_rank ins r));
          do os <- mat_l2l_m ic outs (Some ws) mu;
          on_ranks world (fun r => do s <- part_size (d_s K D) r; do n <- nm s mu; conj_buf K n (at_rank os r))
      | _ =>
          do ip <- on_ranks world (fun r => do s <- part_size (d_t K D) r; pack_local_m (d_t K D) mu r s (at_rank ins r));
          do op <- on_ranks world (fun r => do s <- part_size (d_s K D) r; do n <- nm s mu; Some (vec0 n));
          do os <- int_tmat_l2l_m ip op ws mu;
          on_ranks world (fun r => do s <- part_size (d_s K D) r; unpack_rows_m (d_s K D) mu r s (at_rank os r) (at_rank outs r))
      end.
  End Op.
End MachDist.
