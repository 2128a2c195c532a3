(** * The domain decomposition solver with the machine integers of the code.

    The functions of DdmModel.v with the sizes, counts and indices computed in 32 bits; an overflow is undefined behaviour ([None]).  HPDDM (exchange, Krylov method) is as
    in DdmModel.v.  Source: solvers/ddm.hpp 176-230, wrappers/wrapper_hpddm.hpp 94-137.  No proofs in this file. *)

From Coq Require Import List Arith ZArith Bool.
From Verif Require Import ClusterModel IOModel BlockModel Algebra BlasModel HMatModel DistModel DdmModel MachModel MachDistModel.
Import ListNotations.

Section MachDdm.
  Variable K : Coef.
  Notation C := (car K).
  Notation buf := (list C).
  Variable S : ddm K.
  Notation D := (dd_op S).
  Notation dof := (dof K S).

  (** std::vector::resize. *)
  Definition resize (n : nat) (b : buf) : buf := firstn n b ++ repeat (c0 K) (n - length b).

  (** ddm.hpp 178-198. *)
  Definition local_rhs_m (arrival : nat -> list (nat * list nat)) (mu : nat) (rhs : list buf) : option (list buf) :=
    let n := pa_n (d_t K D) in
    do locs <- on_ranks (world K D) (fun r =>
      do s <- part_size (d_t K D) r;
      do o <- part_off (d_t K D) r;
      do size <- nm (dof r) mu;
      fold_opt K (fun i b =>
        do k <- nm i n;
        do q <- ptr K (at_rank K rhs r) k;
        do p <- to_part K (d_t K D) q (vec0 K n);
        do src <- ptr K p o;
        do d <- nm i (dof r);
        put K b src d s) (seq 0 mu) (vec0 K size));
    scaledexchange K S arrival mu locs.

  (** ddm.hpp 203-230. *)
  Definition gather_solution_m (mu : nat) (locs xs works outs : list buf) : option (list buf) :=
    let n := pa_n (d_t K D) in
    do lr <- on_ranks (world K D) (fun r =>
      do s <- part_size (d_t K D) r;
      fold_opt K (fun i b => do k <- nm i (dof r); do src <- ptr K (at_rank K xs r) k; do d <- nm i s; put K b src d s) (seq 0 mu) (at_rank K locs r));
    do cs <- part_counts_m (d_t K D) (world K D) mu;
    do ds <- prefix_sums_m 0 cs;
    on_ranks (world K D) (fun r =>
      do g0 <- (if mu =? 1 then Some 0 else nm mu n);
      do g <- write_at K (at_rank K works r) g0 0 (fun w => allgatherv K (world K D) cs ds lr w);
      do res <- foldM (fun i (bo : buf * buf) =>
        do b1 <- (if mu =? 1 then Some (fst bo)
                  else fold_opt K (fun j b' =>
                         do mn <- nm mu n; do ic <- nm i (nth j cs 0); do inn <- nm i n;
                         do src <- ptr K b' (mn + nth j ds 0 + ic / mu);
                         put K b' src (inn + nth j ds 0 / mu) (nth j cs 0 / mu)) (seq 0 (world K D)) (fst bo));
        do inn <- nm i n;
        do src <- ptr K b1 inn;
        do o1 <- write_at K (snd bo) inn 0 (fun w => to_user K (d_t K D) src w);
        Some (b1, o1)) (seq 0 mu) (g, at_rank K outs r);
      Some (snd res)).

  (** ddm.hpp 176-230; [works]: the content of in_global before the call, lines 181-182 resize it (and buffer). *)
  Definition solve_m (arrival : nat -> list (nat * list nat)) (krylov : list buf -> list buf -> option (list buf * list buf)) (mu : nat)
    (rhs works outs : list buf) : option (list buf) :=
    let n := pa_n (d_t K D) in
    do x0 <- on_ranks (world K D) (fun r => do size <- nm (dof r) mu; Some (vec0 K size));
    do ws <- on_ranks (world K D) (fun r =>
      do s <- part_size (d_t K D) r;
      do f <- (if mu =? 1 then Some 1 else nm 2 mu);
      do size <- nm n f;
      do _ <- nm s f;
      Some (resize size (at_rank K works r)));
    do b <- local_rhs_m arrival mu rhs;
    do rx <- krylov b x0;
    gather_solution_m mu (fst rx) (snd rx) ws outs.

  (** GMV, wrapper_hpddm.hpp 94-137. *)
  Definition gmv_m (arrival : nat -> list (nat * list nat)) (mu : nat) (ins outs buffers works : list buf) : option (list buf) :=
    if mu =? 1 then
      do bs <- l2g_source_m K D ins works 1;
      do os <- on_ranks (world K D) (fun r => int_vec_g2l K D r (at_rank K bs r) (at_rank K outs r));
      do zs <- on_ranks (world K D) (fun r => do s <- part_size (d_t K D) r; fill_range K s (dof r) (at_rank K os r));
      exchange K S arrival mu zs
    else
      do bufs <- on_ranks (world K D) (fun r =>
        do s <- part_size (d_t K D) r;
        do b <- fold_opt K (fun i b => fold_opt K (fun j b' =>
                  do jm <- nm j mu; do q <- na i jm; do id <- nm i (dof r); do p <- na id j;
                  mov K (at_rank K ins r) p q b') (seq 0 s) b) (seq 0 mu) (at_rank K buffers r);
        if sym_is_H (d_sym K D) then do sm <- nm s mu; conj_buf K sm b else Some b);
      do ob <- on_ranks (world K D) (fun r => do s <- part_size (d_t K D) r; do sm <- nm s mu; ptr K (at_rank K bufs r) sm);
      do os <- int_mat_l2l_m K D bufs ob works mu;
      do zs <- on_ranks (world K D) (fun r =>
        do s <- part_size (d_t K D) r;
        do row <- (if sym_is_H (d_sym K D) then do sm <- nm s mu; conj_buf K sm (at_rank K os r) else Some (at_rank K os r));
        fold_opt K (fun i o =>
          do o' <- fold_opt K (fun j o' =>
            do id <- nm i (dof r); do q <- na id j;
            do jm <- nm j mu; do p <- na i jm; do sm <- nm s mu; do _ <- na p sm;
            mov K row p q o') (seq 0 s) o;
          do id <- nm i (dof r); do i1 <- na i 1; do e <- nm i1 (dof r);
          fill_range K (s + id) e o') (seq 0 mu) (at_rank K outs r));
      exchange K S arrival mu zs.
End MachDdm.
