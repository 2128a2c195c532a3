(** * The domain decomposition solver: products with overlap and the solve driver.

    Source: wrappers/wrapper_hpddm.hpp, solvers/ddm.hpp.  No proofs in this file.

    HPDDM itself (the exchange between neighbours, the Krylov methods) is an external library and is modelled from its
    documentation: [exchange] adds to the coefficients shared with a neighbour those of the neighbour, the messages being received
    in an arbitrary order; the Krylov method is an arbitrary function.  Exact arithmetic.  [None]: undefined behaviour, an MPI
    error or a deadlock. *)

From Coq Require Import List Arith Bool.
From Verif Require Import ClusterModel IOModel BlockModel Algebra BlasModel HMatModel DistModel.
Import ListNotations.

Section Ddm.
  Variable K : Coef.
  Notation C := (car K).
  Notation buf := (list C).

  (** DDM, ddm.hpp 28-44, and the HPDDM object: the operator; on every process m_size_w_overlap (getDof()), the ranks of the
      neighbours and the local numbers of the coefficients shared with each of them (initialize(n, sym, ptr, neighbors,
      intersections), ddm.hpp 407-436, 470-518). *)
  Record ddm : Type := mkDdm {
    dd_op : dop K;
    dd_size : list nat;
    dd_nb : list (list nat);
    dd_int : list (list (list nat))
  }.
  Section Op.
    Variable S : ddm.
    Notation D := (dd_op S).
    Definition dof (r : nat) : nat := nth r (dd_size S) 0.
    (** getMap(): the neighbours with their shared coefficients. *)
    Definition shared (r : nat) : list (nat * list nat) := combine (nth r (dd_nb S) []) (nth r (dd_int S) []).

    (** ** HPDDM::Subdomain::exchange(in, mu) *)
    (** Positions of the shared coefficients in mu columns of n coefficients. *)
    Definition positions (n mu : nat) (I : list nat) : list nat := flat_map (fun c => map (fun k => k + c * n) I) (seq 0 mu).
    (** The message of process [s] for process [r]. *)
    Definition message (bs : list buf) (mu s r : nat) : option buf :=
      match find (fun e => fst e =? r) (shared s) with
      | None => None
      | Some e => all_some (map (nth_error (at_rank K bs s)) (positions (dof s) mu (snd e)))
      end.
    (** b[p] += v. *)
    Definition add1 (pv : nat * C) (b : buf) : option buf := set1 K (fst pv) (cadd K (get b (fst pv)) (snd pv)) b.
    Definition receive (r mu : nat) (I : list nat) (m : buf) (b : buf) : option buf :=
      if length m =? mu * length I then fold_opt K add1 (combine (positions (dof r) mu I) m) b else None.
    (** [arrival r]: the neighbours of [r] in the order in which their messages arrive. *)
    Definition exchange (arrival : nat -> list (nat * list nat)) (mu : nat) (bs : list buf) : option (list buf) :=
      on_ranks (world K D) (fun r =>
        fold_opt K (fun e b => do m <- message bs mu (fst e) r; receive r mu (snd e) m b) (arrival r) (at_rank K bs r)).

    (** The partition of unity D, ddm.hpp 63-65: 1 on the first n_inside coefficients, 0 on the overlap. *)
    Definition unity (s i : nat) : C := if i <? s then c1 K else c0 K.
    (** scaledexchange, wrapper_hpddm.hpp 139-141: the vector is multiplied by D, then exchanged. *)
    Definition scale_unity (r mu : nat) (b : buf) : option buf :=
      do s <- part_size (d_t K D) r;
      fold_opt K (fun c b => fold_opt K (fun i b' => set1 K (i + c * dof r) (cmul K (unity s i) (get b' (i + c * dof r))) b') (seq 0 (dof r)) b)
        (seq 0 mu) b.
    Definition scaledexchange (arrival : nat -> list (nat * list nat)) (mu : nat) (bs : list buf) : option (list buf) :=
      do ss <- on_ranks (world K D) (fun r => scale_unity r mu (at_rank K bs r));
      exchange arrival mu ss.

    (** ** HPDDMOperator::GMV, wrapper_hpddm.hpp 94-137 *)
    (** std::fill(b + lo, b + hi, 0). *)
    Definition fill_range (lo hi : nat) (b : buf) : option buf := write_at K b lo 0 (fill0 K (hi - lo)).
    (** conj_if_complex(buffer, n) when the operator is hermitian, lines 106-108, 121-123. *)
    Definition conj_herm (n : nat) (b : buf) : option buf := if sym_is_H (d_sym K D) then conj_buf K n b else Some b.
    (** [buffers], [works]: the vectors buffer and in_global of every process. *)
    Definition gmv (arrival : nat -> list (nat * list nat)) (mu : nat) (ins outs buffers works : list buf) : option (list buf) :=
      if mu =? 1 then
        do os <- int_vec_l2l K D ins outs works;
        do zs <- on_ranks (world K D) (fun r => do s <- part_size (d_t K D) r; fill_range s (dof r) (at_rank K os r));
        exchange arrival mu zs
      else
        do bufs <- on_ranks (world K D) (fun r =>
          do s <- part_size (d_t K D) r;
          do b <- fold_opt K (fun i b => fold_opt K (fun j b' => mov K (at_rank K ins r) (i * dof r + j) (i + j * mu) b') (seq 0 s) b)
                    (seq 0 mu) (at_rank K buffers r);
          conj_herm (s * mu) b);
        do ob <- on_ranks (world K D) (fun r => do s <- part_size (d_t K D) r; ptr K (at_rank K bufs r) (s * mu));
        do os <- int_mat_l2l K D bufs ob works mu;
        do zs <- on_ranks (world K D) (fun r =>
          do s <- part_size (d_t K D) r;
          do row <- conj_herm (s * mu) (at_rank K os r);
          fold_opt K (fun i o =>
            do o' <- fold_opt K (fun j o' => mov K row (i + j * mu) (i * dof r + j) o') (seq 0 s) o;
            fill_range (s + i * dof r) ((i + 1) * dof r) o') (seq 0 mu) (at_rank K outs r));
        exchange arrival mu zs.

    (** ** DDM::solve, ddm.hpp 132-267 (without the options, timings and informations) *)
    (** The local right-hand sides, lines 178-198. *)
    Definition local_rhs (arrival : nat -> list (nat * list nat)) (mu : nat) (rhs : list buf) : option (list buf) :=
      let n := pa_n (d_t K D) in
      do locs <- on_ranks (world K D) (fun r =>
        do s <- part_size (d_t K D) r;
        do o <- part_off (d_t K D) r;
        fold_opt K (fun i b =>
          do q <- ptr K (at_rank K rhs r) (i * n);
          do p <- to_part K (d_t K D) q (vec0 K n);
          do src <- ptr K p o;
          put K b src (i * dof r) s) (seq 0 mu) (vec0 K (dof r * mu)));
      scaledexchange arrival mu locs.
    (** From the local solutions to the global ones, lines 203-236.  [locs]: local_rhs, reused; [works]: in_global. *)
    Definition gather_solution (mu : nat) (locs xs works outs : list buf) : option (list buf) :=
      let n := pa_n (d_t K D) in
      do lr <- on_ranks (world K D) (fun r =>
        do s <- part_size (d_t K D) r;
        fold_opt K (fun i b => do src <- ptr K (at_rank K xs r) (i * dof r); put K b src (i * s) s) (seq 0 mu) (at_rank K locs r));
      do cs <- part_counts (d_t K D) (world K D) mu;
      let ds := prefix_sums 0 cs in
      on_ranks (world K D) (fun r =>
        do g <- write_at K (at_rank K works r) (if mu =? 1 then 0 else mu * n) 0 (fun w => allgatherv K (world K D) cs ds lr w);
        do res <- foldM (fun i (bo : buf * buf) =>
          do b1 <- (if mu =? 1 then Some (fst bo)
                    else fold_opt K (fun j b' =>
                           do src <- ptr K b' (mu * n + nth j ds 0 + i * nth j cs 0 / mu);
                           put K b' src (i * n + nth j ds 0 / mu) (nth j cs 0 / mu)) (seq 0 (world K D)) (fst bo));
          do src <- ptr K b1 (i * n);
          do o1 <- write_at K (snd bo) (i * n) 0 (fun w => to_user K (d_t K D) src w);
          Some (b1, o1)) (seq 0 mu) (g, at_rank K outs r);
        Some (snd res)).
    (** [krylov rhs x0]: HPDDM::IterativeMethod::solve, which may use the right-hand sides as work space: their new contents and
        the local solutions. *)
    Definition solve (arrival : nat -> list (nat * list nat)) (krylov : list buf -> list buf -> option (list buf * list buf)) (mu : nat)
      (rhs works outs : list buf) : option (list buf) :=
      do b <- local_rhs arrival mu rhs;
      do rx <- krylov b (map (fun r => vec0 K (dof r * mu)) (seq 0 (world K D)));
      gather_solution mu (fst rx) (snd rx) works outs.
  End Op.
End Ddm.
Arguments mkDdm {K}.
Arguments dd_op {K}.
Arguments dd_size {K}.
Arguments dd_nb {K}.
Arguments dd_int {K}.
