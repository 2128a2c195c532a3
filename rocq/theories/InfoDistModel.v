(** * Statistics of a distributed hierarchical matrix.

    Source: hmatrix/hmatrix_distributed_output.hpp 24-204.  As in InfoModel.v double is modelled by rational numbers and
    std::size_t by natural numbers (no overflow of 2^64); the product of two unsigned int is modulo 2^32; the numbers are not
    printed.  MPI_Reduce with different counts on the processes is an error: [None].  No proofs in this file. *)

From Coq Require Import Ascii List Arith Bool ZArith QArith.
From Verif Require Import ClusterModel IOModel IOSpec BlockModel Algebra BlasModel HMatModel DistModel InfoModel.
Import ListNotations.
Local Open Scope nat_scope.

(** MPI_Reduce: position by position, over the processes in order. *)
Definition reduce2 {A} (op : A -> A -> A) (a b : list A) : option (list A) :=
  if length a =? length b then Some (map (fun p => op (fst p) (snd p)) (combine a b)) else None.
Definition mpi_reduce {A} (op : A -> A -> A) (bufs : list (list A)) : option (list A) :=
  match bufs with
  | [] => None
  | b0 :: l => fold_left (fun acc b => do a <- acc; reduce2 op a b) l (Some b0)
  end.

(** is_positive_integer, lines 26-28. *)
Definition is_positive_integer (s : str) : bool :=
  match s with [] => false | _ => forallb (fun c => match digit_of c with Some _ => true | None => false end) s end.

Definition qmax (a b : Q) : Q := if Qle_bool a b then b else a.
Definition qmin (a b : Q) : Q := if Qle_bool a b then a else b.

Section D.
  Variable K : Coef.
  Notation hmat := (rtree (hinfo K)).

  (** What a process has: its matrix, and the maps m_information and m_timings, in the order of the keys. *)
  Record process : Type := mkProcess { ps_mat : hmat; ps_info : list (str * str); ps_times : list (str * Q) }.

  (** The coefficients that were generated, lines 54-80: the sum is a size_t, so that each addition of a double truncates. *)
  Definition generated_local (dense low : list (hinfo K)) : nat :=
    fold_left (fun s h => match h_sym h with SyN => s + c_size (h_t h) * c_size (h_s h) | _ => s + c_size (h_t h) * (c_size (h_s h) + 1) / 2 end) dense
      (fold_left (fun s h => s + h_rank K h * (c_size (h_t h) + c_size (h_s h))) low 0).

  (** maxinfos, meaninfos (its values are integers before the reduction), mininfos and reduced_information, lines 39-87. *)
  Definition local_infos (A : hmat) : option (list nat * list nat * list nat * list nat) :=
    let nr := c_size (h_t (rt_val A)) in
    let nc := c_size (h_s (rt_val A)) in
    let local_size := umul nc nr in
    do bs <- get_blocks K A;
    let '(dense, low) := bs in
    let '(lmax, lmin, lsum) := stat K local_size (h_size K) low in
    let '(rmax, rmin, rsum) := stat K local_size (h_rank K) low in
    let '(dmax, dmin, dsum) := stat K local_size (h_size K) dense in
    Some ([dmax; lmax; rmax; nr; nc], [dsum; lsum; rsum; nr; nc], [dmin; lmin; rmin; nr; nc],
          [length dense; length low; local_size; generated_local dense low]).

  (** The values of the map on process 0, lines 118-139. *)
  Record dinfos : Type := mkDinfos {
    di_tmax : nat; di_tmean : Q; di_tmin : nat; di_smax : nat; di_smean : Q; di_smin : nat;
    di_dmax : nat; di_dmean : Q; di_dmin : nat; di_lmax : nat; di_lmean : Q; di_lmin : nat;
    di_rmax : nat; di_rmean : Q; di_rmin : nat; di_nlow : nat; di_ndense : nat;
    di_ratio : Q; di_saving : Q; di_tasks : nat }.
  Definition or0 (n : nat) (m : nat) : nat := match n with 0 => 0 | _ => m end.
  Definition dmean (s n : nat) : Q := match n with 0 => 0%Q | _ => (qn s / qn n)%Q end.
  Definition at_ (l : list nat) (i : nat) : nat := nth i l 0.
  Definition block_information (As : list hmat) : option dinfos :=
    do l <- all_some (map local_infos As);
    let size := length As in
    do mx <- mpi_reduce Nat.max (map (fun x => let '(a, _, _, _) := x in a) l);
    do mn <- mpi_reduce Nat.min (map (fun x => let '(_, _, a, _) := x in a) l);
    do me <- mpi_reduce Nat.add (map (fun x => let '(_, a, _, _) := x in a) l);
    do re <- mpi_reduce Nat.add (map (fun x => let '(_, _, _, a) := x in a) l);
    let nd := at_ re 0 in
    let nl := at_ re 1 in
    Some (mkDinfos (at_ mx 3) (qn (at_ me 3) / qn size)%Q (at_ mn 3) (at_ mx 4) (qn (at_ me 4) / qn size)%Q (at_ mn 4)
            (at_ mx 0) (dmean (at_ me 0) nd) (or0 nd (at_ mn 0)) (at_ mx 1) (dmean (at_ me 1) nl) (or0 nl (at_ mn 1))
            (at_ mx 2) (dmean (at_ me 2) nl) (or0 nl (at_ mn 2)) nl nd
            (qn (at_ re 2) / qn (at_ re 3))%Q (1 - qn (at_ re 3) / qn (at_ re 2))%Q size).

  (** The integers of m_information, lines 142-165: the names are those of process 0. *)
  Definition int_entries (m : list (str * str)) : list (str * str) := filter (fun e => is_positive_integer (snd e)) m.
  Definition information_values (ps : list process) : option (list (str * Z)) :=
    do vs <- all_some (map (fun p => all_some (map (fun e => stoi (snd e)) (int_entries (ps_info p)))) ps);
    do s <- mpi_reduce Z.add vs;
    match ps with
    | [] => None
    | p0 :: _ => Some (combine (map fst (int_entries (ps_info p0))) s)
    end.

  (** The timings, lines 168-202: name, maximum, mean, minimum. *)
  Definition timing_values (ps : list process) : option (list (str * (Q * Q * Q))) :=
    let ts := map (fun p => map snd (ps_times p)) ps in
    do mx <- mpi_reduce qmax ts;
    do mn <- mpi_reduce qmin ts;
    do me <- mpi_reduce Qplus ts;
    match ps with
    | [] => None
    | p0 :: _ => Some (combine (map fst (ps_times p0)) (combine (combine mx (map (fun s => (s / qn (length ps))%Q) me)) mn))
    end.
End D.
