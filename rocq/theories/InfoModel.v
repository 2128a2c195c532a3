(** * Block statistics.

    Source: hmatrix/hmatrix_output.hpp 120-213 (the distributed version is in InfoDistModel.v).  double is modelled by
    rational numbers, std::size_t by natural numbers; the product of two unsigned int is modulo 2^32; the textual form of
    the numbers (std::to_string) is dropped.  No proofs in this file. *)

From Coq Require Import List Arith Bool ZArith QArith.
From Verif Require Import ClusterModel IOModel IOSpec BlockModel Algebra BlasModel HMatModel DistModel.
Import ListNotations.
Local Open Scope nat_scope.

(** The values of the map. *)
Record infos : Type := mkInfos {
  in_rows : nat; in_cols : nat;
  in_dmax : nat; in_dmean : Q; in_dmin : nat;
  in_lmax : nat; in_lmean : Q; in_lmin : nat;
  in_rmax : nat; in_rmean : Q; in_rmin : nat;
  in_nlow : nat; in_ndense : nat;
  in_ratio : Q; in_saving : Q
}.
Definition qn (n : nat) : Q := inject_Z (Z.of_nat n).
(** unsigned int * unsigned int *)
Definition umul (a b : nat) : nat := Z.to_nat ((Z.of_nat a * Z.of_nat b) mod 4294967296).

Section Info.
  Variable K : Coef.
  Notation hmat := (rtree (hinfo K)).

  Definition is_leaf (h : hmat) : bool := match rt_children h with [] => true | _ => false end.
  Definition h_dense (h : hinfo K) : bool := match h_data h with DDense _ => true | _ => false end.
  Definition h_low (h : hinfo K) : bool := match h_data h with DLow _ => true | _ => false end.
  (** get_leaves, lines 120-131. *)
  Definition get_blocks (A : hmat) : option (list (hinfo K) * list (hinfo K)) :=
    do l <- preorder_run (length (preorder A)) [A] [];
    Some (fold_left (fun (st : list (hinfo K) * list (hinfo K)) h =>
            if is_leaf h && h_dense (rt_val h) then (fst st ++ [rt_val h], snd st)
            else if is_leaf h && h_low (rt_val h) then (fst st, snd st ++ [rt_val h]) else st) l ([], [])).
  (** local_size, local_rank, lines 155-158. *)
  Definition h_size (h : hinfo K) : nat := c_size (h_t h) * c_size (h_s h).
  Definition h_rank (h : hinfo K) : nat := match h_data h with DLow L => lrank L | _ => 0 end.
  (** max, min and sum of one loop, lines 154-179; [m0]: the initial value of the minimum. *)
  Definition stat (m0 : nat) (f : hinfo K -> nat) (l : list (hinfo K)) : nat * nat * nat :=
    fold_left (fun (st : nat * nat * nat) h => let '(a, i, s) := st in (Nat.max a (f h), Nat.min i (f h), s + f h)) l (0, m0, 0).
  Definition mean (s : nat) (l : list (hinfo K)) : Q := match l with [] => 0%Q | _ => (qn s / qn (length l))%Q end.
  (** number_of_generated_coefficient, lines 153, 165, 174-178. *)
  Definition generated_low (l : list (hinfo K)) : Q :=
    fold_left (fun s h => (s + qn (h_rank h) * (qn (c_size (h_t h)) + qn (c_size (h_s h))))%Q) l 0%Q.
  Definition generated (dense low : list (hinfo K)) : Q :=
    fold_left (fun s h => (s + (match h_sym h with SyN => qn (c_size (h_t h)) * qn (c_size (h_s h)) | _ => qn (c_size (h_t h)) * (qn (c_size (h_s h)) + 1) / 2 end))%Q)
      dense (generated_low low).
  (** get_hmatrix_information, lines 134-213. *)
  Definition hmatrix_information (A : hmat) : option infos :=
    let nr := c_size (h_t (rt_val A)) in
    let nc := c_size (h_s (rt_val A)) in
    do bs <- get_blocks A;
    let '(dense, low) := bs in
    let m0 := Nat.max nc nr in
    let '(lmax, lmin, lsum) := stat m0 h_size low in
    let '(rmax, rmin, rsum) := stat m0 h_rank low in
    let '(dmax, dmin, dsum) := stat m0 h_size dense in
    let none (l : list (hinfo K)) m := match l with [] => 0 | _ => m end in
    let gen := generated dense low in
    Some (mkInfos nr nc dmax (mean dsum dense) (none dense dmin) lmax (mean lsum low) (none low lmin) rmax (mean rsum low) (none low rmin)
            (length low) (length dense) (qn (umul nr nc) / gen)%Q (1 - gen / qn (umul nr nc))%Q).
End Info.
