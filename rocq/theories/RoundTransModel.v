(** * The distributed product by the transpose with rounded local products and a rounded sum over the processes.

    Source: distributed_operator/distributed_operator.hpp 212-252, 529-541.  MPI_Allreduce with MPI_SUM may add the contributions in any order: it is a function [red] of
    the receiver, of the position and of the contributions.  No proofs in this file. *)

From Coq Require Import List Arith Bool Reals.
From Verif Require Import ClusterModel IOModel BlockModel Algebra BlasModel HMatModel RealNum DistModel DistLink RoundModel RoundSpec RoundDistModel.
Import ListNotations.

Section Model.
  Variable red : nat -> nat -> list R -> R.
  Variable D : dop Rc.
  Notation world := (world Rc D).
  Notation nc := (nc Rc D).
  Notation nr := (nr Rc D).
  (** MPI_Allreduce(MPI_IN_PLACE, out, n, MPI_SUM) as seen by process [r]. *)
  Definition r_allreduce (n : nat) (bs : list vec) (r : nat) : option vec :=
    if forallb (fun b => n <=? length b) bs then
      Some (mk (K := Rc) n (fun i => red r i (map (fun b => get (K := Rc) b i) bs)) ++ skipn n (at_rank Rc bs r))
    else None.
  (** internal_vector_product_transp_local_to_global, lines 529-541. *)
  Definition r_int_tvec_l2g (ins outs : list vec) : option (list vec) :=
    do parts <- on_ranks world (fun r =>
      do o <- fill0 Rc nc (at_rank Rc outs r);
      fold_opt Rc (fun v b => vl_tvec Rc v (c1 Rc) (at_rank Rc ins r) (c1 Rc) b) (ops_of Rc D r) o);
    on_ranks world (fun r => r_allreduce nc parts r).
  (** vector_product_transp_global_to_global, lines 212-252 (real coefficients: the Hermitian case is an error here). *)
  Definition r_tvec_g2g (ins outs : list vec) : option (list vec) :=
    match d_sym Rc D with
    | SyS => vec_g2g Rc D ins outs
    | SyH => None
    | _ =>
        do inputs <- on_ranks world (fun r =>
          do input <- (if d_perm Rc D then to_part Rc (d_t Rc D) (at_rank Rc ins r) (vec0 Rc nr) else Some (at_rank Rc ins r));
          do o <- part_off (d_t Rc D) r;
          ptr Rc input o);
        if d_perm Rc D then
          do os <- r_int_tvec_l2g inputs (map (fun _ => vec0 Rc nc) (seq 0 world));
          on_ranks world (fun r => to_user Rc (d_s Rc D) (at_rank Rc os r) (at_rank Rc outs r))
        else r_int_tvec_l2g inputs outs
    end.
End Model.

(** The sum is exact up to one rounding per contribution. *)
Definition accurate_sum (u : R) (red : nat -> nat -> list R -> R) : Prop :=
  forall r i l, (Rabs (red r i l - lsum (K := Rc) l (fun z => z)) <= gam u (length l) * lsum (K := Rc) l Rabs)%R.

(** A sum in any order: the contributions are the leaves of a tree of additions. *)
Inductive stree : Type := SLeaf (k : nat) | SNode (a b : stree).
Fixpoint sleaves (t : stree) : list nat := match t with SLeaf k => [k] | SNode a b => sleaves a ++ sleaves b end.
Fixpoint seval (add : R -> R -> R) (l : list R) (t : stree) : R := match t with SLeaf k => nth k l 0%R | SNode a b => add (seval add l a) (seval add l b) end.
