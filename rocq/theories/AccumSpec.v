(** * Specification vocabulary for the truncation errors of a product of hierarchical matrices. *)

From Coq Require Import List Arith ZArith Bool Reals.
From Verif Require Import ClusterModel ClusterSpec IOModel IOSpec BlockModel BlockSpec Algebra BlasModel HMatModel HMatSpec ArithModel ArithSpec RealNum CompReal.
Import ListNotations.

Section S.
  Variable K : Coef.
  Notation C := (car K).
  Notation hmat := (rtree (hinfo K)).

  (** ** Truncations *)
  (** The truncation of a matrix on the block of the clusters t and s: a dense matrix to which the truncated SVD is applied or a
      low-rank matrix that is recompressed. *)
  Record event := mkEvent { ev_t : ctree; ev_s : ctree; ev_matrix : mat K + lrm K }.
  (** The entries of the matrix (numbered from 0) and the low-rank matrix that replaces it. *)
  Definition ev_before (e : event) (a b : nat) : C := match ev_matrix e with inl A => me A a b | inr L => lr_entry L a b end.

  Variable rc : lrm K -> lrm K.      (** recompression *)
  Variable sv : mat K -> lrm K.      (** truncated SVD *)
  Definition ev_after (e : event) : lrm K := match ev_matrix e with inl A => sv A | inr L => rc L end.
  (** The change that the truncation makes at (i,j) (global numbering). *)
  Definition ev_error (e : event) (i j : nat) : C :=
    if in_iv i (interval (ev_t e)) && in_iv j (interval (ev_s e))
    then csub K (lr_entry (ev_after e) (i - c_off (ev_t e)) (j - c_off (ev_s e))) (ev_before e (i - c_off (ev_t e)) (j - c_off (ev_s e)))
    else c0 K.
  Definition errors (es : list event) (i j : nat) : C := lsum es (fun e => ev_error e i j).
  (** The matrix has the size of its block, and rank at least 1 if it is a low-rank one; the block lies in that of T and S. *)
  Definition ev_ok (e : event) : Prop :=
    1 <= c_size (ev_t e) /\ 1 <= c_size (ev_s e) /\
    match ev_matrix e with
    | inl A => wf_mat A (c_size (ev_t e)) (c_size (ev_s e))
    | inr L => wf_lrm L (c_size (ev_t e)) (c_size (ev_s e)) /\ 1 <= lrank L
    end.
  Definition ev_inside (T S : ctree) (e : event) : Prop := contains T (ev_t e) = true /\ contains S (ev_s e) = true.
  Definition good (T S : ctree) (es : list event) : Prop := Forall (fun e => ev_ok e /\ ev_inside T S e) es.

  (** Truncations that may lose anything, but give factors of the right sizes and at least one column. *)
  Definition keeps_size : Prop := forall L r c, 1 <= r -> 1 <= c -> wf_lrm L r c -> 1 <= lrank L -> wf_lrm (rc L) r c /\ 1 <= lrank (rc L).
  Definition svd_keeps_size : Prop := forall A r c, 1 <= r -> 1 <= c -> wf_mat A r c -> wf_lrm (sv A) r c /\ 1 <= lrank (sv A).

  (** ** Sizes *)
  Variable md : C -> R.
  Local Open Scope R_scope.
  (** Sum of the absolute values of the errors at (i,j). *)
  Fixpoint abs_errors (es : list event) (i j : nat) : R :=
    match es with [] => 0 | e :: es' => md (ev_error e i j) + abs_errors es' i j end.
  (** The matrices truncated are bounded, entry by entry, by N and the errors made before. *)
  Fixpoint chronicle (N : nat -> nat -> R) (es : list event) : Prop :=
    match es with
    | [] => True
    | e :: es' =>
        (forall a b, (a < c_size (ev_t e))%nat -> (b < c_size (ev_s e))%nat -> md (ev_before e a b) <= N (c_off (ev_t e) + a)%nat (c_off (ev_s e) + b)%nat) /\
        chronicle (fun i j => N i j + md (ev_error e i j)) es'
    end.
  (** |alpha| sum of |op(A)| |op(B)| over the indices of a cluster. *)
  Definition abs_product (ta tb : trans) (alpha : C) (MA MB : nat -> nat -> C) (m : ctree) (i j : nat) : R :=
    md alpha * csum (K := Rc) m (fun x => md (op_fun ta MA i x) * md (op_fun tb MB x j)).
  (** Every entry stored in the leaves is bounded by N. *)
  Inductive bounded (N : nat -> nat -> R) : hmat -> Prop :=
  | bounded_leaf : forall i, (forall a b, (a < c_size (h_t i))%nat -> (b < c_size (h_s i))%nat -> md (stored i a b) <= N (c_off (h_t i) + a)%nat (c_off (h_s i) + b)%nat) ->
      bounded N (RNode i [])
  | bounded_node : forall i cs, h_data i = DNone -> (forall c, In c cs -> bounded N c) -> bounded N (RNode i cs).
End S.
Arguments mkEvent {K} ev_t ev_s ev_matrix.
Arguments ev_t {K} e.
Arguments ev_s {K} e.
Arguments ev_matrix {K} e.
Arguments ev_before {K} e a b.
Arguments ev_ok {K} e.
Arguments ev_inside {K} T S e.
Arguments good {K} T S es.
Arguments keeps_size {K} rc.
Arguments svd_keeps_size {K} sv.
Arguments ev_after {K} rc sv e.
Arguments ev_error {K} rc sv e i j.
Arguments errors {K} rc sv es i j.
Arguments abs_errors {K} rc sv md es i j.
Arguments chronicle {K} rc sv md N es.
Arguments abs_product {K} md ta tb alpha MA MB m i j.
Arguments bounded {K} md N _.

(** ** Number of truncations *)
(** At most two for each product that involves a leaf of A or B, plus one for each leaf of C there ([leaves]); one for each block
    assembled from the products of its parts. *)
Fixpoint truncations {K : Coef} (leaves fuel : nat) (ta tb : trans) (A B : rtree (hinfo K)) : nat :=
  match fuel with
  | 0 => 0
  | S f =>
      match h_data (rt_val A), h_data (rt_val B) with
      | DNone, DNone =>
          list_sum (map (fun oi => S (list_sum (map (fun m =>
            match (if is_N ta then sub K A (fst oi) m else sub K A m (fst oi)), (if is_N tb then sub K B m (snd oi) else sub K B (snd oi) m) with
            | Some Ac, Some Bc => truncations leaves f ta tb Ac Bc
            | _, _ => 0
            end) (ckids (mid_of K ta A))))) (list_prod (ckids (out_of K ta A)) (ckids (mid_of K tb B))))
      | _, _ => 2 + leaves
      end
  end.

(** Number of low-rank leaves. *)
Fixpoint low_leaves {K : Coef} (A : rtree (hinfo K)) : nat :=
  match A with RNode i cs => (match h_data i with DLow _ => 1 | _ => 0 end) + list_sum (map low_leaves cs) end.

(** Number of nodes. *)
Definition nodes {K : Coef} (A : rtree (hinfo K)) : nat := length (preorder A).

(** Frobenius norm of a nonnegative real function over the block of T and S (global numbering). *)
Definition rnorm (T S : ctree) (N : nat -> nat -> R) : R :=
  sqrt (rsum (c_size T) (fun a => rsum (c_size S) (fun b => N (c_off T + a)%nat (c_off S + b)%nat * N (c_off T + a)%nat (c_off S + b)%nat)%R)).
