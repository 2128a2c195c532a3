(** * Specification vocabulary for the domain decomposition functions. *)

From Coq Require Import List Arith Bool.
From Verif Require Import ClusterModel ClusterSpec Algebra BlasModel HMatModel DistModel.
Import ListNotations.

(** The points of [0,n) that are not in the list, in increasing order. *)
Definition others (l : list nat) (n : nat) : list nat := filter (fun k => negb (existsb (Nat.eqb k) l)) (seq 0 n).

(** A strict weak ordering: the contract of the comparison given to std::sort. *)
Record strict_weak {A : Type} (lt : A -> A -> bool) : Prop := {
  sw_irrefl : forall a, lt a a = false;
  sw_cotrans : forall a b c, lt a c = true -> lt a b = true \/ lt b c = true;
  sw_asym : forall a b, lt a b = true -> lt b a = false
}.
(** The result of std::sort: no element is before a smaller one (for the comparison). *)
Definition sorted_by {A : Type} (comp : A -> A -> bool) (l : list A) : Prop :=
  forall i j a b, i < j -> nth_error l i = Some a -> nth_error l j = Some b -> comp b a = false.

Section Coarse.
  Variable K : Coef.
  Notation C := (car K).
  Notation buf := (list C).

  (** A coarse vector of the process that owns [o, o+s), extended by zero to a global vector (partition numbering). *)
  Definition extended (v : nat * nat * buf) (p : nat) : C :=
    let '(o, s, z) := v in if (o <=? p) && (p <? o + s) then get z (p - o) else c0 K.
  (** The coarse vectors of all the processes, in the order of the ranks. *)
  Definition all_vectors (parts : list (nat * nat)) (zs : nat -> list buf) : list (nat * nat * buf) :=
    concat (map (fun r => map (fun z => (nth r parts (0, 0), z)) (zs r)) (seq 0 (length parts))).
  (** x^T M y *)
  Definition form (N : nat) (M : nat -> nat -> C) (x y : nat -> C) : C :=
    sum N (fun p => sum N (fun q => cmul K (cmul K (x p) (M p q)) (y q))).

  (** The local operators of every process compute the rows of the process of the product of A by a matrix whose rows
      outside part i are zero. *)
  Definition sub_products (parts : list (nat * nat)) (A : nat -> nat -> C)
      (subs : nat -> list (buf -> buf -> nat -> nat -> nat -> option buf)) : Prop :=
    forall r o s i oi si mu x y, nth_error parts r = Some (o, s) -> nth_error parts i = Some (oi, si) -> 1 <= mu ->
      si * mu <= length x -> s * mu <= length y -> (forall p, p < s * mu -> get y p = c0 K) ->
      exists y', fold_opt K (fun f a => f x a mu oi si) (subs r) y = Some y' /\ length y' = length y /\
        forall k c, k < s -> c < mu -> get y' (k * mu + c) = sum si (fun l => cmul K (A (o + k) (oi + l)) (get x (l * mu + c))).
End Coarse.
Arguments extended {K} v p.
Arguments all_vectors {K} parts zs.
Arguments form {K} N M x y.
Arguments sub_products {K} parts A subs.
