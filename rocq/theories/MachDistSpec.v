(** * Specification vocabulary for the machine integers of the distributed products. *)
From Coq Require Import ZArith.
(** The number is a value of the type [int]. *)
Definition fits (n : nat) : Prop := (Z.of_nat n < 2 ^ 31)%Z.
