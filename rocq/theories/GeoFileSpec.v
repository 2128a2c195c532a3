(** * Reading a comma-separated table. *)

From Coq Require Import Ascii List Arith Bool ZArith.
From Verif Require Import ClusterModel IOModel.
Import ListNotations.
Local Open Scope nat_scope.

(** The cells of the lines of a file. *)
Fixpoint all_cells (l : list str) : option (list (list str)) :=
  match l with
  | [] => Some []
  | s :: l' => match split s [","%char], all_cells l' with Some z, Some zs => Some (z :: zs) | _, _ => None end
  end.
Definition read_table (text : str) : option (list (list str)) := all_cells (getlines text []).
