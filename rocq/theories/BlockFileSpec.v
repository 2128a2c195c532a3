(** * What the files of blocks say: a reader of comma-separated integers, and the rectangles. *)

From Coq Require Import Ascii List Arith Bool ZArith.
From Verif Require Import ClusterModel IOModel IOSpec BlockModel BlockSpec Algebra BlasModel HMatModel HMatSpec.
Import ListNotations.
Local Open Scope nat_scope.

(** The integers of a line. *)
Fixpoint all_ints (l : list str) : option (list Z) :=
  match l with
  | [] => Some []
  | s :: l' => match stoi s, all_ints l' with Some z, Some zs => Some (z :: zs) | _, _ => None end
  end.
Definition read_line (s : str) : option (list Z) := match split s [","%char] with Some l => all_ints l | None => None end.
Fixpoint all_lines (l : list str) : option (list (list Z)) :=
  match l with
  | [] => Some []
  | s :: l' => match read_line s, all_lines l' with Some z, Some zs => Some (z :: zs) | _, _ => None end
  end.
(** The non-empty lines of a file. *)
Definition read_csv (text : str) : option (list (list Z)) :=
  match split text [newline] with
  | Some l => all_lines (filter (fun s => match s with [] => false | _ => true end) l)
  | None => None
  end.

(** A line of a block: first row, number of rows, first column, number of columns (in the block of the root), rank or -1. *)
Definition block_line {K} (r h : hinfo K) : list Z :=
  [Z.of_nat (c_off (h_t h)) - Z.of_nat (c_off (h_t r)); Z.of_nat (c_size (h_t h));
   Z.of_nat (c_off (h_s h)) - Z.of_nat (c_off (h_s r)); Z.of_nat (c_size (h_s h));
   match h_data h with DLow L => Z.of_nat (lrank L) | _ => -1 end]%Z.
Definition first_line {K} (r : hinfo K) : list Z := [Z.of_nat (c_size (h_t r)); Z.of_nat (c_size (h_s r))].

(** The rectangle of the line contains the position (i,j) of the matrix. *)
Definition line_covers (i j : Z) (l : list Z) : bool :=
  match l with
  | [o; n; p; m; _] => ((o <=? i) && (i <? o + n) && (p <=? j) && (j <? p + m))%Z
  | _ => false
  end.

(** The leaves of the tree, in preorder. *)
Definition leaves_of {A} (t : rtree A) : list A :=
  map rt_val (filter (fun u => match rt_children u with [] => true | _ => false end) (preorder t)).

(** Every node is one deeper than its parent; the root is at depth [d]. *)
Fixpoint with_depth {A} (d : nat) (t : rtree A) : rtree (A * nat) :=
  match t with RNode a ts => RNode (a, d) (map (with_depth (S d)) ts) end.

(** [p] is the first position of its value. *)
Definition first_at (depths : list Z) (p : nat) : Prop := forall q, q < p -> nth q depths 0%Z <> nth p depths 0%Z.
