(** * The file of a clustered geometry.

    Source: clustering/cluster_output.hpp 189-234.  [fmt] prints a coordinate (operator<< of a double).  The failure to open the file is
    not modelled.  No proofs in this file. *)

From Coq Require Import Ascii String List Arith Bool ZArith.
From Verif Require Import ClusterModel IOModel BlockModel Algebra BlasModel HMatModel DistModel BlockFileModel.
Import ListNotations.
Local Open Scope list_scope.
Local Open Scope nat_scope.

Section G.
  Variable X : Type.
  Variable fmt : X -> str.

  (** std::fill_n; [None]: beyond the end. *)
  Definition fill_n (l : list nat) (o n x : nat) : option (list nat) :=
    if o + n <=? length l then Some (firstn o l ++ repeat x n ++ skipn (o + n) l) else None.

  (** A loop that prints the values with a comma after each but the last, lines 203-208 and 226-231. *)
  Definition print_values {V} (p : V -> str) (l : list V) : str :=
    concat (map (fun iv => p (snd iv) ++ (if fst iv =? length l - 1 then [] else [","%char])) (combine (seq 0 (length l)) l)).

  (** Lines 201-210: the coordinates [d] of the points in the order of the permutation. *)
  Definition coordinate_line (dim : nat) (x0 : list X) (perm : list nat) (d : nat) : option str :=
    do xs <- all_some (map (fun p => nth_error x0 (dim * p + d)) perm);
    Some (list_ascii_of_string "x_" ++ print_nat d ++ [","%char] ++ print_values fmt xs ++ [newline]).

  (** The visitor, lines 214-221: outputs and counters. *)
  Definition label_step (depths : list Z) (st : option (list (list nat) * list nat)) (u : ctree) : option (list (list nat) * list nat) :=
    do x <- st;
    match find_depth (ci_depth (ct_info u)) depths with
    | None => Some x
    | Some p =>
        do l <- nth_error (fst x) p;
        do c <- nth_error (snd x) p;
        do l' <- fill_n l (ci_off (ct_info u)) (ci_size (ct_info u)) c;
        Some (list_set (fst x) p l', list_set (snd x) p (c + 1))
    end.

  (** save_clustered_geometry: the name and the content of the file.  [ct_nodes t] is the order of preorder_tree_traversal (C13). *)
  Definition save_clustered_geometry (t : ctree) (perm : list nat) (dim : nat) (x0 : list X) (filename : str) (depths : list Z) : option (str * str) :=
    do cs <- all_some (map (coordinate_line dim x0 perm) (seq 0 dim));
    do st <- fold_left (label_step depths) (ct_nodes t) (Some (repeat (repeat 0 (length perm)) (length depths), repeat 0 (length depths)));
    let lines := map (fun dl => print_Z (fst dl) ++ [","%char] ++ print_values print_nat (snd dl) ++ [newline]) (combine depths (fst st)) in
    Some (filename ++ list_ascii_of_string ".csv", concat cs ++ concat lines).
End G.
