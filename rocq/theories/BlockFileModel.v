(** * Files of blocks.

    Source: hmatrix/hmatrix_output.hpp 23-85, hmatrix/hmatrix.hpp 142-144, basic_types/tree.hpp 35-56.  The text written to a
    file is a list of characters; the failure to open a file is not modelled.  No proofs in this file. *)

From Coq Require Import Ascii String List Arith Bool ZArith.
From Verif Require Import ClusterModel IOModel IOSpec BlockModel Algebra BlasModel HMatModel DistModel InfoModel.
Import ListNotations.
Local Open Scope string_scope.
Local Open Scope list_scope.
Local Open Scope nat_scope.

(** struct DisplayBlock<int>, lines 23-30. *)
Record display : Type := mkDisplay { dp_toff : Z; dp_soff : Z; dp_tsize : Z; dp_ssize : Z; dp_value : Z }.

(** operator<<, lines 32-36: target offset, target size, source offset, source size, value. *)
Definition display_text (d : display) : str :=
  print_Z (dp_toff d) ++ [","%char] ++ print_Z (dp_tsize d) ++ [","%char] ++ print_Z (dp_soff d) ++ [","%char] ++
  print_Z (dp_ssize d) ++ [","%char] ++ print_Z (dp_value d).

Section F.
  Variable K : Coef.
  Notation hmat := (rtree (hinfo K)).

  (** get_rank, hmatrix.hpp 142-144. *)
  Definition get_rank (h : hinfo K) : Z := match h_data h with DLow L => Z.of_nat (lrank L) | _ => (-1)%Z end.

  (** The block that is pushed, lines 47 and 70, relative to the offsets of the root [r]. *)
  Definition display_of (r h : hinfo K) : display :=
    mkDisplay (Z.of_nat (c_off (h_t h)) - Z.of_nat (c_off (h_t r))) (Z.of_nat (c_off (h_s h)) - Z.of_nat (c_off (h_s r)))
      (Z.of_nat (c_size (h_t h))) (Z.of_nat (c_size (h_s h))) (get_rank h).

  (** The first line of the files, lines 51-52 and 76-77. *)
  Definition header_text (r : hinfo K) : str := print_nat (c_size (h_t r)) ++ [","%char] ++ print_nat (c_size (h_s r)) ++ [newline].
  Definition blocks_text (l : list display) : str := fold_left (fun out b => out ++ display_text b ++ [newline]) l [].

  (** save_leaves_with_rank, lines 38-57: the name and the content of the file. *)
  Definition save_leaves_with_rank (A : hmat) (filename : str) : option (str * str) :=
    do l <- preorder_run (length (preorder A)) [A] [];
    let blocks := fold_left (fun out h => if is_leaf K h then out ++ [display_of (rt_val A) (rt_val h)] else out) l [] in
    Some (filename ++ list_ascii_of_string ".csv", header_text (rt_val A) ++ blocks_text blocks).

  (** get_depth (tree.hpp 56): the depth is stored in the node; add_child (lines 37-43) sets it to one more than that of the
      parent, assign_children (lines 50-54, used by reset_root_of_block_tree) leaves it as it was.  A node is paired with it. *)
  Notation dmat := (rtree (hinfo K * nat)).
  (** std::find of an unsigned int in a vector of int, line 66: the int is converted to unsigned; index of the first one. *)
  Fixpoint find_depth (d : nat) (depths : list Z) : option nat :=
    match depths with
    | [] => None
    | e :: l => if (e mod 4294967296 =? Z.of_nat d)%Z then Some 0 else option_map S (find_depth d l)
    end.
  Fixpoint push_at (n : nat) (b : display) (l : list (list display)) : list (list display) :=
    match l, n with
    | [], _ => []
    | x :: l', 0 => (x ++ [b]) :: l'
    | x :: l', S n' => x :: push_at n' b l'
    end.
  (** save_levels, lines 59-85: the names and the contents of the files. *)
  Definition save_levels (A : dmat) (filename : str) (depths : list Z) : option (list (str * str)) :=
    do l <- preorder_run (length (preorder A)) [A] [];
    let r := fst (rt_val A) in
    let blocks := fold_left (fun out h =>
      match find_depth (snd (rt_val h)) depths with
      | Some index => push_at index (display_of r (fst (rt_val h))) out
      | None => out
      end) l (repeat [] (length depths)) in
    Some (map (fun p => (filename ++ print_nat p ++ list_ascii_of_string ".csv", header_text r ++ blocks_text (nth p blocks []) ++ [newline]))
      (seq 0 (length depths))).
End F.
