(** * Model of tree traversals, text and binary input/output.

    Source: basic_types/tree.hpp, misc/user.hpp, basic_types/vector.hpp, matrix/matrix.hpp,
    clustering/cluster_output.hpp.  No proofs in this file. *)

From Coq Require Import Ascii String.
From Coq Require Import List Arith ZArith Bool.
From Verif Require Import ClusterModel.
Import ListNotations.
Open Scope list_scope.

(** ** Trees and traversals (basic_types/tree.hpp) *)

(** A node with a payload and its children (tree.hpp 21-27). *)
Inductive rtree (A : Type) : Type := RNode : A -> list (rtree A) -> rtree A.
Arguments RNode {A} _ _.
Definition rt_val {A} (t : rtree A) : A := match t with RNode a _ => a end.
Definition rt_children {A} (t : rtree A) : list (rtree A) := match t with RNode _ ts => ts end.

(** tree.hpp 64-79: preorder_tree_traversal.  The head of the list is the top of the stack; children are pushed in
    reverse order, so the first child ends on top.  The result is the sequence of nodes the visitor was applied to;
    [None]: fuel exhausted. *)
Fixpoint preorder_run {A} (fuel : nat) (stack : list (rtree A)) (visited : list (rtree A)) : option (list (rtree A)) :=
  match stack with
  | [] => Some visited
  | t :: stack' =>
      match fuel with
      | 0 => None
      | S f => preorder_run f (fold_left (fun st c => c :: st) (rev (rt_children t)) stack') (visited ++ [t])
      end
  end.

(** tree.hpp 81-88: postorder_tree_traversal, the sequence of nodes the visitor is applied to. *)
Fixpoint postorder_visits {A} (t : rtree A) : list (rtree A) :=
  match t with
  | RNode a ts => concat (map postorder_visits ts) ++ [RNode a ts]
  end.

(** ** Strings (misc/user.hpp) *)

Notation str := (list ascii).

(** std::string::find of a non-empty or empty pattern at the beginning: does [s] start with [p]? *)
Fixpoint is_prefix (p s : str) : bool :=
  match p, s with
  | [], _ => true
  | a :: p', b :: s' => Ascii.eqb a b && is_prefix p' s'
  | _ :: _, [] => false
  end.

(** line.find(delim): position of the first occurrence. *)
Fixpoint find_sub (p s : str) : option nat :=
  if is_prefix p s then Some 0
  else match s with
       | [] => None
       | _ :: s' => option_map S (find_sub p s')
       end.

(** user.hpp 30-42: split.  [None]: fuel exhausted (the loop does not end for an empty delimiter). *)
Fixpoint split_fuel (fuel : nat) (line delim : str) (elems : list str) : option (list str) :=
  match find_sub delim line with
  | None => Some (elems ++ [line])
  | Some pos =>
      match fuel with
      | 0 => None
      | S f => split_fuel f (skipn (pos + length delim) line) delim (elems ++ [firstn pos line])
      end
  end.
Definition split (line delim : str) : option (list str) := split_fuel (S (length line)) line delim [].

(** user.hpp 44-46: join, the accumulator starts empty and the delimiter is added only when it is not. *)
Definition join (delim : str) (x : list str) : str :=
  fold_left (fun ss s => match ss with [] => s | _ => ss ++ delim ++ s end) x [].

(** Printing of a non-negative int by operator<< and of an int (user.hpp 13-18). *)
Definition digit (n : nat) : ascii := ascii_of_nat (48 + n).
Fixpoint print_nat_fuel (fuel n : nat) : str :=
  match fuel with
  | 0 => []
  | S f => if n <? 10 then [digit n] else print_nat_fuel f (n / 10) ++ [digit (n mod 10)]
  end.
Definition print_nat (n : nat) : str := print_nat_fuel (S n) n.
Definition print_Z (z : Z) : str :=
  if (z <? 0)%Z then "-"%char :: print_nat (Z.to_nat (- z)) else print_nat (Z.to_nat z).

(** std::stoi on a string without leading blanks: optional sign, then the longest run of digits; [None] when there is
    no digit (std::invalid_argument).  std::out_of_range is not modelled. *)
Definition digit_of (c : ascii) : option nat :=
  let n := nat_of_ascii c in
  if (48 <=? n) && (n <=? 57) then Some (n - 48) else None.
Fixpoint parse_digits (s : str) (acc : nat) : nat :=
  match s with
  | [] => acc
  | c :: s' => match digit_of c with Some d => parse_digits s' (10 * acc + d) | None => acc end
  end.
Definition parse_nat (s : str) : option nat :=
  match s with
  | c :: _ => match digit_of c with Some _ => Some (parse_digits s 0) | None => None end
  | [] => None
  end.
Definition stoi (s : str) : option Z :=
  match s with
  | c :: s' =>
      if Ascii.eqb c "-"%char then option_map (fun n => (- Z.of_nat n)%Z) (parse_nat s')
      else option_map Z.of_nat (parse_nat s)
  | [] => None
  end.
(** stoi used for a value stored in a non-negative variable. *)
Definition stoi_nat (s : str) : option nat := option_map Z.to_nat (stoi s).

(** ** Binary files (basic_types/vector.hpp 127-160, matrix/matrix.hpp 634-678) *)

(** Bytes are numbers below 256.  An [int] is 4 bytes, little endian. *)
Definition byte := Z.
Definition int_bytes (x : Z) : list byte :=
  let u := (x mod 2 ^ 32)%Z in
  [(u mod 256)%Z; (u / 256 mod 256)%Z; (u / 65536 mod 256)%Z; (u / 16777216 mod 256)%Z].
Definition bytes_int (b : list byte) : Z :=
  match b with
  | [b0; b1; b2; b3] =>
      let u := (b0 + 256 * b1 + 65536 * b2 + 16777216 * b3)%Z in
      if (u <? 2 ^ 31)%Z then u else (u - 2 ^ 32)%Z
  | _ => 0%Z
  end.

(** istream::read into a buffer: the bytes available overwrite the beginning of the buffer, the rest is left as it
    was (no error is reported by the callers).  Returns the buffer and the remaining bytes of the file. *)
Definition read_into (buf file : list byte) : list byte * list byte :=
  (firstn (length buf) file ++ skipn (length file) buf, skipn (length buf) file).

Section Bytes.
  Variable A : Type.
  Variable w : nat.                       (** sizeof(T) *)
  Variable enc : A -> list byte.          (** object representation *)
  Variable dec : list byte -> A.

  Fixpoint dec_all (k : nat) (b : list byte) : list A :=
    match k with 0 => [] | S k' => dec (firstn w b) :: dec_all k' (skipn w b) end.

  (** vector.hpp 128-141: the int [size] is the length of the vector converted to int; [size * sizeof(T)] bytes
      are written. *)
  Definition vector_to_bytes (v : list A) : list byte :=
    int_bytes (Z.of_nat (length v)) ++ concat (map enc v).

  (** vector.hpp 144-160; [fill] is the byte content given by resize to new elements (value-initialised).
      A negative size makes resize throw: [None]. The returned status is always 0 once the file is open. *)
  Definition bytes_to_vector (fill : byte) (file : list byte) : option (list A) :=
    let '(h, rest) := read_into [0; 0; 0; 0]%Z file in
    let size := bytes_int h in
    if (size <? 0)%Z then None
    else
      let k := Z.to_nat size in
      let '(b, _) := read_into (repeat fill (k * w)) rest in
      Some (dec_all k b).

  (** matrix.hpp 634-648; the matrix is given by its numbers of rows and columns and its column-major data. *)
  Definition matrix_to_bytes (rows cols : nat) (data : list A) : list byte :=
    int_bytes (Z.of_nat rows) ++ int_bytes (Z.of_nat cols) ++ concat (map enc data).

  (** matrix.hpp 655-678; [rows * cols] is an int product: overflow is undefined, [None]; [fill] stands for the
      indeterminate content of the new array. *)
  Definition bytes_to_matrix (fill : byte) (file : list byte) : option (nat * nat * list A) :=
    let '(h1, rest1) := read_into [0; 0; 0; 0]%Z file in
    let '(h2, rest2) := read_into [0; 0; 0; 0]%Z rest1 in
    let rows := bytes_int h1 in
    let cols := bytes_int h2 in
    if ((rows <? 0) || (cols <? 0) || (2 ^ 31 <=? rows * cols))%Z then None
    else
      let k := Z.to_nat (rows * cols) in
      let '(b, _) := read_into (repeat fill (k * w)) rest2 in
      Some (Z.to_nat rows, Z.to_nat cols, dec_all k b).
End Bytes.

(** ** Saving and reading a cluster tree (clustering/cluster_output.hpp) *)

Section ClusterIO.
  Variable R : Type.              (** coordinates *)
  Variable fmt : R -> str.        (** operator<< on a coordinate *)
  Variable prs : str -> R.        (** StrToNbr<CoordinatesPrecision> *)

  (** Data of a cluster node that is saved (cluster_output.hpp 62-71). *)
  Record inode : Type := mkInode {
    in_rank : Z; in_off : nat; in_size : nat; in_counter : nat; in_radius : R; in_center : list R }.

  Definition itree := rtree inode.

  (** cluster_output.hpp 62-73: the text of one node at depth [d]; [dp] is the depth of the partition
      (is_cluster_on_partition, cluster_node.hpp 82-84). *)
  Definition node_fields (dp d : nat) (t : itree) : list str :=
    let n := rt_val t in
    [print_nat (length (rt_children t)); print_Z (in_rank n); print_nat (in_off n); print_nat (in_size n);
     fmt (in_radius n); print_nat (in_counter n); print_nat (if d =? dp then 1 else 0)]
    ++ map fmt (in_center n).
  Definition node_text (dp d : nat) (t : itree) : str := join ["|"%char] (node_fields dp d t).

  (** Preorder with depths (the traversal of tree.hpp 64-79, see theorem C13). *)
  Fixpoint preorder_depth (d : nat) (t : itree) : list (nat * itree) :=
    match t with RNode a ts => (d, RNode a ts) :: concat (map (preorder_depth (S d)) ts) end.

  (** outputs[depth].push_back(infos), cluster_output.hpp 75; [None]: depth beyond get_maximal_depth(). *)
  Definition push_level (outs : list (list str)) (d : nat) (s : str) : option (list (list str)) :=
    match nth_error outs d with
    | Some l => Some (list_set outs d (l ++ [s]))
    | None => None
    end.
  Fixpoint push_all (dp : nat) (outs : list (list str)) (l : list (nat * itree)) : option (list (list str)) :=
    match l with
    | [] => Some outs
    | (d, t) :: l' =>
        match push_level outs d (node_text dp d t) with
        | Some outs' => push_all dp outs' l'
        | None => None
        end
    end.

  (** cluster_output.hpp 78-87: the lines of the file. *)
  Fixpoint commas (l : list str) : str :=
    match l with
    | [] => []
    | [s] => s
    | s :: l' => s ++ ","%char :: commas l'
    end.
  Definition newline : ascii := ascii_of_nat 10.
  Definition lines_text (ls : list str) : str := concat (map (fun l => l ++ [newline]) ls).

  (** save_cluster_tree, file _cluster_tree.csv (cluster_output.hpp 55-87). *)
  Definition save_tree (dp maxd : nat) (t : itree) : option str :=
    match push_all dp (repeat [] (S maxd)) (preorder_depth 0 t) with
    | Some outs => Some (lines_text (map commas outs))
    | None => None
    end.

  (** std::getline until the end of the file: a last line without end-of-line character is returned if it is not
      empty. *)
  Fixpoint getlines (s : str) (cur : str) : list str :=
    match s with
    | [] => match cur with [] => [] | _ => [cur] end
    | c :: s' => if Ascii.eqb c newline then cur :: getlines s' [] else getlines s' (cur ++ [c])
    end.

  (** split of all lines, cluster_output.hpp 102-104. *)
  Fixpoint split_lines (ls : list str) : option (list (list str)) :=
    match ls with
    | [] => Some []
    | l :: ls' =>
        match split l [","%char], split_lines ls' with
        | Some x, Some xs => Some (x :: xs)
        | _, _ => None
        end
    end.

  (** Parsing of one node: number of children, node and is_on_partition (cluster_output.hpp 110-121, 163-173).
      [dim]: spatial dimension; the counter is read as a coordinate and converted to int, which is exact for the
      values a counter takes (below 2^24 for float), so that it is modelled by stoi. *)
  Definition parse_node (dim : nat) (s : str) : option (nat * inode * bool) :=
    match split s ["|"%char] with
    | None => None
    | Some f =>
        match nth_error f 0, nth_error f 1, nth_error f 2, nth_error f 3, nth_error f 4, nth_error f 5, nth_error f 6 with
        | Some f0, Some f1, Some f2, Some f3, Some f4, Some f5, Some f6 =>
            match stoi_nat f0, stoi f1, stoi_nat f2, stoi_nat f3, stoi_nat f5, stoi_nat f6 with
            | Some nch, Some rk, Some off, Some sz, Some cnt, Some onp =>
                if 7 + dim <=? length f
                then Some (nch, mkInode rk off sz cnt (prs f4) (map prs (firstn dim (skipn 7 f))), negb (onp =? 0))
                else None
            | _, _, _, _, _, _ => None
            end
        | _, _, _, _, _, _, _ => None
        end
    end.

  (** State of the reader: counter_offset and the partition vector. *)
  Record rstate : Type := mkRstate { rs_co : list nat; rs_pv : list (option inode) }.

  (** Child constructor with is_on_partition (cluster_node.hpp 36-41). *)
  Definition pv_write_i (pv : list (option inode)) (r : Z) (n : inode) : option (list (option inode)) :=
    if (r <? 0)%Z then None
    else
      let k := Z.to_nat r in
      let pv' := if length pv <? k + 1 then pv ++ repeat None (k + 1 - length pv) else pv in
      Some (list_set pv' k (Some n)).

  (** cluster_output.hpp 161-175: the children of the current node. *)
  Fixpoint read_children (levels : list (list str)) (dim : nat) (d : nat) (co : list nat)
    (p nch : nat) (pv : list (option inode)) : option (list (nat * inode) * list (option inode)) :=
    match nch with
    | 0 => Some ([], pv)
    | S nch' =>
        match nth_error levels (S d), nth_error co (S d) with
        | Some lv, Some o =>
            match nth_error lv (o + p) with
            | Some s =>
                match parse_node dim s with
                | Some (k, n, onp) =>
                    match (if onp then pv_write_i pv (in_rank n) n else Some pv) with
                    | Some pv' =>
                        match read_children levels dim d co (S p) nch' pv' with
                        | Some (l, pv'') => Some ((k, n) :: l, pv'')
                        | None => None
                        end
                    | None => None
                    end
                | None => None
                end
            | None => None
            end
        | _, _ => None
        end
    end.

  (** cluster_output.hpp 151-185: the loop over the stack.  Children are pushed in reverse order, hence nodes are
      processed in preorder; written as a recursion over that order. *)
  Fixpoint read_node (fuel : nat) (levels : list (list str)) (dim d : nat) (nch : nat) (n : inode) (st : rstate)
    : option (itree * rstate) :=
    match fuel with
    | 0 => None
    | S f =>
        match read_children levels dim d (rs_co st) 0 nch (rs_pv st) with
        | None => None
        | Some (kids, pv') =>
            let co' := match nch with
                       | 0 => rs_co st
                       | _ => list_set (rs_co st) (S d) (nth (S d) (rs_co st) 0 + nch)
                       end in
            match (fix go (ks : list (nat * inode)) (st : rstate) : option (list itree * rstate) :=
                     match ks with
                     | [] => Some ([], st)
                     | (k, m) :: ks' =>
                         match read_node f levels dim (S d) k m st with
                         | None => None
                         | Some (t, st1) =>
                             match go ks' st1 with
                             | None => None
                             | Some (ts, st2) => Some (t :: ts, st2)
                             end
                         end
                     end) kids (mkRstate co' pv') with
            | None => None
            | Some (ts, st') => Some (RNode n ts, st')
            end
        end
    end.

  Fixpoint read_nodes (f : nat) (levels : list (list str)) (dim d : nat) (ks : list (nat * inode)) (st : rstate)
    : option (list itree * rstate) :=
    match ks with
    | [] => Some ([], st)
    | (k, m) :: ks' =>
        match read_node f levels dim d k m st with
        | None => None
        | Some (t, st1) =>
            match read_nodes f levels dim d ks' st1 with
            | None => None
            | Some (ts, st2) => Some (t :: ts, st2)
            end
        end
    end.

  (** read_cluster_tree (cluster_output.hpp 91-187), the tree file.  The counter of the root is not restored: the root
      constructor sets it to 0 (cluster_node.hpp 28). *)
  Definition read_tree (fuel : nat) (text : str) : option (itree * list (option inode)) :=
    match split_lines (getlines text []) with
    | None => None
    | Some levels =>
        match nth_error levels 0 with
        | Some (s :: _) =>
            match split s ["|"%char] with
            | Some f =>
                let dim := length f - 7 in
                match parse_node dim s with
                | Some (nch, n, _) =>
                    let root := mkInode (in_rank n) (in_off n) (in_size n) 0 (in_radius n) (in_center n) in
                    match read_node fuel levels dim 0 nch root (mkRstate (repeat 0 (length levels)) []) with
                    | Some (t, st) => Some (t, rs_pv st)
                    | None => None
                    end
                | None => None
                end
            | None => None
            end
        | _ => None
        end
    end.
End ClusterIO.

(** ** The properties file (cluster_output.hpp 36-53, 129-148) *)

(** The labels written before the values (cluster_output.hpp 37-40, 52). *)
Definition lab1 : str := list_ascii_of_string "minclustersize: ".
Definition lab2 : str := list_ascii_of_string "maximal depth: ".
Definition lab3 : str := list_ascii_of_string "minimal depth: ".
Definition lab4 : str := list_ascii_of_string "permutation: ".
Definition lab5 : str := list_ascii_of_string "local permutation: ".

Section PropertiesFile.
  Definition save_properties (minsize maxd mind : nat) (perm : list nat) (loc : bool) : str :=
    lab1 ++ print_nat minsize ++ [newline] ++
    lab2 ++ print_nat maxd ++ [newline] ++
    lab3 ++ print_nat mind ++ [newline] ++
    lab4 ++ (match perm with [] => [] | _ => commas (map print_nat perm) ++ [newline] end) ++
    lab5 ++ print_nat (if loc then 1 else 0) ++ [newline].

  Definition space : ascii := ascii_of_nat 32.

  Fixpoint stoi_all (l : list str) : option (list nat) :=
    match l with
    | [] => Some []
    | s :: l' => match stoi_nat s, stoi_all l' with Some x, Some xs => Some (x :: xs) | _, _ => None end
    end.

  (** split(line," ").back() *)
  Definition last_field (l : str) : option str :=
    match split l [space] with Some x => Some (last x []) | None => None end.

  (** [size]: size of the root read in the tree file, which is the length of the permutation array; a longer list is
      an access out of range, a shorter one leaves the end of the identity permutation. *)
  Definition read_properties (size : nat) (text : str) : option (nat * nat * nat * list nat * bool) :=
    match getlines text [] with
    | l1 :: l2 :: l3 :: l4 :: l5 :: _ =>
        match last_field l1, last_field l2, last_field l3, last_field l4, last_field l5 with
        | Some f1, Some f2, Some f3, Some f4, Some f5 =>
            match stoi_nat f1, stoi_nat f2, stoi_nat f3, split f4 [","%char], stoi_nat f5 with
            | Some a, Some b, Some c, Some toks, Some e =>
                match stoi_all toks with
                | Some vals =>
                    if length vals <=? size
                    then Some (a, b, c, vals ++ skipn (length vals) (seq 0 size), negb (e =? 0))
                    else None
                | None => None
                end
            | _, _, _, _, _ => None
            end
        | _, _, _, _, _ => None
        end
    | _ => None
    end.
End PropertiesFile.
