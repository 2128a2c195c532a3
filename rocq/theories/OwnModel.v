(** * Memory behaviour of Matrix<T> (matrix/matrix.hpp): who owns which buffer.  No proofs in this file.

    The heap is the list of all blocks ever allocated with new[]; a freed block is None.  Addresses are never reused: an
    access through a dangling pointer is undefined behaviour even when an allocator would recycle the address.  A pointer is
    a block and an offset.  Undefined behaviour is the outcome None.  Sizes are natural numbers (no int overflow).
    m_pivots, a std::vector, takes no part in the ownership and is left out. *)

From Coq Require Import List Arith Bool.
Import ListNotations.

Section Own.
  Variable T : Type.

  Definition pointer : Type := nat * nat.
  Definition heap : Type := list (option (list T)).

  (** The members of Matrix, matrix.hpp 24-27. *)
  Record mx : Type := mkMx { x_rows : nat; x_cols : nat; x_data : option pointer; x_own : bool }.
  Definition x_size (m : mx) : nat := x_rows m * x_cols m.

  (** [s_objs]: the Matrix objects of the program, None after destruction.  [s_user]: the blocks that the code around Matrix
      has to free itself (its own allocations and what release() returned from an owning matrix). *)
  Record state : Type := mkState { s_heap : heap; s_objs : list (option mx); s_user : list nat }.

  Fixpoint set_nth {A} (l : list A) (i : nat) (a : A) : list A :=
    match l, i with
    | [], _ => []
    | _ :: r, 0 => a :: r
    | b :: r, S k => b :: set_nth r k a
    end.
  Definition bind {A B} (o : option A) (f : A -> option B) : option B := match o with Some a => f a | None => None end.
  Notation "'let!' a := e1 'in' e2" := (bind e1 (fun a => e2)) (at level 200, a pattern, e1 at level 100, e2 at level 200).

  (** new T[n], then the initialisation (the fill_n or copy_n that follows every new in matrix.hpp, or T()). *)
  Definition new (h : heap) (buf : list T) : heap * pointer := (h ++ [Some buf], (length h, 0)).
  (** delete[] p; a null pointer is allowed, a pointer that new[] did not return or that is already freed is not. *)
  Definition delete (h : heap) (p : option pointer) : option heap :=
    match p with
    | None => Some h
    | Some (a, o) =>
        match nth_error h a with
        | Some (Some _) => if o =? 0 then Some (set_nth h a None) else None
        | _ => None
        end
    end.
  (** Reading n values from p (std::copy_n's source); nothing is read for n = 0. *)
  Definition read_n (h : heap) (p : option pointer) (n : nat) : option (list T) :=
    if n =? 0 then Some []
    else match p with
         | None => None
         | Some (a, o) =>
             match nth_error h a with
             | Some (Some buf) => if o + n <=? length buf then Some (firstn n (skipn o buf)) else None
             | _ => None
             end
         end.
  (** Writing the values v to p (std::copy_n's destination, std::fill_n, one entry); nothing is written for n = 0. *)
  Definition write_n (h : heap) (p : option pointer) (v : list T) : option heap :=
    if length v =? 0 then Some h
    else match p with
         | None => None
         | Some (a, o) =>
             match nth_error h a with
             | Some (Some buf) =>
                 if o + length v <=? length buf
                 then Some (set_nth h a (Some (firstn o buf ++ v ++ skipn (o + length v) buf))) else None
             | _ => None
             end
         end.

  (** std::copy_n(src, n, dst): the ranges must not overlap. *)
  Definition copy_n (h : heap) (src : option pointer) (n : nat) (dst : option pointer) : option heap :=
    let overlap := match src, dst with
                   | Some (a, o), Some (b, o') => (a =? b) && (o <? o' + n) && (o' <? o + n)
                   | _, _ => false
                   end in
    if overlap then None else let! v := read_n h src n in write_n h dst v.

  Definition obj (s : state) (i : nat) : option mx := match nth_error (s_objs s) i with Some (Some m) => Some m | _ => None end.
  Definition put (s : state) (h : heap) (i : nat) (m : mx) : state := mkState h (set_nth (s_objs s) i (Some m)) (s_user s).
  Definition construct (s : state) (h : heap) (m : mx) : state := mkState h (s_objs s ++ [Some m]) (s_user s).

  (** Matrix(), matrix.hpp 31. *)
  Definition op_default (s : state) : option state := Some (construct s (s_heap s) (mkMx 0 0 None true)).
  (** Matrix(nbr, nbc, value), matrix.hpp 32-35. *)
  Definition op_make (s : state) (r c : nat) (v : T) : option state :=
    let '(h, p) := new (s_heap s) (repeat v (r * c)) in Some (construct s h (mkMx r c (Some p) true)).
  (** Matrix(const Matrix&), matrix.hpp 36-40. *)
  Definition op_copy (s : state) (i : nat) : option state :=
    let! m := obj s i in
    let! v := read_n (s_heap s) (x_data m) (x_size m) in
    let '(h, p) := new (s_heap s) v in
    Some (construct s h (mkMx (x_rows m) (x_cols m) (Some p) true)).
  (** operator=(const Matrix&), matrix.hpp 41-61: object i = object j. *)
  Definition op_copy_assign (s : state) (i j : nat) : option state :=
    let! m := obj s i in
    let! n := obj s j in
    if i =? j then Some s
    else if x_size m =? x_size n then
      let! h := copy_n (s_heap s) (x_data n) (x_size m) (x_data m) in
      Some (put s h i (mkMx (x_rows n) (x_cols n) (x_data m) (x_own m)))
    else
      let! h := (if x_own m then delete (s_heap s) (x_data m) else Some (s_heap s)) in
      let! v := read_n h (x_data n) (x_size n) in
      let '(h', p) := new h v in
      Some (put s h' i (mkMx (x_rows n) (x_cols n) (Some p) true)).
  (** Matrix(Matrix&&), matrix.hpp 62-64. *)
  Definition op_move (s : state) (i : nat) : option state :=
    let! m := obj s i in
    Some (construct (put s (s_heap s) i (mkMx (x_rows m) (x_cols m) None (x_own m))) (s_heap s) m).
  (** operator=(Matrix&&), matrix.hpp 66-77. *)
  Definition op_move_assign (s : state) (i j : nat) : option state :=
    let! m := obj s i in
    let! n := obj s j in
    if i =? j then Some s
    else
      let! h := (if x_own m then delete (s_heap s) (x_data m) else Some (s_heap s)) in
      Some (put (put s h i n) h j (mkMx (x_rows n) (x_cols n) None (x_own n))).
  (** ~Matrix(), matrix.hpp 79-82. *)
  Definition op_destroy (s : state) (i : nat) : option state :=
    let! m := obj s i in
    let! h := (match x_data m with Some _ => if x_own m then delete (s_heap s) (x_data m) else Some (s_heap s) | None => Some (s_heap s) end) in
    Some (mkState h (set_nth (s_objs s) i None) (s_user s)).
  (** operator=(const T&), matrix.hpp 84-87. *)
  Definition op_fill (s : state) (i : nat) (v : T) : option state :=
    let! m := obj s i in
    if 0 <? x_size m then let! h := write_n (s_heap s) (x_data m) (repeat v (x_size m)) in Some (put s h i m) else Some s.
  Definition entry_ptr (m : mx) (j k : nat) : option pointer :=
    match x_data m with Some (a, o) => Some (a, o + (j + k * x_rows m)) | None => None end.
  (** operator()(j, k) used to read, matrix.hpp 106-108; to write, matrix.hpp 95-97. *)
  Definition op_read (s : state) (i j k : nat) : option (T * state) :=
    let! m := obj s i in
    let! v := read_n (s_heap s) (entry_ptr m j k) 1 in
    match v with a :: _ => Some (a, s) | [] => None end.
  Definition op_write (s : state) (i j k : nat) (v : T) : option state :=
    let! m := obj s i in
    let! h := write_n (s_heap s) (entry_ptr m j k) [v] in
    Some (put s h i m).
  (** release(), matrix.hpp 121-125.  The caller of release() on an owning matrix has to free the buffer. *)
  Definition op_release (s : state) (i : nat) : option state :=
    let! m := obj s i in
    let u := match x_data m with Some (a, _) => if x_own m then a :: s_user s else s_user s | None => s_user s end in
    Some (mkState (s_heap s) (set_nth (s_objs s) i (Some (mkMx (x_rows m) (x_cols m) None (x_own m)))) u).
  (** assign(number_of_rows, number_of_cols, ptr, owning_data), matrix.hpp 127-135.  With owning_data the caller hands the
      buffer over. *)
  Definition op_assign (s : state) (i r c : nat) (p : pointer) (own : bool) : option state :=
    let! m := obj s i in
    let! h := (if (0 <? x_size m) && x_own m then delete (s_heap s) (x_data m) else Some (s_heap s)) in
    Some (mkState h (set_nth (s_objs s) i (Some (mkMx r c (Some p) own)))
            (if own then remove Nat.eq_dec (fst p) (s_user s) else s_user s)).
  (** resize(nbr, nbc, value), matrix.hpp 222-235. *)
  Definition op_resize (s : state) (i r c : nat) (v : T) : option state :=
    let! m := obj s i in
    let grow := negb (x_size m =? r * c) in
    let isnull := match x_data m with None => true | Some _ => false end in
    let! hp := (if negb isnull && x_own m && grow
                then let! h := delete (s_heap s) (x_data m) in
                     let '(h', p) := new h (repeat v (r * c)) in Some (h', Some p)
                else if grow then let '(h', p) := new (s_heap s) (repeat v (r * c)) in Some (h', Some p)
                else Some (s_heap s, x_data m)) in
    let! h := write_n (fst hp) (snd hp) (repeat v (r * c)) in
    Some (put s h i (mkMx r c (snd hp) true)).
  (** The code around Matrix allocates and frees its own buffers. *)
  Definition op_user_new (s : state) (buf : list T) : option state :=
    let '(h, p) := new (s_heap s) buf in Some (mkState h (s_objs s) (fst p :: s_user s)).
  Definition op_user_delete (s : state) (a : nat) : option state :=
    let! h := delete (s_heap s) (Some (a, 0)) in Some (mkState h (s_objs s) (remove Nat.eq_dec a (s_user s))).

  Inductive op : Type :=
  | Default | Make (r c : nat) (v : T) | Copy (i : nat) | CopyAssign (i j : nat) | Move (i : nat) | MoveAssign (i j : nat)
  | Destroy (i : nat) | Fill (i : nat) (v : T) | Read (i j k : nat) | Write (i j k : nat) (v : T) | Release (i : nat)
  | Assign (i r c : nat) (p : pointer) (own : bool) | Resize (i r c : nat) (v : T) | UserNew (buf : list T) | UserDelete (a : nat).

  Definition step (s : state) (o : op) : option state :=
    match o with
    | Default => op_default s
    | Make r c v => op_make s r c v
    | Copy i => op_copy s i
    | CopyAssign i j => op_copy_assign s i j
    | Move i => op_move s i
    | MoveAssign i j => op_move_assign s i j
    | Destroy i => op_destroy s i
    | Fill i v => op_fill s i v
    | Read i j k => match op_read s i j k with Some (_, s') => Some s' | None => None end
    | Write i j k v => op_write s i j k v
    | Release i => op_release s i
    | Assign i r c p own => op_assign s i r c p own
    | Resize i r c v => op_resize s i r c v
    | UserNew buf => op_user_new s buf
    | UserDelete a => op_user_delete s a
    end.
  Fixpoint run (s : state) (l : list op) : option state :=
    match l with [] => Some s | o :: r => let! s' := step s o in run s' r end.
  Definition init : state := mkState [] [] [].
End Own.
