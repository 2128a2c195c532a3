(** * Specification vocabulary for the ownership of matrix buffers.  Only the state and the list of operations come from the
    model; nothing here refers to how an operation works. *)

From Coq Require Import List Arith Bool.
From Verif Require Import OwnModel.
Import ListNotations.

Section OwnSpec.
  Context {T : Type}.
  Notation state := (state T).

  (** The block a is allocated and holds buf. *)
  Definition live (s : state) (a : nat) (buf : list T) : Prop := nth_error (s_heap T s) a = Some (Some buf).
  (** There are at least n values behind p. *)
  Definition room (s : state) (p : pointer) (n : nat) : Prop := exists buf, live s (fst p) buf /\ snd p + n <= length buf.
  (** The object m (alive) can be used: it is empty, or it has not been moved from or released and its buffer has not been
      freed. *)
  Definition usable (s : state) (m : mx) : Prop := x_size m = 0 \/ exists a o buf, x_data m = Some (a, o) /\ live s a buf.
  Definition is_obj (s : state) (i : nat) (m : mx) : Prop := nth_error (s_objs T s) i = Some (Some m).

  (** The object m owns the block a. *)
  Definition owns (m : mx) (a : nat) : bool := match x_data m with Some (b, _) => x_own m && (a =? b) | None => false end.
  (** The buffers of two matrices of the same size do not overlap. *)
  Definition apart (m n : mx) : Prop :=
    forall a o o', x_data m = Some (a, o) -> x_data n = Some (a, o') -> o + x_size m <= o' \/ o' + x_size m <= o.

  (** What a caller has to respect.
      - A matrix that is read is usable; an entry that is read or written exists.
      - The target of a copy of its own size is usable and does not overlap the source; a matrix is not copied from a view
        of its own buffer of another size.
      - assign: the pointer leads to enough values, a buffer that is handed over belongs to the caller and is passed by its
        first address; an owning matrix with a buffer of no entries is not assigned to (its empty allocation would be lost).
      - A matrix resized to its own size is usable and is not a view.
      - The caller frees only what it owns. *)
  Definition contract (s : state) (o : op T) : Prop :=
    match o with
    | Default _ | Make _ _ _ _ | UserNew _ _ => True
    | Copy _ i => exists m, is_obj s i m /\ usable s m
    | CopyAssign _ i j => exists m n, is_obj s i m /\ is_obj s j n /\ usable s n /\ (i <> j -> x_size m = x_size n -> usable s m /\ apart m n) /\
        (i <> j -> x_size m <> x_size n -> x_own n = false -> forall a o, x_data n = Some (a, o) -> owns m a = false)
    | Move _ i | Destroy _ i | Release _ i => exists m, is_obj s i m
    | MoveAssign _ i j => exists m n, is_obj s i m /\ is_obj s j n
    | Fill _ i _ => exists m, is_obj s i m /\ usable s m
    | Read _ i j k | Write _ i j k _ => exists m, is_obj s i m /\ usable s m /\ j < x_rows m /\ k < x_cols m
    | Assign _ i r c p own => exists m, is_obj s i m /\ (x_size m = 0 -> x_data m <> None -> x_own m = false) /\ room s p (r * c) /\
        (own = true -> In (fst p) (s_user T s) /\ snd p = 0)
    | Resize _ i r c _ => exists m, is_obj s i m /\ (x_size m = r * c -> usable s m /\ (x_own m = true \/ x_data m = None))
    | UserDelete _ a => In a (s_user T s)
    end.
  (** A history in which every operation respects the contract. *)
  Fixpoint respects (s : state) (l : list (op T)) : Prop :=
    match l with
    | [] => True
    | o :: r => contract s o /\ forall s', step T s o = Some s' -> respects s' r
    end.

  (** Number of owners of the block a: matrices that will free it, and the surrounding code. *)
  Definition owners (s : state) (a : nat) : nat :=
    length (filter (fun o => match o with Some m => owns m a | None => false end) (s_objs T s)) + count_occ Nat.eq_dec (s_user T s) a.
  (** Every allocated block has exactly one owner, and no freed (or never allocated) block has any. *)
  Definition one_owner (s : state) : Prop :=
    forall a, owners s a = match nth_error (s_heap T s) a with Some (Some _) => 1 | _ => 0 end.

  (** The entries of a usable matrix: rows, columns, values column by column. *)
  Definition contents (s : state) (i r c : nat) (v : list T) : Prop :=
    exists m, is_obj s i m /\ x_rows m = r /\ x_cols m = c /\ length v = r * c /\
      (r * c = 0 \/ exists a o buf, x_data m = Some (a, o) /\ live s a buf /\ forall k, k < r * c -> nth_error buf (o + k) = nth_error v k).

  (** The objects that an operation changes (a source that is moved from included). *)
  Definition targets (o : op T) : list nat :=
    match o with
    | Default _ | Make _ _ _ _ | Copy _ _ | Read _ _ _ _ | UserNew _ _ | UserDelete _ _ => []
    | CopyAssign _ i _ | Move _ i | Destroy _ i | Fill _ i _ | Write _ i _ _ _ | Release _ i | Assign _ i _ _ _ _ | Resize _ i _ _ _ => [i]
    | MoveAssign _ i j => [i; j]
    end.
  (** The operation neither changes the object k nor hands out or frees its buffer. *)
  Definition leaves_alone (s : state) (o : op T) (k : nat) : Prop :=
    ~ In k (targets o) /\
    forall m a b, is_obj s k m -> x_data m = Some (a, b) ->
      (forall i r c p own, o = Assign T i r c p own -> fst p <> a) /\ o <> UserDelete T a.
  Fixpoint all_leave_alone (s : state) (l : list (op T)) (k : nat) : Prop :=
    match l with
    | [] => True
    | o :: r => leaves_alone s o k /\ forall s', step T s o = Some s' -> all_leave_alone s' r k
    end.
End OwnSpec.
