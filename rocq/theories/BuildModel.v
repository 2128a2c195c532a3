(** * Computation of the blocks of a hierarchical matrix by several threads.

    Source: hmatrix/tree_builder/tree_builder.hpp (m_admissible_tasks, m_dense_tasks, m_false_positive: lines 49-54; build: 181-219;
    compute_blocks: 373-444), hmatrix/hmatrix.hpp 222-232.

    The builder keeps pointers to the blocks to be computed.  The blocks are cells of a heap; a thread executes, for every iteration
    that the OpenMP runtime gives to it, the statements of the loop body one by one, and the statements of different threads are
    interleaved arbitrarily.  (Within one statement only one cell is accessed: a statement is taken as atomic.)  [None]: access to a
    destroyed block, null pointer.  No proofs in this file. *)

From Coq Require Import List Arith Bool.
From Verif Require Import ClusterModel IOModel IOSpec BlockModel Algebra BlasModel HMatModel DistModel.
Import ListNotations.

Section Build.
  Variable K : Coef.
  Notation C := (car K).

  (** m_storage_type, m_low_rank_data, m_dense_data and the clusters of a block, hmatrix.hpp 61-90. *)
  Inductive kind : Type := KHier | KDense | KLow.
  Record cell : Type := mkCell { cl_t : ctree; cl_s : ctree; cl_kind : kind; cl_low : option (lrm K); cl_dense : option (mat K) }.
  (** [None]: destroyed. *)
  Definition heap : Type := list (option cell).
  Definition look (h : heap) (p : nat) : option cell := nth p h None.
  Definition store (h : heap) (p : nat) (c : cell) : heap := firstn p h ++ Some c :: skipn (S p) h.

  Section Compute.
    Variable gen : nat -> nat -> C.
    Variable compress : ctree -> ctree -> lrm K.

    (** Statements of the body of the two parallel loops, lines 385-407. *)
    Inductive instr : Type :=
    | ILow (p : nat)     (* compute_low_rank_data, line 386 *)
    | ICheck (p : nat)   (* the test of line 388 and clear_low_rank_data(), line 390 *)
    | IFall (p : nat)    (* compute_dense_data for a rejected block and the local counter, lines 392-395 *)
    | IDense (p : nat)   (* line 404 *)
    | IEnd.              (* the critical section, line 416 *)
    (** Local variables of a thread: result of the test, local_false_positive. *)
    Record local : Type := mkLocal { l_rej : bool; l_fp : nat }.
    Record mem : Type := mkMem { m_heap : heap; m_fp : nat }.

    Definition rejected (t s : ctree) (L : lrm K) : bool := negb ((mr (lU L) =? c_size t) && (mc (lV L) =? c_size s)).
    (** Effect of a statement on the cell it accesses. *)
    Definition set_low (c : cell) (L : option (lrm K)) (k : kind) : cell := mkCell (cl_t c) (cl_s c) k L (cl_dense c).
    Definition set_dense (c : cell) : cell := mkCell (cl_t c) (cl_s c) KDense (cl_low c) (Some (dense_data K gen (cl_t c) (cl_s c))).
    Definition on_cell (m : mem) (p : nat) (f : cell -> option (local * cell)) : option (local * mem) :=
      do c <- look (m_heap m) p;
      do lc <- f c;
      Some (fst lc, mkMem (store (m_heap m) p (snd lc)) (m_fp m)).
    Definition exec (i : instr) (l : local) (m : mem) : option (local * mem) :=
      match i with
      | ILow p => on_cell m p (fun c => Some (l, set_low c (Some (compress (cl_t c) (cl_s c))) KLow))
      | ICheck p => on_cell m p (fun c =>
          match cl_low c with
          | None => None
          | Some L => if rejected (cl_t c) (cl_s c) L then Some (mkLocal true (l_fp l), set_low c None (cl_kind c)) else Some (mkLocal false (l_fp l), c)
          end)
      | IFall p => on_cell m p (fun c => if l_rej l then Some (mkLocal false (l_fp l + 1), set_dense c) else Some (l, c))
      | IDense p => on_cell m p (fun c => Some (l, set_dense c))
      | IEnd => Some (l, mkMem (m_heap m) (m_fp m + l_fp l))
      end.

    (** Iterations of the two loops given to one thread; no dense loop with a generator of dense blocks, line 399. *)
    Definition program (custom : bool) (share : list nat * list nat) : list instr :=
      flat_map (fun p => [ILow p; ICheck p; IFall p]) (fst share) ++ (if custom then [] else map IDense (snd share)) ++ [IEnd].
    Record thread : Type := mkThread { th_prog : list instr; th_loc : local }.
    Definition update (ts : list thread) (i : nat) (t : thread) : list thread := firstn i ts ++ t :: skipn (S i) ts.
    (** One step of thread [i]. *)
    Definition step (i : nat) (s : list thread * mem) : option (list thread * mem) :=
      match nth_error (fst s) i with
      | Some (mkThread (ins :: rest) l) =>
          do lm <- exec ins l (snd s);
          Some (update (fst s) i (mkThread rest (fst lm)), snd lm)
      | _ => Some s
      end.
    Fixpoint run (sched : list nat) (s : list thread * mem) : option (list thread * mem) :=
      match sched with [] => Some s | i :: sched' => do s' <- step i s; run sched' s' end.
    Definition finished (ts : list thread) : bool := forallb (fun t => match th_prog t with [] => true | _ => false end) ts.

    (** Lines 421-443: the generator of dense blocks gets the sizes and offsets of the blocks and fills them. *)
    Definition fill_dense (h : heap) (p : nat) (data : list C) : option heap :=
      do c <- look h p;
      if length data =? c_size (cl_t c) * c_size (cl_s c) then
        Some (store h p (mkCell (cl_t c) (cl_s c) KDense (cl_low c) (Some (mkMat (c_size (cl_t c)) (c_size (cl_s c)) data))))
      else None.
    Definition block_request (h : heap) (p : nat) : option (nat * nat * nat * nat) :=
      do c <- look h p; Some (c_size (cl_t c), c_size (cl_s c), c_off (cl_t c), c_off (cl_s c)).
    Fixpoint fill_all (h : heap) (ps : list nat) (datas : list (list C)) : option heap :=
      match ps, datas with
      | [], [] => Some h
      | p :: ps', d :: ds => do h' <- fill_dense h p d; fill_all h' ps' ds
      | _, _ => None
      end.
    Definition dense_blocks (custom : list (nat * nat * nat * nat) -> list (list C)) (h : heap) (dns : list nat) : option heap :=
      match dns with
      | [] => Some h
      | _ => do reqs <- all_some (map (block_request h) dns); fill_all h dns (custom reqs)
      end.

    (** compute_blocks, lines 373-444.  [shares]: the iterations of every thread; [sched]: the interleaving, to the end. *)
    Definition compute_blocks (custom : option (list (nat * nat * nat * nat) -> list (list C))) (shares : list (list nat * list nat)) (sched : list nat)
      (dns : list nat) (m : mem) : option mem :=
      let is_custom := match custom with Some _ => true | None => false end in
      do r <- run sched (map (fun s => mkThread (program is_custom s) (mkLocal false 0)) shares, m);
      if finished (fst r) then
        match custom with
        | None => Some (snd r)
        | Some g => do h <- dense_blocks g (m_heap (snd r)) dns; Some (mkMem h (m_fp (snd r)))
        end
      else None.
  End Compute.

  (** ** A builder used several times: build, lines 181-219 *)
  (** m_admissible_tasks, m_dense_tasks, m_false_positive: never cleared. *)
  Record builder : Type := mkBuilder { bu_adm : list nat; bu_dense : list nat; bu_fp : nat }.
  Definition fresh : builder := mkBuilder [] [] 0.
  (** The blocks with a task, in the order of build_block_tree (lines 245, 247). *)
  Definition task_list (b : btree) : list binfo := filter (fun i => match b_task i with Some _ => true | None => false end) (map rt_val (preorder b)).
  Definition new_cell (i : binfo) : cell := mkCell (b_t i) (b_s i) KHier None None.
  Definition is_low (i : binfo) : bool := match b_task i with Some TLowRank => true | _ => false end.
  (** Pointers of the tasks whose cells start at [base]. *)
  Definition pointers (base : nat) (low : bool) (L : list binfo) : list nat :=
    map fst (filter (fun pi => Bool.eqb (is_low (snd pi)) low) (combine (seq base (length L)) L)).
  (** build: the tasks of the new block tree are added to those already there; all of them are computed.  The new blocks are the last
      cells.  [split]: how the runtime distributes the iterations of the two loops over the threads. *)
  Definition build_blocks (gen : nat -> nat -> C) (compress : ctree -> ctree -> lrm K) (split : list nat -> list nat -> list (list nat * list nat)) (sched : list nat)
    (b : btree) (u : builder) (h : heap) : option (builder * heap) :=
    let L := task_list b in
    let adm := bu_adm u ++ pointers (length h) true L in
    let dns := bu_dense u ++ pointers (length h) false L in
    do m <- compute_blocks gen compress None (split adm dns) sched dns (mkMem (h ++ map (fun i => Some (new_cell i)) L) (bu_fp u));
    Some (mkBuilder adm dns (m_fp m), m_heap m).
  (** ~HMatrix: the blocks [base, base+n) are destroyed. *)
  Definition destroy (base n : nat) (h : heap) : heap := firstn base h ++ repeat None n ++ skipn (base + n) h.
End Build.
