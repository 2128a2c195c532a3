(** * The processes of a distributed operator, one by one.

    DistModel.v gives the collective functions as functions on the buffers of all the processes, as if the processes advanced together.  Here every process runs its own
    program, on its own data; the programs are interleaved by an arbitrary scheduler, and meet only in the collective MPI routines.
    Sources: distributed_operator/distributed_operator.hpp 92-711, solvers/geneo/coarse_operator_builder.hpp 17-131, solvers/ddm.hpp 203-236.
    MPI is not in the repository: its documented behaviour is modelled (MPI standard, chapter "Collective Communication": the calls of a communicator are matched in the order in which
    every process makes them; a process may return as soon as its participation is complete, or wait for all the processes; the sizes must agree).  No proofs in this file. *)

From Coq Require Import List Arith Bool.
From Verif Require Import ClusterModel IOModel BlockModel Algebra BlasModel HMatModel DistModel SolverModel.
Import ListNotations.

Section Proc.
  Variable K : Coef.
  Notation C := (car K).
  Notation buf := (list C).

  (** ** Collective calls: what one process gives *)
  Inductive call : Type :=
  | Allgatherv (send : buf) (sendcount : nat) (recv : buf) (counts displs : list nat)
  | Allreduce (b : buf) (n : nat)                                  (* MPI_IN_PLACE, MPI_SUM *)
  | Alltoallv (send : buf) (scounts sdispls : list nat) (recv : buf) (rcounts rdispls : list nat)
  | Allgather (x : nat)                                            (* one MPI_INT *)
  | Bcast (b : buf) (n root : nat)
  | Reduce (b : buf) (n root : nat).                               (* MPI_SUM; MPI_IN_PLACE on the root *)
  (** What one process receives: the new contents of the receive buffer. *)
  Inductive answer : Type := ABuf (b : buf) | AInts (l : list nat).

  (** ** Programs of one process: local computations (which may be undefined behaviour, [Fail]) and collective calls *)
  Inductive prog (A : Type) : Type :=
  | Ret (a : A)
  | Fail
  | Coll (c : call) (k : answer -> prog A).
  Arguments Ret {A}.
  Arguments Fail {A}.
  Arguments Coll {A}.
  Fixpoint bind {A B : Type} (p : prog A) (f : A -> prog B) : prog B :=
    match p with Ret a => f a | Fail => Fail | Coll c k => Coll c (fun x => bind (k x) f) end.
  Definition lift {A : Type} (o : option A) : prog A := match o with Some a => Ret a | None => Fail end.
  Definition mpi (c : call) : prog buf := Coll c (fun a => match a with ABuf b => Ret b | AInts _ => Fail end).
  Definition mpi_ints (c : call) : prog (list nat) := Coll c (fun a => match a with AInts l => Ret l | ABuf _ => Fail end).
  Fixpoint foldP {A S : Type} (f : A -> S -> prog S) (l : list A) (s : S) : prog S :=
    match l with [] => Ret s | a :: l' => bind (f a s) (foldP f l') end.

  (** ** MPI *)
  Section Mpi.
    Variable P : nat.
    (** Does the process [r], in the call [c], need something from the process [j]? *)
    Definition needs (c : call) (r j : nat) : bool :=
      match c with
      | Allgatherv _ _ _ counts _ => 0 <? nth j counts 0
      | Allreduce _ n => 0 <? n
      | Alltoallv _ _ _ _ rcounts _ => 0 <? nth j rcounts 0
      | Allgather _ => true
      | Bcast _ _ root => j =? root
      | Reduce _ _ root => r =? root
      end.
    (** May the calls [c] of process [r] and [d] of process [j] be the same collective call? *)
    Definition compatible (r : nat) (c : call) (j : nat) (d : call) : bool :=
      match c, d with
      | Allgatherv _ sc _ cs _, Allgatherv _ sc' _ cs' _ => (nth j cs 0 =? sc') && (nth r cs' 0 =? sc)
      | Allreduce _ n, Allreduce _ n' => n =? n'
      | Alltoallv _ sc _ _ rc _, Alltoallv _ sc' _ _ rc' _ => (nth j sc 0 =? nth r rc' 0) && (nth r sc' 0 =? nth j rc 0)
      | Allgather _, Allgather _ => true
      | Bcast _ n root, Bcast _ n' root' => (n =? n') && (root =? root')
      | Reduce _ n root, Reduce _ n' root' => (n =? n') && (root =? root')
      | _, _ => false
      end.
    (** What the process [r] receives; [cs j]: the call of the process [j], if it has been made. *)
    Definition sent (d : option call) : option buf :=
      match d with
      | Some (Allgatherv s _ _ _ _) => Some s
      | Some (Allreduce b _) | Some (Bcast b _ _) | Some (Reduce b _ _) => Some b
      | _ => None
      end.
    Definition sent_to (r count : nat) (d : option call) : option buf :=
      match d with Some (Alltoallv s sc sd _ _ _) => if nth r sc 0 =? count then ptr K s (nth r sd 0) else None | _ => None end.
    Definition sent_int (d : option call) : option nat := match d with Some (Allgather x) => Some x | _ => None end.
    Definition receive (r : nat) (c : call) (cs : nat -> option call) : option answer :=
      match c with
      | Allgatherv _ _ recv counts displs =>
          option_map ABuf (fold_opt K (fun j b =>
            if nth j counts 0 =? 0 then Some b else do s <- sent (cs j); put K b s (nth j displs 0) (nth j counts 0)) (seq 0 P) recv)
      | Allreduce b n =>
          if n =? 0 then Some (ABuf b) else do bs <- all_some (map (fun j => sent (cs j)) (seq 0 P)); option_map ABuf (allreduce K n bs r)
      | Alltoallv _ _ _ recv rcounts rdispls =>
          option_map ABuf (fold_opt K (fun j b =>
            if nth j rcounts 0 =? 0 then Some b else do s <- sent_to r (nth j rcounts 0) (cs j); put K b s (nth j rdispls 0) (nth j rcounts 0)) (seq 0 P) recv)
      | Allgather _ => option_map AInts (all_some (map (fun j => sent_int (cs j)) (seq 0 P)))
      | Bcast b n root => if root <? P then do s <- sent (cs root); option_map ABuf (put K b s 0 n) else None
      | Reduce b n root =>
          if r =? root then do bs <- all_some (map (fun j => sent (cs j)) (seq 0 P)); option_map ABuf (allreduce K n bs r) else if root <? P then Some (ABuf b) else None
      end.

    (** ** Executions *)
    (** A process computes, or waits in a collective call. *)
    Inductive pstate (A : Type) : Type := Run (p : prog A) | Wait (c : call) (k : answer -> prog A).
    Arguments Run {A}.
    Arguments Wait {A}.
    (** [calls r]: the calls made by process [r] since the beginning, in order. *)
    Record config (A : Type) : Type := mkConfig { states : nat -> pstate A; calls : nat -> list call }.
    Arguments mkConfig {A}.
    Arguments states {A}.
    Arguments calls {A}.
    Definition upd {X : Type} (f : nat -> X) (r : nat) (x : X) : nat -> X := fun j => if j =? r then x else f j.
    Definition start {A : Type} (ps : nat -> prog A) : config A := mkConfig (fun r => Run (ps r)) (fun _ => []).
    Definition nth_calls {A : Type} (g : config A) (n : nat) : nat -> option call := fun j => nth_error (calls g j) n.
    (** The process [r] makes its next call. *)
    Inductive enters {A : Type} (g : config A) (r : nat) : config A -> Prop :=
    | Enters : forall c k, r < P -> states g r = Run (Coll c k) -> enters g r (mkConfig (upd (states g) r (Wait c k)) (upd (calls g) r (calls g r ++ [c]))).
    (** The process [r] leaves its last call, with an answer or an error. *)
    Inductive leaves {A : Type} (g : config A) (r : nat) : config A -> Prop :=
    | Leaves : forall c k, r < P -> states g r = Wait c k ->
        leaves g r (mkConfig (upd (states g) r (Run match receive r c (nth_calls g (length (calls g r) - 1)) with Some a => k a | None => Fail end)) (calls g)).
    (** Process [r] waits in its n-th call, and what it needs has been given (everybody has arrived). *)
    Definition may_leave {A : Type} (g : config A) (r : nat) : Prop :=
      exists c k, states g r = Wait c k /\ forall j, j < P -> needs c r j = true -> length (calls g r) <= length (calls g j).
    Definition all_arrived {A : Type} (g : config A) (r : nat) : Prop :=
      exists c k, states g r = Wait c k /\ forall j, j < P -> length (calls g r) <= length (calls g j).
    (** What an MPI library and a scheduler may do in one step. *)
    Inductive step {A : Type} (g : config A) : config A -> Prop :=
    | SEnters : forall r g', enters g r g' -> step g g'
    | SLeaves : forall r g', may_leave g r -> leaves g r g' -> step g g'.
    (** What it does in the end: computations end, and a call returns when all the processes have arrived. *)
    Inductive forced {A : Type} (g : config A) : Prop :=
    | FEnters : forall r g', enters g r g' -> forced g
    | FLeaves : forall r g', all_arrived g r -> leaves g r g' -> forced g.
    (** An execution environment: some of the possible steps, never stopping where it must go on. *)
    Definition environment {A : Type} (next : config A -> config A -> Prop) : Prop :=
      (forall g g', next g g' -> step g g') /\ (forall g, forced g -> exists g', next g g').
    Inductive run {A : Type} (next : config A -> config A -> Prop) : nat -> config A -> config A -> Prop :=
    | R0 : forall g, run next 0 g g
    | RS : forall n g g' g'', next g g' -> run next n g' g'' -> run next (S n) g g''.
    (** Undefined behaviour or an MPI error on some process, or calls that do not match. *)
    Definition faulty {A : Type} (g : config A) : Prop :=
      (exists r, r < P /\ states g r = Run Fail) \/
      (exists r j n c d, r < P /\ j < P /\ nth_error (calls g r) n = Some c /\ nth_error (calls g j) n = Some d /\ compatible r c j d = false).
    Definition finished {A : Type} (g : config A) (res : nat -> A) : Prop := forall r, r < P -> states g r = Run (Ret (res r)).
  End Mpi.

  (** ** DistributedOperator, the program of process [r] *)
  Section Op.
    Variable D : dop K.
    Variable r : nat.
    Notation P := (world K D).
    Notation nr := (nr K D).
    Notation nc := (nc K D).
    Notation vec0 := (vec0 K).
    Notation "'let!' x := e 'in' f" := (bind e (fun x => f)) (at level 60, x name, right associativity).

    (** recvcounts[rankWorld]. *)
    Definition own (cs : list nat) : prog nat := lift (nth_error cs r).
    (** vector_product_global_to_global, lines 92-137. *)
    Definition p_vec_g2g (inp out : buf) : prog buf :=
      let! s := lift (part_size (d_t K D) r) in
      let! input := lift (if d_perm K D then to_part K (d_s K D) inp (vec0 nc) else Some inp) in
      let! loc := lift (int_vec_g2l K D r input (vec0 s)) in
      let! cs := lift (part_counts (d_t K D) P 1) in
      let! c := own cs in
      if d_perm K D then
        let! b := mpi (Allgatherv loc c (vec0 nr) cs (prefix_sums 0 cs)) in
        lift (to_user K (d_t K D) b out)
      else mpi (Allgatherv loc c out cs (prefix_sums 0 cs)).
    (** matrix_product_global_to_global, lines 139-210. *)
    Definition p_mat_g2g (inp out : buf) (mu : nat) : prog buf :=
      let! s := lift (part_size (d_t K D) r) in
      let! input := lift (pack_rows K mu nc (fun i => do p <- ptr K inp (i * nc); if d_perm K D then to_part K (d_s K D) p (vec0 nc) else Some p) (vec0 (nc * mu))) in
      let! op := lift (write_at K (vec0 (2 * s * mu)) (s * mu) 0 (fun w => int_mat_g2l K D r input w mu)) in
      let! loc := lift (fold_opt K (fun i b => fold_opt K (fun j b' => mov K b' (s * mu + i + j * mu) (i * s + j) b') (seq 0 s) b) (seq 0 mu) op) in
      let! cs := lift (part_counts (d_t K D) P mu) in
      let ds := prefix_sums 0 cs in
      let! c := own cs in
      let! ob := mpi (Allgatherv loc c (vec0 (if d_perm K D then 2 * nr * mu else nr * mu)) cs ds) in
      if d_perm K D then
        let! res := lift (foldM (fun i (bo : buf * buf) =>
              do b1 <- fold_opt K (fun j b' =>
                     do src <- ptr K b' (nth j ds 0 + i * nth j cs 0 / mu);
                     put K b' src (nr * mu + i * nr + nth j ds 0 / mu) (nth j cs 0 / mu)) (seq 0 P) (fst bo);
              do src <- ptr K b1 (nr * mu + i * nr);
              do out1 <- write_at K (snd bo) (i * nr) 0 (fun w => to_user K (d_t K D) src w);
              Some (b1, out1)) (seq 0 mu) (ob, out)) in
        Ret (snd res)
      else
        lift (fold_opt K (fun i out => fold_opt K (fun j o =>
            do src <- ptr K ob (nth j ds 0 + i * nth j cs 0 / mu);
            put K o src (i * nr + nth j ds 0 / mu) (nth j cs 0 / mu)) (seq 0 P) out) (seq 0 mu) out).
    (** internal_vector_product_transp_local_to_global, lines 529-541; internal_matrix_product_transp_local_to_global, lines 543-554. *)
    Definition p_int_tvec_l2g (inp out : buf) : prog buf :=
      let! o := lift (fill0 K nc out) in
      let! b := lift (fold_opt K (fun v b => vl_tvec K v (c1 K) inp (c1 K) b) (ops_of K D r) o) in
      mpi (Allreduce b nc).
    Definition p_int_tmat_l2g (inp out : buf) (mu : nat) : prog buf :=
      let! o := lift (fill0 K (nc * mu) out) in
      let! b := lift (fold_opt K (fun v b => vl_tmat K v (c1 K) inp (c1 K) b mu) (ops_of K D r) o) in
      mpi (Allreduce b (nc * mu)).
    (** vector_product_transp_global_to_global, lines 212-252. *)
    Definition p_tvec_g2g (inp out : buf) : prog buf :=
      match d_sym K D with
      | SyS => p_vec_g2g inp out
      | SyH => let! ic := lift (conj_copy K nr inp) in let! o := p_vec_g2g ic out in lift (conj_buf K nc o)
      | _ =>
          let! input := lift (if d_perm K D then to_part K (d_t K D) inp (vec0 nr) else Some inp) in
          let! o := lift (part_off (d_t K D) r) in
          let! x := lift (ptr K input o) in
          if d_perm K D then let! b := p_int_tvec_l2g x (vec0 nc) in lift (to_user K (d_s K D) b out)
          else p_int_tvec_l2g x out
      end.
    (** matrix_product_transp_global_to_global, lines 254-309. *)
    Definition p_tmat_g2g (inp out : buf) (mu : nat) : prog buf :=
      match d_sym K D with
      | SyS => p_mat_g2g inp out mu
      | SyH => let! ic := lift (conj_copy K (nr * mu) inp) in let! o := p_mat_g2g ic out mu in lift (conj_buf K (mu * nc) o)
      | _ =>
          let! s := lift (part_size (d_t K D) r) in
          let! o := lift (part_off (d_t K D) r) in
          let! x := lift (pack_rows K mu s (fun i => do p <- ptr K inp (i * nr);
                                                do b <- (if d_perm K D then to_part K (d_t K D) p (vec0 nr) else Some p);
                                                ptr K b o) (vec0 (s * mu))) in
          let! row := p_int_tmat_l2g x (vec0 (mu * nc)) mu in
          lift (if d_perm K D then
                  fold_opt K (fun i out =>
                    do c <- fold_opt K (fun j c => mov K row (i + j * mu) j c) (seq 0 nc) (vec0 nc);
                    write_at K out (i * nc) 0 (fun w => to_user K (d_s K D) c w)) (seq 0 mu) out
                else
                  fold_opt K (fun i out => fold_opt K (fun j o => mov K row (i + j * mu) (i * nc + j) o) (seq 0 nc) out) (seq 0 mu) out)
      end.
    (** local_to_global_source, lines 694-711. *)
    Definition p_l2g_source (inp out : buf) (mu : nat) : prog buf :=
      let! cs := lift (part_counts (d_s K D) P mu) in
      let! c := own cs in
      mpi (Allgatherv inp c out cs (prefix_sums 0 cs)).
    (** internal_vector_product_local_to_local, lines 556-564; internal_matrix_product_local_to_local, lines 566-574. *)
    Definition p_int_vec_l2l (inp out work : buf) : prog buf :=
      let! b := p_l2g_source inp work 1 in lift (int_vec_g2l K D r b out).
    Definition p_int_mat_l2l (inp out work : buf) (mu : nat) : prog buf :=
      let! b := p_l2g_source inp work mu in lift (int_mat_g2l K D r b out mu).
    (** vector_product_local_to_local, lines 311-340. *)
    Definition p_vec_l2l (inp out work : buf) : prog buf :=
      if d_perm K D then
        let! ss := lift (part_size (d_s K D) r) in
        let! st := lift (part_size (d_t K D) r) in
        let! ip := lift (to_part_local K (d_s K D) r inp (vec0 ss)) in
        let! o := p_int_vec_l2l ip (vec0 st) work in
        lift (to_user_local K (d_t K D) r o out)
      else p_int_vec_l2l inp out work.
    (** matrix_product_local_to_local, lines 342-393. *)
    Definition p_mat_l2l (inp out work : buf) (mu : nat) : prog buf :=
      let! ss := lift (part_size (d_s K D) r) in
      let! st := lift (part_size (d_t K D) r) in
      let! ip := lift (pack_local K D (d_s K D) mu r ss inp) in
      let! o := p_int_mat_l2l ip (vec0 (st * mu)) work mu in
      lift (unpack_rows K D (d_t K D) mu r st o out).
    (** internal_vector_product_transp_local_to_local, lines 576-620. *)
    Definition p_int_tvec_l2l (inp out work : buf) : prog buf :=
      match d_sym K D with
      | SyS | SyH => p_int_vec_l2l inp out work
      | _ =>
          let! b := lift (fill0 K nc work) in
          let! b := lift (fold_opt K (fun v b => vl_tvec K v (c1 K) inp (c1 K) b) (ops_of K D r) b) in
          let! sc := lift (part_counts (d_s K D) P 1) in
          let! s := lift (part_size (d_s K D) r) in
          let! o := lift (fill0 K s out) in
          let rc := map (fun _ => s) (seq 0 P) in
          let! rbuf := lift (ptr K b nc) in
          let! rb := mpi (Alltoallv b sc (prefix_sums 0 sc) rbuf rc (prefix_sums 0 rc)) in
          lift (fold_opt K (fun i o => do q <- ptr K rb (nth i (prefix_sums 0 rc) 0); axpy K s (c1 K) q o) (seq 0 P) o)
      end.
    (** internal_matrix_product_transp_local_to_local, lines 622-664. *)
    Definition p_int_tmat_l2l (inp out work : buf) (mu : nat) : prog buf :=
      match d_sym K D with
      | SyS | SyH => p_int_mat_l2l inp out work mu
      | _ =>
          let! b := lift (fill0 K (nc * mu) work) in
          let! b := lift (fold_opt K (fun v b => vl_tmat K v (c1 K) inp (c1 K) b mu) (ops_of K D r) b) in
          let! sc := lift (part_counts (d_s K D) P mu) in
          let! s := lift (part_size (d_s K D) r) in
          let rc := map (fun _ => s * mu) (seq 0 P) in
          let! rbuf := lift (ptr K b (nc * mu)) in
          let! rb := mpi (Alltoallv b sc (prefix_sums 0 sc) rbuf rc (prefix_sums 0 rc)) in
          lift (fold_opt K (fun i o => do q <- ptr K rb (nth i (prefix_sums 0 rc) 0); axpy K (s * mu) (c1 K) q o) (seq 0 P) out)
      end.
    (** vector_product_transp_local_to_local, lines 395-438. *)
    Definition p_tvec_l2l (inp out work : buf) : prog buf :=
      match d_sym K D with
      | SyS => p_vec_l2l inp out work
      | SyH =>
          let! st := lift (part_size (d_t K D) r) in
          let! ss := lift (part_size (d_s K D) r) in
          let! ic := lift (conj_copy K st inp) in
          let! o := p_vec_l2l ic out work in
          lift (conj_buf K ss o)
      | _ =>
          if d_perm K D then
            let! st := lift (part_size (d_t K D) r) in
            let! ss := lift (part_size (d_s K D) r) in
            let! ip := lift (to_part_local K (d_t K D) r inp (vec0 st)) in
            let! o := p_int_tvec_l2l ip (vec0 ss) work in
            lift (to_user_local K (d_s K D) r o out)
          else p_int_tvec_l2l inp out work
      end.
    (** matrix_product_transp_local_to_local, lines 439-505. *)
    Definition p_tmat_l2l (inp out work : buf) (mu : nat) : prog buf :=
      match d_sym K D with
      | SyS => p_mat_l2l inp out work mu
      | SyH =>
          let! st := lift (part_size (d_t K D) r) in
          let! ss := lift (part_size (d_s K D) r) in
          let! ic := lift (conj_copy K (st * mu) inp) in
          let! o := p_mat_l2l ic out work mu in
          lift (conj_buf K (ss * mu) o)
      | _ =>
          let! st := lift (part_size (d_t K D) r) in
          let! ss := lift (part_size (d_s K D) r) in
          let! ip := lift (pack_local K D (d_t K D) mu r st inp) in
          let! o := p_int_tmat_l2l ip (vec0 (ss * mu)) work mu in
          lift (unpack_rows K D (d_s K D) mu r ss o out)
      end.
    (** DDM::solve, solvers/ddm.hpp 195-224: from the local solutions to the global ones.  [m]: m_size_w_overlap; [loc]: local_rhs, reused; [x]: x_local; [work]: in_global;
        the receive buffer begins at [base] in it.  (The Krylov method and the exchange between neighbours are in HPDDM.) *)
    Definition p_gather_solution (m mu : nat) (loc x work out : buf) : prog buf :=
      let! s := lift (part_size (d_t K D) r) in
      let! lr := lift (fold_opt K (fun i b => do src <- ptr K x (i * m); put K b src (i * s) s) (seq 0 mu) loc) in
      let! cs := lift (part_counts (d_t K D) P mu) in
      let! c := own cs in
      let ds := prefix_sums 0 cs in
      let base := if mu =? 1 then 0 else mu * nr in
      let! w := lift (ptr K work base) in
      let! w' := mpi (Allgatherv lr c w cs ds) in
      lift (do res <- foldM (fun i (bo : buf * buf) =>
              do b1 <- (if mu =? 1 then Some (fst bo)
                        else fold_opt K (fun j b' =>
                               do src <- ptr K b' (mu * nr + nth j ds 0 + i * nth j cs 0 / mu);
                               put K b' src (i * nr + nth j ds 0 / mu) (nth j cs 0 / mu)) (seq 0 P) (fst bo));
              do src <- ptr K b1 (i * nr);
              do o1 <- write_at K (snd bo) (i * nr) 0 (fun o => to_user K (d_t K D) src o);
              Some (b1, o1)) (seq 0 mu) (firstn base work ++ w', out);
            Some (snd res)).
  End Op.

  (** ** build_geneo_coarse_operator, coarse_operator_builder.hpp 17-131, the program of process [r]

      [zs]: its coarse vectors; [subs]: sub_matrix_product_to_local of its local operators; [n]: its size with overlap. *)
  Section Coarse.
    Variables (parts : list (nat * nat)) (sym : symc) (r n : nat) (zs : list buf) (subs : list (buf -> buf -> nat -> nat -> nat -> option buf)).
    Notation "'let!' x := e 'in' f" := (bind e (fun x => f)) (at level 60, x name, right associativity).
    Notation ins := (n_inside parts).
    (** One turn of the loop on the processes, lines 78-127; [ne]: the numbers of vectors received from all the processes. *)
    Definition p_one_root (ne : list nat) (evi : buf) (i : nat) (st : buf * buf) : prog (buf * buf) :=
      let mu := nth i ne 0 in
      if mu =? 0 then Ret st
      else
        let! az0 := lift (fill0 K (mu * ins r) (snd st)) in
        let! buffer := lift (if r =? i then
                               fold_opt K (fun j b => fold_opt K (fun k b' => mov K evi (j * n + k) (mu * k + j) b') (seq 0 (ins r)) b) (seq 0 mu) (repeat (c0 K) (ins i * mu))
                             else Some (repeat (c0 K) (ins i * mu))) in
        let! bcast := mpi (Bcast buffer (ins i * mu) i) in
        let! b := lift (match sym with SyH => conj_buf K (length bcast) bcast | _ => Some bcast end) in
        let! az := lift (fold_opt K (fun f a => f b a mu (off_of parts i) (ins i)) subs az0) in
        let! e := lift (fold_opt K (fun j e =>
          do v <- fold_opt K (fun k v => mov K az (j + mu * k) k v) (seq 0 (ins r)) (repeat (c0 K) n);
          fold_opt K (fun jj e' =>
            do x <- ptr K evi (jj * n);
            do c <- inner K (ins r) x v;
            set1 K (nth i (prefix_sums 0 ne) 0 + j + (nth r (prefix_sums 0 ne) 0 + jj) * fold_right Nat.add 0 ne) c e') (seq 0 (length zs)) e) (seq 0 mu) (fst st)) in
        Ret (e, az).
    (** Lines 27-76 and 127-130; the result is E.data(). *)
    Definition p_coarse : prog buf :=
      let! ne := mpi_ints (Allgather (length zs)) in
      let size := fold_right Nat.add 0 ne in
      let! evi := lift (fold_opt K (fun i b => put K b (nth i zs []) (i * n) (ins r)) (seq 0 (length zs)) (repeat (c0 K) (length zs * n))) in
      let! st := foldP (p_one_root ne evi) (seq 0 (length parts)) (repeat (c0 K) (size * size), repeat (c0 K) (fold_right Nat.max 0 ne * ins r)) in
      mpi (Reduce (fst st) (size * size) 0).
  End Coarse.
End Proc.
Arguments Ret {K A}.
Arguments Fail {K A}.
Arguments Coll {K A}.
Arguments bind {K A B}.
Arguments lift {K A}.
Arguments Run {K A}.
Arguments Wait {K A}.
Arguments mkConfig {K A}.
Arguments states {K A}.
Arguments calls {K A}.
Arguments Allgatherv {K}.
Arguments Allreduce {K}.
Arguments Alltoallv {K}.
Arguments Allgather {K}.
Arguments Bcast {K}.
Arguments Reduce {K}.
Arguments ABuf {K}.
Arguments AInts {K}.
