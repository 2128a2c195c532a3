(** * Distributed operators.

    Source: distributed_operator/distributed_operator.hpp, distributed_operator/interfaces/partition.hpp,
    distributed_operator/implementations/partition_from_cluster.hpp, local_operators/local_operator.hpp,
    local_operators/local_hmatrix.hpp, local_operators/local_dense_matrix.hpp.
    P processes run the same function; each function below is the collective call on all the processes: it takes the
    buffers of all the processes (a list indexed by the rank) and returns the new contents of the output buffers of all
    the processes.  The collective MPI routines are functions on the buffers of all the processes (MPI is not in the
    repository: its documented behaviour is modelled).  Timers and the infos map are dropped.  A buffer is the list from
    the pointer to the end of the allocation; [None] is undefined behaviour or an MPI error.  No proofs in this file. *)

From Coq Require Import List Arith Bool.
From Verif Require Import ClusterModel IOModel BlockModel Algebra BlasModel HMatModel.
Import ListNotations.

Notation "'do' x <- e ; f" := (match e with Some x => f | None => None end) (at level 60, right associativity, x name).

(** ** IPartition, PartitionFromCluster, partition_from_cluster.hpp 10-43 *)
Record partition : Type := mkPartition {
  pa_n : nat;                      (* get_global_size *)
  pa_perm : list nat;              (* permutation of the root cluster *)
  pa_parts : list (nat * nat);     (* offset and size of the clusters on the partition *)
  pa_local : bool                  (* is_renumbering_local *)
}.
(** A null pointer in get_clusters_on_partition() is not a partition. *)
Fixpoint parts_of (pv : list (option cinfo)) : option (list (nat * nat)) :=
  match pv with
  | [] => Some []
  | None :: _ => None
  | Some c :: pv' => do l <- parts_of pv'; Some ((ci_off c, ci_size c) :: l)
  end.
Definition partition_from_cluster (s : bstate) (t : ctree) (loc : bool) : option partition :=
  do l <- parts_of (st_pv s); Some (mkPartition (ci_size (ct_info t)) (st_perm s) l loc).
(** get_size_of_partition, get_offset_of_partition, lines 22-23. *)
Definition part_size (p : partition) (r : nat) : option nat := option_map snd (nth_error (pa_parts p) r).
Definition part_off (p : partition) (r : nat) : option nat := option_map fst (nth_error (pa_parts p) r).

(** ** Processes *)
Fixpoint all_some {A : Type} (l : list (option A)) : option (list A) :=
  match l with
  | [] => Some []
  | None :: _ => None
  | Some a :: l' => do r <- all_some l'; Some (a :: r)
  end.
(** [f r] on every process [r]. *)
Definition on_ranks {A : Type} (P : nat) (f : nat -> option A) : option (list A) := all_some (map f (seq 0 P)).

Fixpoint prefix_sums (acc : nat) (l : list nat) : list nat :=
  match l with [] => [] | a :: l' => acc :: prefix_sums (acc + a) l' end.
(** recvcounts (scounts): the sizes of the parts times mu, distributed_operator.hpp 120-124, 185-189, 705-709. *)
Definition part_counts (p : partition) (P mu : nat) : option (list nat) :=
  on_ranks P (fun r => do s <- part_size p r; Some (s * mu)).

Section Dist.
  Variable K : Coef.
  Notation C := (car K).
  Notation buf := (list C).

  (** std::copy_n(src, n, dst + d). *)
  Definition put (dst src : buf) (d n : nat) : option buf :=
    if (n <=? length src) && (d + n <=? length dst) then Some (firstn d dst ++ firstn n src ++ skipn (d + n) dst) else None.
  (** A loop on several variables, whose body may fail. *)
  Fixpoint foldM {S A : Type} (f : A -> S -> option S) (l : list A) (s : S) : option S :=
    match l with [] => Some s | a :: l' => do s' <- f a s; foldM f l' s' end.
  (** dst[q] = src[p]. *)
  Definition mov (src : buf) (p q : nat) (dst : buf) : option buf := if p <? length src then set1 K q (get src p) dst else None.
  (** std::fill_n(x, n, 0). *)
  Definition fill0 (n : nat) (x : buf) : option buf := transform K n (fun _ => c0 K) x.
  (** A local std::vector(n). *)
  Definition vec0 (n : nat) : buf := repeat (c0 K) n.
  (** The buffer of process [r]. *)
  Definition at_rank (bs : list buf) (r : nat) : buf := nth r bs [].

  (** MPI_Allgatherv as seen by one receiver: the first counts[j] coefficients sent by process j arrive at displs[j]. *)
  Definition allgatherv (P : nat) (counts displs : list nat) (sends : list buf) (recv : buf) : option buf :=
    fold_opt K (fun j b => put b (at_rank sends j) (nth j displs 0) (nth j counts 0)) (seq 0 P) recv.
  (** MPI_Allreduce(MPI_IN_PLACE, out, n, MPI_SUM) as seen by process [r]. *)
  Definition allreduce (n : nat) (bs : list buf) (r : nat) : option buf :=
    if forallb (fun b => n <=? length b) bs then
      Some (mk n (fun i => lsum bs (fun b => get b i)) ++ skipn n (at_rank bs r))
    else None.
  (** MPI_Alltoallv as seen by the receiver [r]: process j sends the scounts[r] coefficients at sdispls[r] of its buffer
      (the send counts and displacements are the same on all processes here), received at rdispls[j]; the numbers of
      coefficients sent and expected must agree. *)
  Definition alltoallv (P : nat) (scounts sdispls rcounts rdispls : list nat) (sends : list buf) (r : nat) (recv : buf) : option buf :=
    fold_opt K (fun j b =>
      if nth r scounts 0 =? nth j rcounts 0 then
        do s <- ptr K (at_rank sends j) (nth r sdispls 0); put b s (nth j rdispls 0) (nth j rcounts 0)
      else None) (seq 0 P) recv.

  (** ** Local operators *)
  (** VirtualLocalOperator, virtual_local_operator.hpp 6-25: arguments alpha, in, beta, out (and mu). *)
  Record vlop : Type := mkVlop {
    vl_vec : C -> buf -> C -> buf -> option buf;             (* add_vector_product_global_to_local *)
    vl_mat : C -> buf -> C -> buf -> nat -> option buf;      (* add_matrix_product_global_to_local *)
    vl_tvec : C -> buf -> C -> buf -> option buf;            (* add_vector_product_transp_local_to_global *)
    vl_tmat : C -> buf -> C -> buf -> nat -> option buf      (* add_matrix_product_transp_local_to_global *)
  }.

  (** LocalOperator, local_operator.hpp 15-36: the two clusters, the symmetry, the flags of the permutations and the pure
      virtual functions (the functions for symmetry with the arguments UPLO and symmetry of the object). *)
  Record lop : Type := mkLop {
    lo_t : nat * nat;            (* offset and size of m_target_cluster *)
    lo_s : nat * nat;
    lo_tperm : list nat;
    lo_sperm : list nat;
    lo_sym : symc;
    lo_tuse : bool;
    lo_suse : bool;
    lo_vec : trans -> C -> buf -> C -> buf -> option buf;
    lo_vecs : trans -> C -> buf -> C -> buf -> option buf;
    lo_mat : trans -> C -> buf -> C -> buf -> nat -> option buf;
    lo_mats : trans -> C -> buf -> C -> buf -> nat -> option buf
  }.
  (** The dispatch on m_symmetry (lines 75-81, 121-128, 152-160, 184-191); another letter only logs. *)
  Definition lo_dispatch {A : Type} (o : lop) (n s : A) (other : A) : A :=
    match lo_sym o with SyN => n | SyS | SyH => s | Sy0 => other end.

  (** add_vector_product_global_to_local, lines 46-87. *)
  Definition lo_add_vec (o : lop) (alpha : C) (inp : buf) (beta : C) (out : buf) : option buf :=
    do src <- ptr K inp (fst (lo_s o));
    do input <- (if lo_suse o then user_to_cluster (fst (lo_s o)) (snd (lo_s o)) (lo_sperm o) src (vec0 (snd (lo_s o))) else Some src);
    do output <- (if lo_tuse o then user_to_cluster (fst (lo_t o)) (snd (lo_t o)) (lo_tperm o) out (vec0 (snd (lo_t o))) else Some out);
    do res <- lo_dispatch o (lo_vec o TrN alpha input beta output) (lo_vecs o TrN alpha input beta output) (Some output);
    if lo_tuse o then cluster_to_user (fst (lo_t o)) (snd (lo_t o)) (lo_tperm o) res out else Some res.

  (** One column of the input in the permuted order, lines 99-104: buffer_in[nc + nc*i ..]. *)
  Definition lo_in_column (o : lop) (inp : buf) (mu i : nat) (b : buf) : option buf :=
    let nc := snd (lo_s o) in
    do b1 <- fold_opt K (fun j b' => mov inp (i + (fst (lo_s o) + j) * mu) j b') (seq 0 nc) b;
    write_at K b1 (nc + nc * i) 0 (fun w => user_to_cluster (fst (lo_s o)) nc (lo_sperm o) b1 w).
  (** add_matrix_product_global_to_local, lines 88-140.  With the flag of the target, the product is computed in a local
      vector and never copied to the output (the code that did so is commented out, lines 134-139). *)
  Definition lo_add_mat (o : lop) (alpha : C) (inp : buf) (beta : C) (out : buf) (mu : nat) : option buf :=
    let nc := snd (lo_s o) in
    let nr := snd (lo_t o) in
    do input <-
      (if lo_suse o then
         do b <- fold_opt K (fun i b => lo_in_column o inp mu i b) (seq 0 mu) (vec0 (nc * mu + nc));
         fold_opt K (fun i p => fold_opt K (fun j p' => mov b (nc + j + i * nc) (i + j * mu) p') (seq 0 nc) p)
           (seq 0 mu) (vec0 (nc * mu))
       else
         do src <- ptr K inp (fst (lo_s o) * mu);
         match lo_sym o with SyH => copy_n K src (nc * mu) (vec0 (nc * mu)) | _ => Some src end);
    let output := if lo_tuse o then vec0 (nr * mu) else out in
    do res <- lo_dispatch o (lo_mat o TrN alpha input beta output mu) (lo_mats o TrN alpha input beta output mu) (Some output);
    Some (if lo_tuse o then out else res).

  (** add_vector_product_transp_local_to_global, lines 142-166. *)
  Definition lo_add_tvec (o : lop) (alpha : C) (inp : buf) (beta : C) (out : buf) : option buf :=
    let run output := lo_dispatch o (lo_vec o TrT alpha inp beta output) (lo_vecs o TrT alpha inp beta output) (Some output) in
    write_at K out (fst (lo_s o)) 0 (fun w =>
      if lo_suse o then
        do b <- user_to_cluster (fst (lo_s o)) (snd (lo_s o)) (lo_sperm o) w (vec0 (snd (lo_s o)));
        do res <- run b;
        cluster_to_user (fst (lo_s o)) (snd (lo_s o)) (lo_sperm o) res w
      else run w).

  (** add_matrix_product_transp_local_to_global, lines 168-212: the product goes to a new vector, which then replaces the
      rows of the source cluster in the output. *)
  Definition lo_add_tmat (o : lop) (alpha : C) (inp : buf) (beta : C) (out : buf) (mu : nat) : option buf :=
    let nc := snd (lo_s o) in
    let nr := snd (lo_t o) in
    do input <- match lo_sym o with
                | SyH => do b <- copy_n K inp (nr * mu) (vec0 (nr * mu)); conj_buf K (nr * mu) b
                | _ => Some inp
                end;
    do res <- lo_dispatch o (lo_mat o TrT alpha input beta (vec0 (nc * mu)) mu) (lo_mats o TrT alpha input beta (vec0 (nc * mu)) mu)
                (Some (vec0 (nc * mu)));
    do out1 <-
      (if lo_suse o then
         do b <- fold_opt K (fun i b =>
                   do b1 <- fold_opt K (fun j b' => mov res (i + j * mu) j b') (seq 0 nc) b;
                   write_at K b1 (nc + nc * i) 0 (fun w => cluster_to_user (fst (lo_s o)) nc (lo_sperm o) b1 w))
                 (seq 0 mu) (vec0 (nc * mu + nc));
         fold_opt K (fun i p => fold_opt K (fun j p' => mov b (nc + j + i * nc) (i + (fst (lo_s o) + j) * mu) p') (seq 0 nc) p)
           (seq 0 mu) out
       else write_at K out (fst (lo_s o) * mu) 0 (fun w => copy_n K res (nc * mu) w));
    match lo_sym o with
    | SyH => write_at K out1 (fst (lo_s o) * mu) 0 (fun w => conj_buf K (nc * mu) w)
    | _ => Some out1
    end.

  Definition vlop_of (o : lop) : vlop := mkVlop (lo_add_vec o) (lo_add_mat o) (lo_add_tvec o) (lo_add_tmat o).

  (** LocalHMatrix, local_hmatrix.hpp 14-33, built by DistributedOperatorFromHMatrix (distributed_operator/utility.hpp 31-56) without permutations.
      [threads]: the schedule of the OpenMP loops of every call. *)
  Definition local_hmatrix (threads : list (list (hinfo K) * list (hinfo K))) (A : hmat K) (t s : nat * nat) (sym : symc) : lop :=
    mkLop t s [] [] sym false false
      (fun tr alpha x beta y => omp_vec K threads tr alpha A x beta y) (fun tr alpha x beta y => omp_vec K threads tr alpha A x beta y)
      (fun tr alpha x beta y mu => omp_mat K threads tr alpha A x beta y mu) (fun tr alpha x beta y mu => omp_mat K threads tr alpha A x beta y mu).
  (** LocalDenseMatrix, local_dense_matrix.hpp 11-43. *)
  Definition local_dense (A : mat K) (t s : nat * nat) (tperm sperm : list nat) (sym : symc) (u : uplo) (tuse suse : bool) : lop :=
    mkLop t s tperm sperm sym tuse suse
      (fun tr alpha x beta y => add_matrix_vector_product K tr alpha A x beta y)
      (fun tr alpha x beta y => match sym with
        | SyS => add_symmetric_matrix_vector_product K u alpha A x beta y
        | SyH => add_hermitian_matrix_vector_product K u alpha A x beta y
        | _ => Some y end)
      (fun tr alpha x beta y mu => add_matrix_matrix_product_row_major K tr TrN alpha A x beta y mu)
      (fun tr alpha x beta y mu => match sym with
        | SyS => add_symmetric_matrix_matrix_product_row_major K u alpha A x beta y mu
        | SyH => add_hermitian_matrix_matrix_product_row_major K u alpha A x beta y mu
        | _ => Some y end).

  (** ** DistributedOperator, distributed_operator.hpp 18-90 *)
  Record dop : Type := mkDop {
    d_t : partition;
    d_s : partition;
    d_ops : list (list vlop);     (* m_local_operators of every process *)
    d_perm : bool;                (* m_use_permutation *)
    d_sym : symc
  }.
  Section Op.
    Variable D : dop.
    (** sizeWorld *)
    Definition world : nat := length (d_ops D).
    Definition ops_of (r : nat) : list vlop := nth r (d_ops D) [].
    Definition nr : nat := pa_n (d_t D).
    Definition nc : nat := pa_n (d_s D).

    (** global_to_partition_numbering, partition_to_global_numbering, partition_from_cluster.hpp 27-32. *)
    Definition to_part (p : partition) (inp out : buf) : option buf := user_to_cluster 0 (pa_n p) (pa_perm p) inp out.
    Definition to_user (p : partition) (inp out : buf) : option buf := cluster_to_user 0 (pa_n p) (pa_perm p) inp out.
    (** local_to_local_partition_numbering, local_partition_to_local_numbering, lines 34-39 (with the checks that only log dropped). *)
    Definition to_part_local (p : partition) (r : nat) (inp out : buf) : option buf :=
      do o <- part_off p r; do s <- part_size p r; user_to_cluster o s (pa_perm p) inp out.
    Definition to_user_local (p : partition) (r : nat) (inp out : buf) : option buf :=
      do o <- part_off p r; do s <- part_size p r; cluster_to_user o s (pa_perm p) inp out.

    (** internal_vector_product_global_to_local, lines 508-517, on process r. *)
    Definition int_vec_g2l (r : nat) (inp out : buf) : option buf :=
      do s <- part_size (d_t D) r;
      do o <- fill0 s out;
      fold_opt K (fun v b => vl_vec v (c1 K) inp (c1 K) b) (ops_of r) o.
    (** internal_matrix_product_global_to_local, lines 518-527. *)
    Definition int_mat_g2l (r : nat) (inp out : buf) (mu : nat) : option buf :=
      do s <- part_size (d_t D) r;
      do o <- fill0 (s * mu) out;
      fold_opt K (fun v b => vl_mat v (c1 K) inp (c1 K) b mu) (ops_of r) o.

    (** vector_product_global_to_global, lines 92-137. *)
    Definition vec_g2g (ins outs : list buf) : option (list buf) :=
      do locs <- on_ranks world (fun r =>
        do s <- part_size (d_t D) r;
        do input <- (if d_perm D then to_part (d_s D) (at_rank ins r) (vec0 nc) else Some (at_rank ins r));
        int_vec_g2l r input (vec0 s));
      do cs <- part_counts (d_t D) world 1;
      on_ranks world (fun r =>
        if d_perm D then
          do b <- allgatherv world cs (prefix_sums 0 cs) locs (vec0 nr);
          to_user (d_t D) b (at_rank outs r)
        else allgatherv world cs (prefix_sums 0 cs) locs (at_rank outs r)).

    (** The repacking of mu columns of n coefficients into rows: row[i + j*mu] = col_i[j], where column i is obtained from
        the input by [col] (lines 153-167, 278-292, 362-375, 470-485). *)
    Definition pack_rows (mu n : nat) (col : nat -> option buf) (b : buf) : option buf :=
      fold_opt K (fun i b =>
        do c <- col i;
        fold_opt K (fun j b' => mov c j (i + j * mu) b') (seq 0 n) b) (seq 0 mu) b.

    (** matrix_product_global_to_global, lines 139-210. *)
    Definition mat_g2g (ins outs : list buf) (mu : nat) : option (list buf) :=
      do locs <- on_ranks world (fun r =>
        do s <- part_size (d_t D) r;
        do input <- pack_rows mu nc (fun i => do p <- ptr K (at_rank ins r) (i * nc); if d_perm D then to_part (d_s D) p (vec0 nc) else Some p)
                      (vec0 (nc * mu));
        do op <- write_at K (vec0 (2 * s * mu)) (s * mu) 0 (fun w => int_mat_g2l r input w mu);
        fold_opt K (fun i b => fold_opt K (fun j b' => mov b' (s * mu + i + j * mu) (i * s + j) b') (seq 0 s) b) (seq 0 mu) op);
      do cs <- part_counts (d_t D) world mu;
      let ds := prefix_sums 0 cs in
      on_ranks world (fun r =>
        do ob <- allgatherv world cs ds locs (vec0 (if d_perm D then 2 * nr * mu else nr * mu));
        if d_perm D then
          do res <- foldM (fun i (bo : buf * buf) =>
              do b1 <- fold_opt K (fun j b' =>
                     do src <- ptr K b' (nth j ds 0 + i * nth j cs 0 / mu);
                     put b' src (nr * mu + i * nr + nth j ds 0 / mu) (nth j cs 0 / mu)) (seq 0 world) (fst bo);
              do src <- ptr K b1 (nr * mu + i * nr);
              do out1 <- write_at K (snd bo) (i * nr) 0 (fun w => to_user (d_t D) src w);
              Some (b1, out1)) (seq 0 mu) (ob, at_rank outs r);
          Some (snd res)
        else
          fold_opt K (fun i out => fold_opt K (fun j o =>
            do src <- ptr K ob (nth j ds 0 + i * nth j cs 0 / mu);
            put o src (i * nr + nth j ds 0 / mu) (nth j cs 0 / mu)) (seq 0 world) out) (seq 0 mu) (at_rank outs r)).

    (** internal_vector_product_transp_local_to_global, lines 529-541. *)
    Definition int_tvec_l2g (ins outs : list buf) : option (list buf) :=
      do parts <- on_ranks world (fun r =>
        do o <- fill0 nc (at_rank outs r);
        fold_opt K (fun v b => vl_tvec v (c1 K) (at_rank ins r) (c1 K) b) (ops_of r) o);
      on_ranks world (fun r => allreduce nc parts r).
    (** internal_matrix_product_transp_local_to_global, lines 543-554. *)
    Definition int_tmat_l2g (ins outs : list buf) (mu : nat) : option (list buf) :=
      do parts <- on_ranks world (fun r =>
        do o <- fill0 (nc * mu) (at_rank outs r);
        fold_opt K (fun v b => vl_tmat v (c1 K) (at_rank ins r) (c1 K) b mu) (ops_of r) o);
      on_ranks world (fun r => allreduce (nc * mu) parts r).

    (** Conjugated copies of the first n coefficients of every input, lines 225-226, 267-268, 411-412, 455-456. *)
    Definition conj_copy (n : nat) (x : buf) : option buf := do b <- copy_n K x n (vec0 n); conj_buf K n b.

    (** vector_product_transp_global_to_global, lines 212-252. *)
    Definition tvec_g2g (ins outs : list buf) : option (list buf) :=
      match d_sym D with
      | SyS => vec_g2g ins outs
      | SyH =>
          do ic <- on_ranks world (fun r => conj_copy nr (at_rank ins r));
          do os <- vec_g2g ic outs;
          on_ranks world (fun r => conj_buf K nc (at_rank os r))
      | _ =>
          do inputs <- on_ranks world (fun r =>
            do input <- (if d_perm D then to_part (d_t D) (at_rank ins r) (vec0 nr) else Some (at_rank ins r));
            do o <- part_off (d_t D) r;
            ptr K input o);
          if d_perm D then
            do os <- int_tvec_l2g inputs (map (fun _ => vec0 nc) (seq 0 world));
            on_ranks world (fun r => to_user (d_s D) (at_rank os r) (at_rank outs r))
          else int_tvec_l2g inputs outs
      end.

    (** matrix_product_transp_global_to_global, lines 254-309. *)
    Definition tmat_g2g (ins outs : list buf) (mu : nat) : option (list buf) :=
      match d_sym D with
      | SyS => mat_g2g ins outs mu
      | SyH =>
          do ic <- on_ranks world (fun r => conj_copy (nr * mu) (at_rank ins r));
          do os <- mat_g2g ic outs mu;
          on_ranks world (fun r => conj_buf K (mu * nc) (at_rank os r))
      | _ =>
          do inputs <- on_ranks world (fun r =>
            do s <- part_size (d_t D) r;
            do o <- part_off (d_t D) r;
            pack_rows mu s (fun i => do p <- ptr K (at_rank ins r) (i * nr);
                                     do b <- (if d_perm D then to_part (d_t D) p (vec0 nr) else Some p);
                                     ptr K b o) (vec0 (s * mu)));
          do os <- int_tmat_l2g inputs (map (fun _ => vec0 (mu * nc)) (seq 0 world)) mu;
          on_ranks world (fun r =>
            let row := at_rank os r in
            if d_perm D then
              fold_opt K (fun i out =>
                do c <- fold_opt K (fun j c => mov row (i + j * mu) j c) (seq 0 nc) (vec0 nc);
                write_at K out (i * nc) 0 (fun w => to_user (d_s D) c w)) (seq 0 mu) (at_rank outs r)
            else
              fold_opt K (fun i out => fold_opt K (fun j o => mov row (i + j * mu) (i * nc + j) o) (seq 0 nc) out)
                (seq 0 mu) (at_rank outs r))
      end.

    (** local_to_global_source, lines 694-711. *)
    Definition l2g_source (ins outs : list buf) (mu : nat) : option (list buf) :=
      do cs <- part_counts (d_s D) world mu;
      on_ranks world (fun r => allgatherv world cs (prefix_sums 0 cs) ins (at_rank outs r)).

    (** internal_vector_product_local_to_local, lines 556-564; internal_matrix_product_local_to_local, lines 566-574.
        [works]: the work array given by the caller on every process, or the vector allocated by the function. *)
    Definition int_vec_l2l (ins outs works : list buf) : option (list buf) :=
      do bs <- l2g_source ins works 1;
      on_ranks world (fun r => int_vec_g2l r (at_rank bs r) (at_rank outs r)).
    Definition int_mat_l2l (ins outs works : list buf) (mu : nat) : option (list buf) :=
      do bs <- l2g_source ins works mu;
      on_ranks world (fun r => int_mat_g2l r (at_rank bs r) (at_rank outs r) mu).

    (** vector_product_local_to_local, lines 311-340. *)
    Definition vec_l2l (ins outs works : list buf) : option (list buf) :=
      if d_perm D then
        do ip <- on_ranks world (fun r => do s <- part_size (d_s D) r; to_part_local (d_s D) r (at_rank ins r) (vec0 s));
        do op <- on_ranks world (fun r => do s <- part_size (d_t D) r; Some (vec0 s));
        do os <- int_vec_l2l ip op works;
        on_ranks world (fun r => to_user_local (d_t D) r (at_rank os r) (at_rank outs r))
      else int_vec_l2l ins outs works.

    (** The way out of the matrix products: one column after the other, lines 379-392, 489-504. *)
    Definition unpack_rows (p : partition) (mu r s : nat) (row out : buf) : option buf :=
      if d_perm D then
        fold_opt K (fun i out =>
          do c <- fold_opt K (fun j c => mov row (i + j * mu) j c) (seq 0 s) (vec0 s);
          write_at K out (i * s) 0 (fun w => to_user_local p r c w)) (seq 0 mu) out
      else
        fold_opt K (fun i out => fold_opt K (fun j o => mov row (i + j * mu) (j + i * s) o) (seq 0 s) out) (seq 0 mu) out.
    Definition pack_local (p : partition) (mu r s : nat) (inp : buf) : option buf :=
      pack_rows mu s (fun i => do q <- ptr K inp (i * s); if d_perm D then to_part_local p r q (vec0 s) else Some q) (vec0 (s * mu)).

    (** matrix_product_local_to_local, lines 342-393. *)
    Definition mat_l2l (ins outs works : list buf) (mu : nat) : option (list buf) :=
      do ip <- on_ranks world (fun r => do s <- part_size (d_s D) r; pack_local (d_s D) mu r s (at_rank ins r));
      do op <- on_ranks world (fun r => do s <- part_size (d_t D) r; Some (vec0 (s * mu)));
      do os <- int_mat_l2l ip op works mu;
      on_ranks world (fun r => do s <- part_size (d_t D) r; unpack_rows (d_t D) mu r s (at_rank os r) (at_rank outs r)).

    (** internal_vector_product_transp_local_to_local, lines 576-620; the work array has nc coefficients followed by the
        receive buffer. *)
    Definition int_tvec_l2l (ins outs works : list buf) : option (list buf) :=
      match d_sym D with
      | SyS | SyH => int_vec_l2l ins outs works
      | _ =>
          do parts <- on_ranks world (fun r =>
            do b <- fill0 nc (at_rank works r);
            fold_opt K (fun v b => vl_tvec v (c1 K) (at_rank ins r) (c1 K) b) (ops_of r) b);
          do sc <- part_counts (d_s D) world 1;
          on_ranks world (fun r =>
            do s <- part_size (d_s D) r;
            do o <- fill0 s (at_rank outs r);
            let rc := map (fun _ => s) (seq 0 world) in
            do rbuf <- ptr K (at_rank parts r) nc;
            do rb <- alltoallv world sc (prefix_sums 0 sc) rc (prefix_sums 0 rc) parts r rbuf;
            fold_opt K (fun i o => do q <- ptr K rb (nth i (prefix_sums 0 rc) 0); axpy K s (c1 K) q o) (seq 0 world) o)
      end.
    (** internal_matrix_product_transp_local_to_local, lines 622-664: the output is not cleared. *)
    Definition int_tmat_l2l (ins outs works : list buf) (mu : nat) : option (list buf) :=
      match d_sym D with
      | SyS | SyH => int_mat_l2l ins outs works mu
      | _ =>
          do parts <- on_ranks world (fun r =>
            do b <- fill0 (nc * mu) (at_rank works r);
            fold_opt K (fun v b => vl_tmat v (c1 K) (at_rank ins r) (c1 K) b mu) (ops_of r) b);
          do sc <- part_counts (d_s D) world mu;
          on_ranks world (fun r =>
            do s <- part_size (d_s D) r;
            let rc := map (fun _ => s * mu) (seq 0 world) in
            do rbuf <- ptr K (at_rank parts r) (nc * mu);
            do rb <- alltoallv world sc (prefix_sums 0 sc) rc (prefix_sums 0 rc) parts r rbuf;
            fold_opt K (fun i o => do q <- ptr K rb (nth i (prefix_sums 0 rc) 0); axpy K (s * mu) (c1 K) q o) (seq 0 world) (at_rank outs r))
      end.

    (** vector_product_transp_local_to_local, lines 395-438. *)
    Definition tvec_l2l (ins outs works : list buf) : option (list buf) :=
      match d_sym D with
      | SyS => vec_l2l ins outs works
      | SyH =>
          do ic <- on_ranks world (fun r => do s <- part_size (d_t D) r; conj_copy s (at_rank ins r));
          do os <- vec_l2l ic outs works;
          on_ranks world (fun r => do s <- part_size (d_s D) r; conj_buf K s (at_rank os r))
      | _ =>
          if d_perm D then
            do ip <- on_ranks world (fun r => do s <- part_size (d_t D) r; to_part_local (d_t D) r (at_rank ins r) (vec0 s));
            do op <- on_ranks world (fun r => do s <- part_size (d_s D) r; Some (vec0 s));
            do os <- int_tvec_l2l ip op works;
            on_ranks world (fun r => to_user_local (d_s D) r (at_rank os r) (at_rank outs r))
          else int_tvec_l2l ins outs works
      end.
    (** matrix_product_transp_local_to_local, lines 439-505. *)
    Definition tmat_l2l (ins outs works : list buf) (mu : nat) : option (list buf) :=
      match d_sym D with
      | SyS => mat_l2l ins outs works mu
      | SyH =>
          do ic <- on_ranks world (fun r => do s <- part_size (d_t D) r; conj_copy (s * mu) (at_rank ins r));
          do os <- mat_l2l ic outs works mu;
          on_ranks world (fun r => do s <- part_size (d_s D) r; conj_buf K (s * mu) (at_rank os r))
      | _ =>
          do ip <- on_ranks world (fun r => do s <- part_size (d_t D) r; pack_local (d_t D) mu r s (at_rank ins r));
          do op <- on_ranks world (fun r => do s <- part_size (d_s D) r; Some (vec0 (s * mu)));
          do os <- int_tmat_l2l ip op works mu;
          on_ranks world (fun r => do s <- part_size (d_s D) r; unpack_rows (d_s D) mu r s (at_rank os r) (at_rank outs r))
      end.
  End Op.
End Dist.
