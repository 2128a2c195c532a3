(** * Dense and low-rank matrices, hierarchical matrices and their products with vectors.

    Source: matrix/matrix.hpp, matrix/linalg/*.hpp, hmatrix/lrmat/lrmat.hpp, hmatrix/lrmat/linalg/*.hpp,
    hmatrix/hmatrix.hpp, hmatrix/tree_builder/tree_builder.hpp, hmatrix/linalg/add_hmatrix_vector_product.hpp,
    add_hmatrix_matrix_product_row_major.hpp.  No proofs in this file.

    The real and the complex overloads are merged: on a real type conjugation is the identity. *)

From Coq Require Import List Arith Bool.
From Verif Require Import ClusterModel IOModel IOSpec BlockModel Algebra BlasModel.
Import ListNotations.

(** The characters 'N', 'S', 'H' of m_symmetry, m_symmetry_type_for_leaves; [Sy0]: the character 0 left in
    m_symmetry_type_for_leaves by the copy constructor (hmatrix.hpp 60). *)
Inductive symc : Type := SyN | SyS | SyH | Sy0.
Definition sym_is_N (s : symc) : bool := match s with SyN => true | _ => false end.
Definition sym_is_S (s : symc) : bool := match s with SyS => true | _ => false end.
Definition sym_is_H (s : symc) : bool := match s with SyH => true | _ => false end.

Section HMat.
  Variable K : Coef.
  Notation C := (car K).
  Notation "x +! y" := (cadd K x y) (at level 50, left associativity).
  Notation "x *! y" := (cmul K x y) (at level 40, left associativity).

  (** Matrix<T> as far as its values are concerned (matrix.hpp 24-28); column major; [mp]: m_pivots, the row pivots of a
      factored matrix, counted from 1 as by LAPACK.  Ownership: see OwnModel.v. *)
  Record mat : Type := mkPMat { mr : nat; mc : nat; md : list C; mp : list nat }.
  Definition mkMat (r c : nat) (d : list C) : mat := mkPMat r c d [].
  (** operator(), matrix.hpp 96-110. *)
  Definition me (A : mat) (i j : nat) : C := get (md A) (i + j * mr A).
  (** Matrix(nbr,nbc), matrix.hpp 32-35. *)
  Definition zeros (r c : nat) : mat := mkMat r c (repeat (c0 K) (r * c)).
  Definition of_fun (r c : nat) (f : nat -> nat -> C) : mat := mkMat r c (mk (r * c) (fun p => f (p mod r) (p / r))).

  (** LowRankMatrix, lrmat.hpp 16-42. *)
  Record lrm : Type := mkLrm { lU : mat; lV : mat }.
  Definition lrank (L : lrm) : nat := mc (lU L).

  (** add_matrix_vector_product, add_matrix_vector_product.hpp 10-17. *)
  Definition add_matrix_vector_product (t : trans) (alpha : C) (A : mat) (x : list C) (beta : C) (y : list C) : option (list C) :=
    gemv K t (mr A) (mc A) alpha (md A) (mr A) x beta y.
  (** add_symmetric_matrix_vector_product, add_matrix_vector_product.hpp 19-29. *)
  Definition add_symmetric_matrix_vector_product (u : uplo) (alpha : C) (A : mat) (x : list C) (beta : C) (y : list C)
    : option (list C) :=
    if mr A =? 0 then Some y else symv K u (mr A) alpha (md A) (mr A) x beta y.
  (** add_hermitian_matrix_vector_product (complex), add_matrix_vector_product.hpp 36-46. *)
  Definition add_hermitian_matrix_vector_product (u : uplo) (alpha : C) (A : mat) (x : list C) (beta : C) (y : list C)
    : option (list C) :=
    if mr A =? 0 then Some y else hemv K u (mr A) alpha (md A) (mr A) x beta y.

  (** add_lrmat_vector_product, add_lrmat_vector_product.hpp 9-24.  std::vector a(rank) is zero. *)
  Definition add_lrmat_vector_product (t : trans) (alpha : C) (L : lrm) (x : list C) (beta : C) (y : list C) : option (list C) :=
    if lrank L =? 0 then Some y
    else
      let a := repeat (c0 K) (lrank L) in
      let first := match t with TrN => lV L | _ => lU L end in
      let second := match t with TrN => lU L | _ => lV L end in
      match add_matrix_vector_product t (c1 K) first x (c0 K) a with
      | Some a' => add_matrix_vector_product t alpha second a' beta y
      | None => None
      end.

  (** conj_if_complex(T*, int), misc.hpp 32-38. *)
  Definition conj_buf (n : nat) (x : list C) : option (list C) := transform K n (cconj K) x.

  (** add_matrix_matrix_product_row_major, add_matrix_matrix_product_row_major.hpp 23-84 (real and complex versions). *)
  Definition add_matrix_matrix_product_row_major (ta tb : trans) (alpha : C) (A : mat) (x : list C) (beta : C) (y : list C) (mu : nat)
    : option (list C) :=
    let nr := mr A in let nc := mc A in
    let ita := if is_N tb then TrN else TrT in
    let itb := if is_N ta then TrT else TrN in
    let M := mu in
    let N := if is_N ta then nr else nc in
    let Kk := if is_N ta then nc else nr in
    let lda := match ita with TrN => M | _ => Kk end in
    let ldb := match itb with TrN => Kk | _ => N end in
    let bufA := match ta with TrC => conj_buf (nr * nc) (md A) | _ => Some (md A) end in
    let bufB := match tb with TrC => conj_buf (M * lda) x | _ => Some x end in
    match bufA, bufB with
    | Some a, Some b => gemm K ita itb M N Kk alpha b lda a ldb beta y M
    | _, _ => None
    end.

  (** add_symmetric_matrix_matrix_product_row_major with side 'L', add_matrix_matrix_product_row_major.hpp 86-106. *)
  Definition add_symmetric_matrix_matrix_product_row_major (u : uplo) (alpha : C) (A : mat) (x : list C) (beta : C) (y : list C)
    (mu : nat) : option (list C) :=
    if mr A =? 0 then Some y else symm K SdR u mu (mr A) alpha (md A) (mr A) x mu beta y mu.
  (** add_hermitian_matrix_matrix_product_row_major with side 'L' (complex), lines 113-139. *)
  Definition add_hermitian_matrix_matrix_product_row_major (u : uplo) (alpha : C) (A : mat) (x : list C) (beta : C) (y : list C)
    (mu : nat) : option (list C) :=
    if mr A =? 0 then Some y
    else
      match conj_buf (mr A * mu) x, conj_buf (mc A * mu) y with
      | Some x', Some y' =>
          match hemm K SdR u mu (mr A) (cconj K alpha) (md A) (mr A) x' mu (cconj K beta) y' mu with
          | Some y'' => conj_buf (mc A * mu) y''
          | None => None
          end
      | _, _ => None
      end.

  (** add_lrmat_matrix_product_row_major, add_lrmat_matrix_product_row_major.hpp 11-27. *)
  Definition add_lrmat_matrix_product_row_major (ta tb : trans) (alpha : C) (L : lrm) (x : list C) (beta : C) (y : list C) (mu : nat)
    : option (list C) :=
    if lrank L =? 0 then Some y
    else
      let a := repeat (c0 K) (lrank L * mu) in
      let first := match ta with TrN => lV L | _ => lU L end in
      let second := match ta with TrN => lU L | _ => lV L end in
      match add_matrix_matrix_product_row_major ta tb (c1 K) first x (c0 K) a mu with
      | Some a' => add_matrix_matrix_product_row_major ta TrN alpha second a' beta y mu
      | None => None
      end.

  (** Hierarchical matrices: HMatrix, hmatrix.hpp 39-50.  [DNone]: neither dense nor low-rank data
      (StorageType::Hierarchical). *)
  Inductive hdata : Type := DNone | DDense (A : mat) | DLow (L : lrm).
  Record hinfo : Type := mkHinfo {
    h_t : ctree; h_s : ctree; h_sym : symc; h_uplo : uplo; h_data : hdata; h_lsym : symc; h_luplo : uplo }.
  Notation hmat := (rtree hinfo).

  (** get_leaves_from, hmatrix.hpp 241-268. *)
  Fixpoint hleaves_run (fuel : nat) (stack : list (hmat * bool)) (leaves sym : list hinfo)
    : option (list hinfo * list hinfo) :=
    match stack with
    | [] => Some (leaves, sym)
    | (b, anc) :: stack' =>
        match fuel with
        | 0 => None
        | S f =>
            let i := rt_val b in
            let leaf := match rt_children b with [] => true | _ => false end in
            hleaves_run f (rev (map (fun c => (c, negb (sym_is_N (h_sym i)) || anc)) (rt_children b)) ++ stack')
              (if leaf then leaves ++ [i] else leaves)
              (if leaf && anc && negb (c_off (h_t i) =? c_off (h_s i)) then sym ++ [i] else sym)
        end
    end.
  (** The loop runs once per node. *)
  Definition hleaves (A : hmat) : option (list hinfo * list hinfo) :=
    hleaves_run (length (preorder A)) [(A, negb (sym_is_N (h_sym (rt_val A))))] [] [].

  (** internal_add_hmatrix_vector_product on a leaf, add_hmatrix_vector_product.hpp 16-32 (real), 35-53 (complex).
      The default branch on a node without children would call itself forever: [None]. *)
  Definition leaf_vec (t : trans) (alpha : C) (h : hinfo) (x : list C) (beta : C) (y : list C) : option (list C) :=
    match h_data h with
    | DDense A =>
        match h_sym h with
        | SyN => add_matrix_vector_product t alpha A x beta y
        | SyS => add_symmetric_matrix_vector_product (h_uplo h) alpha A x beta y
        | SyH => if cplx K then add_hermitian_matrix_vector_product (h_uplo h) alpha A x beta y else Some y
        | Sy0 => Some y
        end
    | DLow L => add_lrmat_vector_product t alpha L x beta y
    | DNone => None
    end.
  (** internal_add_hmatrix_matrix_product_row_major on a leaf, add_hmatrix_matrix_product_row_major.hpp 18-55. *)
  Definition leaf_mat (t tb : trans) (alpha : C) (h : hinfo) (x : list C) (beta : C) (y : list C) (mu : nat) : option (list C) :=
    match h_data h with
    | DDense A =>
        match h_sym h with
        | SyN => add_matrix_matrix_product_row_major t tb alpha A x beta y mu
        | SyS => add_symmetric_matrix_matrix_product_row_major (h_uplo h) alpha A x beta y mu
        | _ => if cplx K then add_hermitian_matrix_matrix_product_row_major (h_uplo h) alpha A x beta y mu else Some y
        end
    | DLow L => add_lrmat_matrix_product_row_major t tb alpha L x beta y mu
    | DNone => None
    end.

  (** Output and input clusters (add_hmatrix_vector_product.hpp 58-62, 68-75). *)
  Definition out_cl (t : trans) (h : hinfo) : ctree := if is_N t then h_t h else h_s h.
  Definition in_cl (t : trans) (h : hinfo) : ctree := if is_N t then h_s h else h_t h.
  (** trans_sym (lines 63, 74). *)
  Definition trans_sym (t : trans) (lsym : symc) : trans :=
    if is_N t then (if sym_is_S lsym then TrT else TrC) else TrN.

  (** The two loops over the leaves: [run t h x y] adds the contribution of the leaf [h] through pointers; [mu]
      coefficients per row. *)
  Section Loop.
    Variables (t ts : trans) (lin lout mu : nat).
    Variable run : trans -> hinfo -> list C -> list C -> option (list C).
    (** add_hmatrix_vector_product.hpp 83-87. *)
    Fixpoint leaves_loop (l : list hinfo) (x y : list C) : option (list C) :=
      match l with
      | [] => Some y
      | h :: l' =>
          match (if lin <=? c_off (in_cl t h) then ptr K x ((c_off (in_cl t h) - lin) * mu) else None) with
          | None => None
          | Some xp =>
              match write_at K y (c_off (out_cl t h) * mu) (lout * mu) (run t h xp) with
              | Some y' => leaves_loop l' x y'
              | None => None
              end
          end
      end.
    (** add_hmatrix_vector_product.hpp 91-95: in + output_offset - local_input_offset,
        out + input_offset - local_output_offset. *)
    Fixpoint sym_loop (l : list hinfo) (x y : list C) : option (list C) :=
      match l with
      | [] => Some y
      | h :: l' =>
          match (if lin <=? c_off (out_cl t h) then ptr K x ((c_off (out_cl t h) - lin) * mu) else None) with
          | None => None
          | Some xp =>
              match write_at K y (c_off (in_cl t h) * mu) (lout * mu) (run ts h xp) with
              | Some y' => sym_loop l' x y'
              | None => None
              end
          end
      end.
  End Loop.

  (** Scaling of the output, lines 77-79. *)
  Definition scale_out (n : nat) (beta : C) (y : list C) : option (list C) :=
    if ceqb K beta (c1 K) then Some y else transform K n (fun c => c *! beta) y.

  (** sequential_internal_add_hmatrix_vector_product, add_hmatrix_vector_product.hpp 56-97. *)
  Definition seq_vec (t : trans) (alpha : C) (A : hmat) (x : list C) (beta : C) (y : list C) : option (list C) :=
    let r := rt_val A in
    let lin := c_off (in_cl t r) in
    let lout := c_off (out_cl t r) in
    let run := fun t' h x' y' => leaf_vec t' alpha h x' (c1 K) y' in
    match hleaves A with
    | None => None
    | Some (L, Y) =>
        match scale_out (c_size (out_cl t r)) beta y with
        | None => None
        | Some y1 =>
            match leaves_loop t lin lout 1 run L x y1 with
            | None => None
            | Some y2 =>
                if sym_is_N (h_lsym r) then Some y2
                else sym_loop t (trans_sym t (h_lsym r)) lin lout 1 run Y x y2
            end
        end
    end.

  (** internal_add_hmatrix_vector_product, add_hmatrix_vector_product.hpp 16-53. *)
  Definition add_hmatrix_vector_product (t : trans) (alpha : C) (A : hmat) (x : list C) (beta : C) (y : list C) : option (list C) :=
    match h_data (rt_val A) with
    | DNone => seq_vec t alpha A x beta y
    | _ => leaf_vec t alpha (rt_val A) x beta y
    end.

  (** One thread of the parallel region (openmp_internal_add_hmatrix_vector_product, lines 132-152): the chunks of the two
      loops given to the thread, a private output, coefficient 1. *)
  Definition thread_vec (t : trans) (r : hinfo) (mu : nat) (run : trans -> hinfo -> list C -> list C -> option (list C))
    (chunk : list hinfo * list hinfo) (x : list C) : option (list C) :=
    let lin := c_off (in_cl t r) in
    let lout := c_off (out_cl t r) in
    let temp := repeat (c0 K) (c_size (out_cl t r) * mu) in
    match leaves_loop t lin lout mu run (fst chunk) x temp with
    | None => None
    | Some y2 =>
        if sym_is_N (h_lsym r) then Some y2
        else sym_loop t (trans_sym t (h_lsym r)) lin lout mu run (snd chunk) x y2
    end.
  (** The critical sections in the order of the list [threads] (line 157). *)
  Fixpoint critical_vec (t : trans) (alpha : C) (r : hinfo) (mu : nat) (run : trans -> hinfo -> list C -> list C -> option (list C))
    (threads : list (list hinfo * list hinfo)) (x y : list C) : option (list C) :=
    match threads with
    | [] => Some y
    | th :: ths =>
        match thread_vec t r mu run th x with
        | None => None
        | Some temp =>
            match axpy K (c_size (out_cl t r) * mu) alpha temp y with
            | Some y' => critical_vec t alpha r mu run ths x y'
            | None => None
            end
        end
    end.
  (** openmp_internal_add_hmatrix_vector_product, lines 100-159.  [threads]: for each thread, in the order in which they
      enter the critical section, the leaves it was given. *)
  Definition omp_vec (threads : list (list hinfo * list hinfo)) (t : trans) (alpha : C) (A : hmat) (x : list C) (beta : C) (y : list C)
    : option (list C) :=
    let r := rt_val A in
    match scale_out (c_size (out_cl t r)) beta y with
    | None => None
    | Some y1 => critical_vec t alpha r 1 (fun t' h x' y' => leaf_vec t' (c1 K) h x' (c1 K) y') threads x y1
    end.

  (** sequential_internal_add_hmatrix_matrix_product_row_major, add_hmatrix_matrix_product_row_major.hpp 58-110, and the
      OpenMP version, lines 113-180, with transb = 'N' (the other values are reported as errors). *)
  Definition omp_mat (threads : list (list hinfo * list hinfo)) (t : trans) (alpha : C) (A : hmat) (x : list C) (beta : C) (y : list C)
    (mu : nat) : option (list C) :=
    let r := rt_val A in
    match scale_out (c_size (out_cl t r) * mu) beta y with
    | None => None
    | Some y1 => critical_vec t alpha r mu (fun t' h x' y' => leaf_mat t' TrN (c1 K) h x' (c1 K) y' mu) threads x y1
    end.
  Definition seq_mat (t : trans) (alpha : C) (A : hmat) (x : list C) (beta : C) (y : list C) (mu : nat) : option (list C) :=
    match hleaves A with
    | None => None
    | Some (L, Y) => omp_mat [(L, Y)] t alpha A x beta y mu
    end.

  (** internal_add_hmatrix_matrix_product_row_major, add_hmatrix_matrix_product_row_major.hpp 17-55. *)
  Definition add_hmatrix_matrix_product_row_major (t : trans) (alpha : C) (A : hmat) (x : list C) (beta : C) (y : list C) (mu : nat)
    : option (list C) :=
    match h_data (rt_val A) with
    | DNone => seq_mat t alpha A x beta y mu
    | _ => leaf_mat t TrN alpha (rt_val A) x beta y mu
    end.

  (** ** Expansion to dense *)
  (** A loop whose body may fail. *)
  Fixpoint fold_opt {A : Type} (f : A -> list C -> option (list C)) (l : list A) (b : list C) : option (list C) :=
    match l with
    | [] => Some b
    | a :: l' => match f a b with Some b' => fold_opt f l' b' | None => None end
    end.
  (** The assignment ptr[p] = v. *)
  Definition set1 (p : nat) (v : C) (b : list C) : option (list C) :=
    if p <? length b then Some (firstn p b ++ v :: skipn (S p) b) else None.
  (** for (k < nc) for (j < nr): the pairs (j,k). *)
  Definition pairs (nr nc : nat) : list (nat * nat) := flat_map (fun k => map (fun j => (j, k)) (seq 0 nr)) (seq 0 nc).

  (** LowRankMatrix::copy_to_dense into a zero nr x nc matrix, lrmat.hpp 122-135, hmatrix.hpp 294-295. *)
  Definition lr_to_dense (L : lrm) (nr nc : nat) : option mat :=
    match gemm K TrN TrN (mr (lU L)) (mc (lV L)) (mc (lU L)) (c1 K) (md (lU L)) (mr (lU L)) (md (lV L)) (mr (lV L)) (c0 K)
            (repeat (c0 K) (nr * nc)) (mr (lU L)) with
    | Some b => Some (mkMat nr nc b)
    | None => None
    end.
  (** The dense matrix whose coefficients are copied. *)
  Definition leaf_dense (h : hinfo) : option mat :=
    match h_data h with
    | DDense A => Some A
    | DLow L => lr_to_dense L (c_size (h_t h)) (c_size (h_s h))
    | DNone => None
    end.
  (** copy_to_dense, hmatrix.hpp 270-303, and the first loop of copy_to_dense_in_user_numbering, lines 334-358.  [tp], [sp]:
      the permutations (the identity for copy_to_dense), [to], [so]: the offsets of the root. *)
  Definition dense_loop (tp sp : nat -> nat) (to so tsize : nat) (L : list hinfo) (b : list C) : option (list C) :=
    fold_opt (fun h b =>
      match leaf_dense h with
      | None => None
      | Some D =>
          fold_opt (fun jk b =>
            set1 ((tp (fst jk + c_off (h_t h)) - to) + (sp (snd jk + c_off (h_s h)) - so) * tsize) (me D (fst jk) (snd jk)) b)
            (pairs (c_size (h_t h)) (c_size (h_s h))) b
      end) L b.
  Definition copy_to_dense (A : hmat) (b : list C) : option (list C) :=
    let r := rt_val A in
    match hleaves A with
    | None => None
    | Some (L, _) => dense_loop (fun i => i) (fun i => i) (c_off (h_t r)) (c_off (h_s r)) (c_size (h_t r)) L b
    end.
  (** copy_to_dense_in_user_numbering, hmatrix.hpp 305-371; the errors logged at lines 310-325 are not modelled. *)
  Definition copy_to_dense_in_user_numbering (tp sp : nat -> nat) (A : hmat) (b : list C) : option (list C) :=
    let r := rt_val A in
    let to := c_off (h_t r) in
    let so := c_off (h_s r) in
    let tsize := c_size (h_t r) in
    match hleaves A with
    | None => None
    | Some (L, Y) =>
        match dense_loop tp sp to so tsize L b with
        | None => None
        | Some b1 =>
            if sym_is_N (h_lsym r) then Some b1
            else
              fold_opt (fun h b =>
                fold_opt (fun jk b =>
                  let v := get b ((tp (fst jk + c_off (h_t h)) - to) + (sp (snd jk + c_off (h_s h)) - so) * tsize) in
                  set1 ((sp (snd jk + c_off (h_s h)) - to) + (tp (fst jk + c_off (h_t h)) - so) * tsize)
                    (if sym_is_S (h_lsym r) then v else cconj K v) b)
                  (pairs (c_size (h_t h)) (c_size (h_s h))) b) Y b1
        end
    end.

  (** ** Construction of the data: HMatrixTreeBuilder::compute_blocks and set_symmetry_for_leaves. *)
  Section Build.
    Variable sy : symc.  (** m_symmetry_type *)
    Variable B : bbuild.
    Variable gen : nat -> nat -> C.  (** VirtualInternalGenerator, in cluster numbering *)
    Variable compress : ctree -> ctree -> lrm.  (** VirtualLowRankGenerator: the matrices U and V it returns *)

    (** compute_dense_data, hmatrix.hpp 222-226. *)
    Definition dense_data (t s : ctree) : mat := of_fun (c_size t) (c_size s) (fun i j => gen (c_off t + i) (c_off s + j)).
    (** compute_blocks, tree_builder.hpp 385-406: low-rank tasks with the fall back to a dense block, then dense tasks.  A
        custom dense blocks generator is a generator that fills the same blocks. *)
    Definition block_data (b : binfo) : hdata :=
      match b_task b with
      | Some TLowRank =>
          let L := compress (b_t b) (b_s b) in
          if (mr (lU L) =? c_size (b_t b)) && (mc (lV L) =? c_size (b_s b)) then DLow L
          else DDense (dense_data (b_t b) (b_s b))
      | Some TDense => DDense (dense_data (b_t b) (b_s b))
      | None => DNone
      end.
    (** set_symmetry_for_leaves, tree_builder.hpp 110-127. *)
    Fixpoint hfill (b : btree) : hmat :=
      match b with
      | RNode i cs =>
          let s := if b_sym i then sy else SyN in
          let u := if b_sym i then bb_uplo B else UpN in
          let for_leaves := match cs with [] => b_sym i | _ => existsb (fun c => b_sym (rt_val c)) cs end in
          RNode (mkHinfo (b_t i) (b_s i) s u (block_data i) (if for_leaves then sy else SyN) (if for_leaves then bb_uplo B else UpN))
            (map hfill cs)
      end.
    (** HMatrixTreeBuilder::build, tree_builder.hpp 181-219. *)
    Definition hbuild (fuel : nat) (t s : ctree) : option hmat := option_map hfill (build_root B fuel t s).
  End Build.
End HMat.
Arguments mr {K} m.
Arguments mc {K} m.
Arguments md {K} m.
Arguments me {K} A i j.
Arguments mkPMat {K} mr mc md mp.
Arguments mkMat {K} r c d.
Arguments mp {K} m.
Arguments lU {K} l.
Arguments lV {K} l.
Arguments mkLrm {K} lU lV.
Arguments lrank {K} L.
Arguments h_t {K} h.
Arguments h_s {K} h.
Arguments h_sym {K} h.
Arguments h_uplo {K} h.
Arguments h_data {K} h.
Arguments h_lsym {K} h.
Arguments h_luplo {K} h.
Arguments DNone {K}.
Arguments DDense {K} A.
Arguments DLow {K} L.
Notation hmat K := (rtree (hinfo K)).
