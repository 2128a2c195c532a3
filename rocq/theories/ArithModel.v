(** * Products and sums of dense, low-rank and hierarchical matrices.

    Source: matrix/linalg/add_matrix_matrix_product.hpp, transpose.hpp, scale.hpp; hmatrix/lrmat/linalg/*.hpp;
    hmatrix/linalg/add_lrmat_hmatrix.hpp, add_hmatrix_matrix_product.hpp, add_matrix_hmatrix_product.hpp,
    add_hmatrix_lrmat_product.hpp, add_lrmat_hmatrix_product.hpp, add_hmatrix_hmatrix_product.hpp, scale.hpp;
    hmatrix/hmatrix.hpp (get_sub_hmatrix, get_child_or_this).  No proofs in this file.

    Exact arithmetic.  [None]: undefined behaviour (null pointer, access out of a buffer) or an illegal argument reported by
    BLAS.  The truncations (recompression, SVD_truncation) are parameters.  A pointer to a node of a hierarchical matrix is
    the path from the root of the matrix to the node. *)

From Coq Require Import List Arith ZArith Bool.
From Verif Require Import ClusterModel IOModel IOSpec BlockModel Algebra BlasModel HMatModel DistModel.
Import ListNotations.

(** Cluster::operator==, cluster_node.hpp 81; the clusters compared belong to the same tree (m_tree_data). *)
Definition ceq (a b : ctree) : bool :=
  (c_off a =? c_off b) && (c_size a =? c_size b) && (c_depth a =? c_depth b) && (ci_counter (ct_info a) =? ci_counter (ct_info b)).

(** A loop whose body may fail. *)
Fixpoint fold_o {A B : Type} (f : A -> B -> option B) (l : list A) (b : B) : option B :=
  match l with
  | [] => Some b
  | a :: l' => match f a b with Some b' => fold_o f l' b' | None => None end
  end.

Definition map_o {A B : Type} (f : A -> option B) : list A -> option (list B) :=
  fix go l :=
    match l with
    | [] => Some []
    | a :: l' => match f a, go l' with Some b, Some bs => Some (b :: bs) | _, _ => None end
    end.

(** A tree in which the subtree at a path is replaced. *)
Fixpoint node_at {A} (p : list nat) (t : rtree A) : option (rtree A) :=
  match p with
  | [] => Some t
  | k :: p' => match nth_error (rt_children t) k with Some c => node_at p' c | None => None end
  end.
Fixpoint replace_nth {A} (k : nat) (x : A) (l : list A) : list A :=
  match l, k with
  | [], _ => []
  | _ :: l', 0 => x :: l'
  | y :: l', S k' => y :: replace_nth k' x l'
  end.
Fixpoint replace_at {A} (p : list nat) (b : rtree A) (t : rtree A) : option (rtree A) :=
  match p with
  | [] => Some b
  | k :: p' =>
      match nth_error (rt_children t) k with
      | Some c => match replace_at p' b c with Some c' => Some (RNode (rt_val t) (replace_nth k c' (rt_children t))) | None => None end
      | None => None
      end
  end.
Definition indexed {A} (l : list A) : list (nat * A) := combine (seq 0 (length l)) l.

Section Arith.
  Variable K : Coef.
  Notation C := (car K).
  Notation mat := (mat K).
  Notation lrm := (lrm K).
  Notation hmat := (rtree (hinfo K)).

  (** ** Dense matrices *)
  (** The matrix with the same sizes and pivots and the given data. *)
  Definition with_data (A : mat) (d : list C) : mat := mkPMat (mr A) (mc A) d (mp A).
  (** add_matrix_matrix_product, matrix/linalg/add_matrix_matrix_product.hpp 31-42. *)
  Definition add_matrix_matrix_product (ta tb : trans) (alpha : C) (A B : mat) (beta : C) (Cm : mat) : option mat :=
    let M := mr Cm in let N := mc Cm in
    let Kk := if is_N ta then mc A else mr A in
    option_map (with_data Cm)
      (gemm K ta tb M N Kk alpha (md A) (if is_N ta then M else Kk) (md B) (if is_N tb then Kk else N) beta (md Cm) M).
  (** transpose into a matrix of the right size, transpose.hpp 8-15. *)
  Definition transpose (A : mat) : mat := of_fun K (mc A) (mr A) (fun i j => me A j i).
  (** transpose into an existing matrix of the right size. *)
  Definition transpose_into (A B : mat) : mat := with_data B (md (transpose A)).
  (** scale, matrix/linalg/scale.hpp 9-14. *)
  Definition mat_scale (da : C) (A : mat) : option mat := option_map (with_data A) (scal K (mc A * mr A) da (md A)).
  (** conj_if_complex on all the coefficients, misc.hpp 32-38. *)
  Definition mat_conj (A : mat) : option mat := option_map (with_data A) (conj_buf K (mr A * mc A) (md A)).
  Definition conj_if (b : bool) (A : mat) : option mat := if b then mat_conj A else Some A.
  Definition is_C (t : trans) : bool := match t with TrC => true | _ => false end.

  (** The loops "for j < nc: std::copy_n(src + (sc+j)*rows + sr, nr, dst + (dc+j)*rows' + dr)": copy of a block; a block that
      does not fit in one of the matrices is not defined here. *)
  Definition copy_block (src : mat) (sr sc nr nc : nat) (dst : mat) (dr dc : nat) : option mat :=
    if (sr + nr <=? mr src) && (sc + nc <=? mc src) && (dr + nr <=? mr dst) && (dc + nc <=? mc dst) then
      Some (of_fun K (mr dst) (mc dst) (fun i j =>
        if (dr <=? i) && (i <? dr + nr) && (dc <=? j) && (j <? dc + nc) then me src (sr + (i - dr)) (sc + (j - dc)) else me dst i j))
    else None.
  (** Concatenation of the columns, of the rows: a new matrix with [c1 + c2] columns, resp. [r1 + r2] rows, filled by copies. *)
  Definition hcat (rows : nat) (A B : mat) : option mat :=
    do N <- copy_block A 0 0 (mr A) (mc A) (zeros K rows (mc A + mc B)) 0 0;
    copy_block B 0 0 (mr B) (mc B) N 0 (mc A).
  Definition vcat (cols : nat) (A B : mat) : option mat :=
    do N <- copy_block A 0 0 (mr A) (mc A) (zeros K (mr A + mr B) cols) 0 0;
    copy_block B 0 0 (mr B) (mc B) N (mr A) 0.

  (** ** Truncations *)
  (** recompression(LowRankMatrix &), lrmat/utils/recompression.hpp 20-186. *)
  Variable recompress : lrm -> lrm.
  (** The SVD of a dense matrix, truncated: the factors u sqrt(S) and sqrt(S) vt, lrmat/linalg/add_matrix_matrix_product.hpp
      25-65, add_hmatrix_matrix_product.hpp 52-89, add_matrix_hmatrix_product.hpp 62-99. *)
  Variable svd_factors : mat -> lrm.

  (** ** Low-rank matrices *)
  (** The default constructor: 0 x 0 matrices. *)
  Definition empty_lrm : lrm := mkLrm (zeros K 0 0) (zeros K 0 0).
  (** scale, lrmat/linalg/scale.hpp 8-15. *)
  Definition lr_scale (da : C) (L : lrm) : option lrm :=
    if mc (lU L) <? mr (lU L) then do U <- mat_scale da (lU L); Some (mkLrm U (lV L))
    else do V <- mat_scale da (lV L); Some (mkLrm (lU L) V).
  (** op(U)^T...: the matrix V of the transposed (conjugated) product: transpose and conj_if_complex. *)
  Definition transposed (conj : bool) (A : mat) : option mat := conj_if conj (transpose A).
  Definition overwritten (beta : C) (L : lrm) : bool := ceqb K beta (c0 K) || (lrank L =? 0).

  (** add_lrmat_lrmat, lrmat/linalg/add_lrmat_lrmat.hpp 14-105. *)
  Definition add_lrmat_lrmat (X : lrm) (Xt Xs : ctree) (Y : lrm) (Yt Ys : ctree) : option lrm :=
    let UX := lU X in let VX := lV X in let UY := lU Y in let VY := lV Y in
    if contains Yt Xt && contains Ys Xs then
      let ro := c_off Xt - c_off Yt in
      let co := c_off Xs - c_off Ys in
      if lrank Y =? 0 then
        do U <- copy_block UX 0 0 (mr UX) (mc UX) (zeros K (mr UY) (lrank X)) ro 0;
        do V <- copy_block VX 0 0 (mr VX) (mc VX) (zeros K (lrank X) (mc VY)) 0 co;
        Some (mkLrm U V)
      else
        do U1 <- copy_block UY 0 0 (mr UY) (mc UY) (zeros K (mr UY) (mc UX + mc UY)) 0 0;
        do U <- copy_block UX 0 0 (mr UX) (mc UX) U1 ro (mc UY);
        do V1 <- copy_block VY 0 0 (mr VY) (mc VY) (zeros K (mr VY + mr VX) (mc VY)) 0 0;
        do V <- copy_block VX 0 0 (mr VX) (mc VX) V1 (mr VY) co;
        Some (recompress (mkLrm U V))
    else if contains Xt Yt && contains Xs Ys then
      let ro := c_off Yt - c_off Xt in
      let co := c_off Ys - c_off Xs in
      if lrank Y =? 0 then
        do U <- copy_block UX ro 0 (mr UY) (mc UX) (zeros K (mr UY) (lrank X)) 0 0;
        do V <- copy_block VX 0 co (mr VX) (mc VY) (zeros K (lrank X) (mc VY)) 0 0;
        Some (mkLrm U V)
      else
        do U1 <- copy_block UY 0 0 (mr UY) (mc UY) (zeros K (mr UY) (mc UX + mc UY)) 0 0;
        do U <- copy_block UX ro 0 (mr UY) (mc UX) U1 0 (mc UY);
        do V1 <- copy_block VY 0 0 (mr VY) (mc VY) (zeros K (mr VY + mr VX) (mc VY)) 0 0;
        do V <- copy_block VX 0 co (mr VX) (mc VY) V1 (mr VY) 0;
        Some (recompress (mkLrm U V))
    else Some Y.  (* ERROR logged, line 103 *)

  (** Products with a low-rank matrix on the right.  [prod tb alpha B beta C]: C := alpha op(A) op(B) + beta C, A being a dense
      matrix (add_matrix_lrmat_product.hpp) or a hierarchical one (hmatrix/linalg/add_hmatrix_lrmat_product.hpp): the two
      files have the same text up to this call; [rows]: the number of rows of op(A). *)
  Section TimesLr.
    Variable prod : trans -> C -> mat -> C -> mat -> option mat.
    Variable rows : nat.
    (** add_matrix_lrmat_product.hpp 16-37, add_hmatrix_lrmat_product.hpp 17-38. *)
    Definition times_lr_dense (tb : trans) (alpha : C) (B : lrm) (beta : C) (Cm : mat) : option mat :=
      if lrank B =? 0 then Some Cm
      else if is_N tb then
        do AU <- prod TrN (c1 K) (lU B) (c0 K) (zeros K rows (mc (lU B)));
        add_matrix_matrix_product TrN TrN alpha AU (lV B) beta Cm
      else
        do AU <- prod tb (c1 K) (lV B) (c0 K) (zeros K rows (mr (lV B)));
        add_matrix_matrix_product TrN tb alpha AU (lU B) beta Cm.
    (** add_matrix_lrmat_product.hpp 40-112, add_hmatrix_lrmat_product.hpp 41-113. *)
    Definition times_lr_lr (tb : trans) (alpha : C) (B : lrm) (beta : C) (L : lrm) : option lrm :=
      if lrank B =? 0 then Some L
      else
        let UB := lU B in let VB := lV B in
        let left := if is_N tb then UB else VB in
        let AU0 := zeros K rows (if is_N tb then mc UB else mr VB) in
        do right <- (if is_N tb then Some VB else transposed (is_C tb) UB);
        if overwritten beta L then
          do U <- prod tb alpha left (c0 K) AU0;
          Some (mkLrm U right)
        else
          do VC <- mat_scale beta (lV L);
          do V <- vcat (mc VC) right VC;
          do AU <- prod tb alpha left (c0 K) AU0;
          do U <- hcat (mr AU) AU (lU L);
          Some (recompress (mkLrm U V)).
  End TimesLr.

  (** Products with a low-rank matrix on the left.  [prod ta alpha A beta C]: C := alpha op(A) op(B) + beta C, B being a dense
      matrix (add_lrmat_matrix_product.hpp) or a hierarchical one (hmatrix/linalg/add_lrmat_hmatrix_product.hpp);
      [cols]: the number of columns of op(B); [again]: the recompression at the end of the first branch of the dense version
      (add_lrmat_matrix_product.hpp 60-62). *)
  Section LrTimes.
    Variable prod : trans -> C -> mat -> C -> mat -> option mat.
    Variable cols : nat.
    Variable again : bool.
    (** add_lrmat_matrix_product.hpp 15-33, add_lrmat_hmatrix_product.hpp 17-32. *)
    Definition lr_times_dense (ta : trans) (alpha : C) (A : lrm) (beta : C) (Cm : mat) : option mat :=
      if lrank A =? 0 then Some Cm
      else if is_N ta then
        do VB <- prod TrN (c1 K) (lV A) (c0 K) (zeros K (mr (lV A)) cols);
        add_matrix_matrix_product TrN TrN alpha (lU A) VB beta Cm
      else
        do UtB <- prod ta (c1 K) (lU A) (c0 K) (zeros K (mr (lV A)) cols);
        add_matrix_matrix_product ta TrN alpha (lV A) UtB beta Cm.
    (** add_lrmat_matrix_product.hpp 36-112, add_lrmat_hmatrix_product.hpp 35-103. *)
    Definition lr_times_lr (ta : trans) (alpha : C) (A : lrm) (beta : C) (L : lrm) : option lrm :=
      if lrank A =? 0 then Some L
      else
        let UA := lU A in let VA := lV A in
        let right := if is_N ta then VA else UA in
        let rk := if is_N ta then mr VA else mc UA in
        do left <- (if is_N ta then Some UA else transposed (is_C ta) VA);
        if overwritten beta L then
          do V <- prod ta alpha right (c0 K) (zeros K rk cols);
          let R := mkLrm left V in
          if again && (mr left * mc V <? lrank R * (mr left + mc V)) then Some (recompress R) else Some R
        else
          do U <- hcat (mr left) left (lU L);
          do VB <- prod ta alpha right (c0 K) (zeros K (mr VA) cols);
          do VC <- mat_scale beta (lV L);
          do V <- vcat (mc VC) VB VC;
          Some (recompress (mkLrm U V)).
  End LrTimes.

  (** add_matrix_lrmat_product, add_lrmat_matrix_product. *)
  Definition add_matrix_lrmat_product_dense ta tb alpha (A : mat) B beta Cm :=
    times_lr_dense (fun tb alpha B beta Cm => add_matrix_matrix_product ta tb alpha A B beta Cm)
      (if is_N ta then mr A else mc A) tb alpha B beta Cm.
  Definition add_matrix_lrmat_product_lr ta tb alpha (A : mat) B beta L :=
    times_lr_lr (fun tb alpha B beta Cm => add_matrix_matrix_product ta tb alpha A B beta Cm)
      (if is_N ta then mr A else mc A) tb alpha B beta L.
  Definition add_lrmat_matrix_product_dense ta tb alpha A (B : mat) beta Cm :=
    lr_times_dense (fun ta alpha A beta Cm => add_matrix_matrix_product ta tb alpha A B beta Cm)
      (if is_N tb then mc B else mr B) ta alpha A beta Cm.
  Definition add_lrmat_matrix_product_lr ta tb alpha A (B : mat) beta L :=
    lr_times_lr (fun ta alpha A beta Cm => add_matrix_matrix_product ta tb alpha A B beta Cm)
      (if is_N tb then mc B else mr B) true ta alpha A beta L.

  (** add_lrmat_lrmat_product, lrmat/linalg/add_lrmat_lrmat_product.hpp 15-34 (dense C) and 36-101 (low-rank C). *)
  Definition add_lrmat_lrmat_product_dense (ta tb : trans) (alpha : C) (A B : lrm) (beta : C) (Cm : mat) : option mat :=
    if (lrank A =? 0) || (lrank B =? 0) then Some Cm
    else if is_N tb then
      do AUB <- add_lrmat_matrix_product_dense ta TrN (c1 K) A (lU B) (c0 K) (zeros K (mr Cm) (lrank B));
      add_matrix_matrix_product TrN TrN alpha AUB (lV B) beta Cm
    else
      do AVB <- add_lrmat_matrix_product_dense ta tb (c1 K) A (lV B) (c0 K) (zeros K (mr Cm) (mr (lV B)));
      add_matrix_matrix_product TrN tb alpha AVB (lU B) beta Cm.
  (** nb_rows() and nb_cols() of a low-rank matrix: those of U and V (lrmat.hpp). *)
  Definition add_lrmat_lrmat_product_lr (ta tb : trans) (alpha : C) (A B : lrm) (beta : C) (L : lrm) : option lrm :=
    if (lrank A =? 0) || (lrank B =? 0) then Some L
    else
      let UB := lU B in let VB := lV B in
      let left := if is_N tb then UB else VB in
      do right <- (if is_N tb then Some VB else transposed (is_C tb) UB);
      if overwritten beta L then
        do U <- add_lrmat_matrix_product_dense ta tb alpha A left (c0 K)
          (zeros K (if is_N ta then mr (lU A) else mc (lV A)) (if is_N tb then mc UB else mr VB));
        Some (mkLrm U right)
      else
        do U1 <- add_lrmat_matrix_product_dense ta tb alpha A left (c0 K) (zeros K (mr (lU L)) (mc UB));
        do U <- hcat (mr (lU L)) U1 (lU L);
        do VC <- mat_scale beta (lV L);
        do V <- vcat (mc VC) right VC;
        Some (recompress (mkLrm U V)).

  (** The end of the products of two matrices that are not low-rank into a low-rank matrix: [AB] is the product,
      lrmat/linalg/add_matrix_matrix_product.hpp 26-85, add_hmatrix_matrix_product.hpp 53-119, add_matrix_hmatrix_product.hpp
      63-129. *)
  Definition add_svd (AB : mat) (beta : C) (L : lrm) : option lrm :=
    let R := svd_factors AB in
    if overwritten beta L then Some R
    else
      do U <- hcat (mr (lU R)) (lU R) (lU L);
      do VC <- mat_scale beta (lV L);
      do V <- vcat (mc VC) (lV R) VC;
      Some (recompress (mkLrm U V)).
  (** add_matrix_matrix_product (low-rank C), lrmat/linalg/add_matrix_matrix_product.hpp 15-86; AB starts at 0. *)
  Definition add_matrix_matrix_product_lr (ta tb : trans) (alpha : C) (A B : mat) (beta : C) (L : lrm) : option lrm :=
    let nr := if is_N ta then mr A else mc A in
    let nc := if is_N tb then mc B else mr B in
    do AB <- add_matrix_matrix_product ta tb alpha A B beta (zeros K nr nc);
    add_svd AB beta L.

  (** ** Hierarchical matrices *)
  Notation hv := rt_val.
  (** nb_rows(), nb_cols() of a hierarchical matrix: the sizes of its clusters. *)
  Definition h_rows (A : hmat) : nat := c_size (h_t (hv A)).
  Definition h_cols (A : hmat) : nat := c_size (h_s (hv A)).

  (** get_sub_hmatrix, hmatrix.hpp 153-190: breadth-first search; the result is the path of the node. *)
  Fixpoint bfs (fuel : nat) (q : list (list nat * hmat)) (t s : ctree) : option (list nat) :=
    match q with
    | [] => None
    | (p, h) :: q' =>
        match fuel with
        | 0 => None
        | S f =>
            if ceq t (h_t (hv h)) && ceq s (h_s (hv h)) then Some p
            else bfs f (q' ++ map (fun kc => (p ++ [fst kc], snd kc)) (indexed (rt_children h))) t s
        end
    end.
  Definition sub_path (A : hmat) (t s : ctree) : option (list nat) := bfs (length (preorder A)) [([], A)] t s.
  Definition sub (A : hmat) (t s : ctree) : option hmat := do p <- sub_path A t s; node_at p A.
  (** get_child_or_this, hmatrix.hpp 118-140. *)
  Definition child_path (A : hmat) (t s : ctree) : option (list nat) :=
    if ceq (h_t (hv A)) t && ceq (h_s (hv A)) s then Some []
    else option_map (fun kc => [fst kc])
           (find (fun kc => ceq (h_t (hv (snd kc))) t && ceq (h_s (hv (snd kc))) s) (indexed (rt_children A))).
  Definition child_or_this (A : hmat) (t s : ctree) : option hmat := do p <- child_path A t s; node_at p A.

  (** get_clusters_on_partition() of the tree of a cluster. *)
  Variable parts : ctree -> list ctree.
  (** The lists output_clusters, input_clusters, middle_clusters, add_hmatrix_hmatrix_product.hpp 41-75, 229-263. *)
  Definition kids (not_consistent : bool) (c : ctree) : list ctree :=
    if is_leaf c || (not_consistent && (0 <=? c_rank c)%Z) then [c]
    else if not_consistent then parts c
    else ct_children c.
  Definition above (c : ctree) : bool := (c_rank c <? 0)%Z.
  Definition not_consistent (A B : hmat) : bool :=
    above (h_t (hv A)) || above (h_s (hv A)) || above (h_t (hv B)) || above (h_s (hv B)).

  (** preorder_tree_traversal that collects the nodes with data (scale.hpp 13-17, add_lrmat_hmatrix.hpp 16-20), then a loop on
      them that modifies them: every node is modified independently of the others. *)
  Section OnLeaves.
    Variable f : hinfo K -> option (hdata K).
    Fixpoint on_leaves (A : hmat) : option hmat :=
      match A with
      | RNode i cs =>
          do d <- match h_data i with DNone => Some DNone | _ => f i end;
          do cs' <- map_o on_leaves cs;
          Some (RNode (mkHinfo K (h_t i) (h_s i) (h_sym i) (h_uplo i) d (h_lsym i) (h_luplo i)) cs')
      end.
  End OnLeaves.
  (** scale, hmatrix/linalg/scale.hpp 11-56: sequential and OpenMP versions. *)
  Definition h_scale (da : C) (A : hmat) : option hmat :=
    on_leaves (fun i =>
      match h_data i with
      | DDense D => option_map (@DDense K) (mat_scale da D)
      | DLow L => option_map (@DLow K) (lr_scale da L)
      | DNone => Some DNone
      end) A.
  (** internal_add_lrmat_hmatrix, add_lrmat_hmatrix.hpp 14-53. *)
  Definition add_lrmat_hmatrix (L : lrm) (A : hmat) : option hmat :=
    let Rt := h_t (hv A) in let Rs := h_s (hv A) in
    on_leaves (fun i =>
      match h_data i with
      | DDense D =>
          let ro := c_off (h_t i) - c_off Rt in
          let co := c_off (h_s i) - c_off Rs in
          let M := c_size (h_t i) in let N := c_size (h_s i) in
          do rU <- copy_block (lU L) ro 0 M (lrank L) (zeros K M (lrank L)) 0 0;
          do rV <- ptr K (md (lV L)) (co * mr (lV L));
          do d <- gemm K TrN TrN M N (lrank L) (c1 K) (md rU) M rV (lrank L) (c1 K) (md D) M;
          Some (DDense (with_data D d))
      | DLow Y => option_map (@DLow K) (add_lrmat_lrmat L Rt Rs Y (h_t i) (h_s i))
      | DNone => Some DNone
      end) A.

  (** internal_add_hmatrix_matrix_product (dense C), add_hmatrix_matrix_product.hpp 20-43. *)
  Definition add_hmatrix_matrix_product_dense (ta tb : trans) (alpha : C) (A : hmat) (B : mat) (beta : C) (Cm : mat) : option mat :=
    let tC := transpose Cm in
    do b <- (if is_N tb then Some (md (transpose B)) else if is_C tb then conj_buf K (mc B * mr B) (md B) else Some (md B));
    do d <- seq_mat K ta alpha A b beta (md tC) (mr tC);
    Some (transpose_into (with_data tC d) Cm).
  (** internal_add_hmatrix_matrix_product (low-rank C), lines 46-120. *)
  Definition add_hmatrix_matrix_product_lr (ta tb : trans) (alpha : C) (A : hmat) (B : mat) (beta : C) (L : lrm) : option lrm :=
    let nr := if is_N ta then h_rows A else h_cols A in
    let nc := if is_N tb then mc B else mr B in
    do AB <- add_hmatrix_matrix_product_dense ta tb alpha A B (c0 K) (zeros K nr nc);
    add_svd AB beta L.

  (** internal_add_matrix_hmatrix_product (dense C), add_matrix_hmatrix_product.hpp 20-53. *)
  Definition add_matrix_hmatrix_product_dense (ta tb : trans) (alpha : C) (A : mat) (B : hmat) (beta : C) (Cm : mat) : option mat :=
    let ls := h_lsym (hv B) in
    let nta := if is_N tb then (if sym_is_H ls || sym_is_S ls then TrN else TrT) else TrN in
    if is_N ta then
      let buf := is_C tb || (sym_is_H ls && is_N tb) in
      do a <- (if buf then conj_buf K (mc A * mr A) (md A) else Some (md A));
      do C1 <- conj_if buf Cm;
      do d <- seq_mat K nta (if buf then cconj K alpha else alpha) B a (if buf then cconj K beta else beta) (md C1) (mr Cm);
      conj_if buf (with_data Cm d)
    else
      do C1 <- conj_if (is_C tb) Cm;
      do tA <- conj_if (match ta with TrT => is_C tb | TrC => negb (is_C tb) | TrN => false end) (transpose A);
      do d <- seq_mat K nta (if is_C tb then cconj K alpha else alpha) B (md tA) (if is_C tb then cconj K beta else beta) (md C1) (mr Cm);
      conj_if (is_C tb) (with_data Cm d).
  (** internal_add_matrix_hmatrix_product (low-rank C), lines 56-130. *)
  Definition add_matrix_hmatrix_product_lr (ta tb : trans) (alpha : C) (A : mat) (B : hmat) (beta : C) (L : lrm) : option lrm :=
    let nr := if is_N ta then mr A else mc A in
    let nc := if is_N tb then h_cols B else h_rows B in
    do AB <- add_matrix_hmatrix_product_dense ta tb alpha A B (c0 K) (zeros K nr nc);
    add_svd AB beta L.

  (** internal_add_hmatrix_lrmat_product, internal_add_lrmat_hmatrix_product (dense and low-rank C). *)
  Definition add_hmatrix_lrmat_product_dense ta tb alpha (A : hmat) B beta Cm :=
    times_lr_dense (fun tb alpha B beta Cm => add_hmatrix_matrix_product_dense ta tb alpha A B beta Cm)
      (if is_N ta then h_rows A else h_cols A) tb alpha B beta Cm.
  Definition add_hmatrix_lrmat_product_lr ta tb alpha (A : hmat) B beta L :=
    times_lr_lr (fun tb alpha B beta Cm => add_hmatrix_matrix_product_dense ta tb alpha A B beta Cm)
      (if is_N ta then h_rows A else h_cols A) tb alpha B beta L.
  Definition add_lrmat_hmatrix_product_dense ta tb alpha A (B : hmat) beta Cm :=
    lr_times_dense (fun ta alpha A beta Cm => add_matrix_hmatrix_product_dense ta tb alpha A B beta Cm)
      (if is_N tb then h_cols B else h_rows B) ta alpha A beta Cm.
  Definition add_lrmat_hmatrix_product_lr ta tb alpha A (B : hmat) beta L :=
    lr_times_lr (fun ta alpha A beta Cm => add_matrix_hmatrix_product_dense ta tb alpha A B beta Cm)
      (if is_N tb then h_cols B else h_rows B) false ta alpha A beta L.

  (** output_cluster, middle_cluster, input_cluster, add_hmatrix_hmatrix_product.hpp 37-39, 225-227. *)
  Definition out_of (ta : trans) (A : hmat) : ctree := if is_N ta then h_t (hv A) else h_s (hv A).
  Definition mid_of (ta : trans) (A : hmat) : ctree := if is_N ta then h_s (hv A) else h_t (hv A).
  Definition in_of (tb : trans) (B : hmat) : ctree := if is_N tb then h_s (hv B) else h_t (hv B).
  Definition pairs_of (l1 l2 : list ctree) : list (ctree * ctree) := flat_map (fun o => map (fun i => (o, i)) l2) l1.

  (** internal_add_hmatrix_hmatrix_product (low-rank C), add_hmatrix_hmatrix_product.hpp 24-119.  The matrices of the vector
      low_rank_matrices are computed first, then added. *)
  Fixpoint hh_lr (fuel : nat) (ta tb : trans) (alpha : C) (A B : hmat) (beta : C) (L : lrm) : option lrm :=
    match fuel with
    | 0 => None
    | S f =>
        do L1 <- (if ceqb K beta (c1 K) then Some L else lr_scale beta L);
        match h_data (hv A), h_data (hv B) with
        | DNone, DNone =>
            let nc := not_consistent A B in
            let blocks := pairs_of (kids nc (out_of ta A)) (kids nc (in_of tb B)) in
            do ls <- map_o (fun oi =>
              fold_o (fun m acc =>
                do Ac <- (if is_N ta then sub A (fst oi) m else sub A m (fst oi));
                do Bc <- (if is_N tb then sub B m (snd oi) else sub B (snd oi) m);
                hh_lr f ta tb alpha Ac Bc (c1 K) acc)
                (kids nc (mid_of ta A)) (mkLrm (zeros K (c_size (fst oi)) 0) (zeros K 0 (c_size (snd oi))))) blocks;
            fold_o (fun x L => add_lrmat_lrmat (snd x) (fst (fst x)) (snd (fst x)) L (out_of ta A) (in_of tb B)) (combine blocks ls) L1
        | DDense a, DLow b => add_matrix_lrmat_product_lr ta tb alpha a b (c1 K) L1
        | DDense a, DDense b => add_matrix_matrix_product_lr ta tb alpha a b (c1 K) L1
        | DDense a, DNone => add_matrix_hmatrix_product_lr ta tb alpha a B (c1 K) L1
        | DLow a, DDense b => add_lrmat_matrix_product_lr ta tb alpha a b (c1 K) L1
        | DLow a, DLow b => add_lrmat_lrmat_product_lr ta tb alpha a b (c1 K) L1
        | DLow a, DNone => add_lrmat_hmatrix_product_lr ta tb alpha a B (c1 K) L1
        | DNone, DLow b => add_hmatrix_lrmat_product_lr ta tb alpha A b (c1 K) L1
        | DNone, DDense b => add_hmatrix_matrix_product_lr ta tb alpha A b (c1 K) L1
        end
    end.

  (** internal_add_hmatrix_hmatrix_product (dense C), add_hmatrix_hmatrix_product.hpp 121-205. *)
  Definition hh_dense (ta tb : trans) (alpha : C) (A B : hmat) (beta : C) (Cm : mat) : option mat :=
    do C1 <- (if ceqb K beta (c1 K) then Some Cm else mat_scale beta Cm);
    let densified :=
      do d <- copy_to_dense K B (repeat (c0 K) (h_rows B * h_cols B));
      add_hmatrix_matrix_product_dense ta tb alpha A (mkMat (h_rows B) (h_cols B) d) (c1 K) C1 in
    if not_consistent A B then densified
    else
      match h_data (hv A), h_data (hv B) with
      | DDense a, DLow b => add_matrix_lrmat_product_dense ta tb alpha a b (c1 K) C1
      | DDense a, DDense b => add_matrix_matrix_product ta tb alpha a b (c1 K) C1
      | DDense a, DNone => add_matrix_hmatrix_product_dense ta tb alpha a B (c1 K) C1
      | DLow a, DDense b => add_lrmat_matrix_product_dense ta tb alpha a b (c1 K) C1
      | DLow a, DLow b => add_lrmat_lrmat_product_dense ta tb alpha a b (c1 K) C1
      | DLow a, DNone => add_lrmat_hmatrix_product_dense ta tb alpha a B (c1 K) C1
      | DNone, DLow b => add_hmatrix_lrmat_product_dense ta tb alpha A b (c1 K) C1
      | DNone, DDense b => add_hmatrix_matrix_product_dense ta tb alpha A b (c1 K) C1
      | DNone, DNone => densified
      end.

  (** The node with other data. *)
  Definition set_data (i : hinfo K) (d : hdata K) : hinfo K := mkHinfo K (h_t i) (h_s i) (h_sym i) (h_uplo i) d (h_lsym i) (h_luplo i).
  Definition with_hdata (H : hmat) (d : hdata K) : hmat := RNode (set_data (hv H) d) (rt_children H).

  (** internal_add_hmatrix_hmatrix_product (hierarchical C), add_hmatrix_hmatrix_product.hpp 207-308; [fl]: fuel of the
      low-rank version. *)
  Fixpoint hh_h (fuel : nat) (ta tb : trans) (alpha : C) (A B : hmat) (beta : C) (H : hmat) : option hmat :=
    match fuel with
    | 0 => None
    | S f =>
        match h_data (hv H) with
        | DDense D => do D' <- hh_dense ta tb alpha A B beta D; Some (with_hdata H (DDense D'))
        | DLow L => do L' <- hh_lr fuel ta tb alpha A B beta L; Some (with_hdata H (DLow L'))
        | DNone =>
            match h_data (hv A), h_data (hv B) with
            | DNone, DNone =>
                do H1 <- (if ceqb K beta (c1 K) then Some H else h_scale beta H);
                let nc := not_consistent A B in
                fold_o (fun oi H =>
                  fold_o (fun m H =>
                    match (if is_N ta then child_or_this A (fst oi) m else child_or_this A m (fst oi)),
                          (if is_N tb then child_or_this B m (snd oi) else child_or_this B (snd oi) m),
                          child_path H (fst oi) (snd oi) with
                    | Some Ac, Some Bc, Some p =>
                        do Hc <- node_at p H;
                        do Hc' <- hh_h f ta tb alpha Ac Bc (c1 K) Hc;
                        replace_at p Hc' H
                    | _, _, _ => Some H
                    end) (kids nc (mid_of ta A)) H)
                  (pairs_of (kids nc (out_of ta A)) (kids nc (in_of tb B))) H1
            | DDense a, DLow b => do L <- add_matrix_lrmat_product_lr ta tb alpha a b beta empty_lrm; add_lrmat_hmatrix L H
            | DNone, DLow b => do L <- add_hmatrix_lrmat_product_lr ta tb alpha A b beta empty_lrm; add_lrmat_hmatrix L H
            | DLow a, DLow b => do L <- add_lrmat_lrmat_product_lr ta tb alpha a b beta empty_lrm; add_lrmat_hmatrix L H
            | DLow a, DDense b => do L <- add_lrmat_matrix_product_lr ta tb alpha a b beta empty_lrm; add_lrmat_hmatrix L H
            | DLow a, DNone => do L <- add_lrmat_hmatrix_product_lr ta tb alpha a B beta empty_lrm; add_lrmat_hmatrix L H
            | DDense a, DDense b => do L <- add_matrix_matrix_product_lr ta tb alpha a b beta empty_lrm; add_lrmat_hmatrix L H
            | DDense a, DNone => do L <- add_matrix_hmatrix_product_lr ta tb alpha a B beta empty_lrm; add_lrmat_hmatrix L H
            | DNone, DDense b => do L <- add_hmatrix_matrix_product_lr ta tb alpha A b beta empty_lrm; add_lrmat_hmatrix L H
            end
        end
    end.
End Arith.
