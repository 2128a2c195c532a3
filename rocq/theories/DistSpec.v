(** * Specification vocabulary for distributed operators. *)

From Coq Require Import List Arith Bool Permutation.
From Verif Require Import ClusterModel ClusterSpec IOModel BlockModel Algebra BlasModel HMatModel DistModel.
Import ListNotations.

(** A partition of [0,n) in P consecutive parts in the order of the ranks, with a renumbering of [0,n). *)
Record partition_ok (p : partition) (P : nat) : Prop := {
  po_perm : Permutation (pa_perm p) (seq 0 (pa_n p));
  po_count : length (pa_parts p) = P;
  po_tiles : tiles 0 (pa_n p) (pa_parts p)
}.
(** The renumbering sends every part to itself. *)
Definition partition_local (p : partition) : Prop :=
  forall os, In os (pa_parts p) -> Permutation (slice (fst os) (snd os) (pa_perm p)) (seq (fst os) (snd os)).
(** User index of the position i of the partition numbering (the same without permutation). *)
Definition user_index (use : bool) (p : partition) (i : nat) : nat := if use then nth i (pa_perm p) 0 else i.

Section S.
  Variable K : Coef.
  Notation C := (car K).
  Notation buf := (list C).

  (** The first n coefficients of the buffer are those of the vector x. *)
  Definition holds_vec (b : buf) (n : nat) (x : nat -> C) : Prop := n <= length b /\ forall i, i < n -> get b i = x i.
  (** mu columns of n coefficients: coefficient i of column c at position i + c*n. *)
  Definition holds_cols (b : buf) (n mu : nat) (X : nat -> nat -> C) : Prop :=
    n * mu <= length b /\ forall i c, i < n -> c < mu -> get b (i + c * n) = X i c.
  (** The same by rows: coefficient i of column c at position i*mu + c. *)
  Definition holds_rows (b : buf) (n mu : nat) (X : nat -> nat -> C) : Prop :=
    n * mu <= length b /\ forall i c, i < n -> c < mu -> get b (i * mu + c) = X i c.
  (** The new content of an output buffer of which only the first n coefficients may have changed. *)
  Definition only_first (n : nat) (b b' : buf) : Prop := length b' = length b /\ forall p, n <= p -> get b' p = get b p.

  (** [run x y] adds to the [no] rows of [y] the product of the no x ni matrix [B] by the [ni] rows of [x]; rows of mu
      coefficients. *)
  Definition adds_product (run : buf -> buf -> option buf) (no ni mu : nat) (B : nat -> nat -> C) : Prop :=
    forall x y, ni * mu <= length x -> no * mu <= length y ->
      exists y', run x y = Some y' /\ only_first (no * mu) y y' /\
        forall i c, i < no -> c < mu ->
          get y' (i * mu + c) = cadd K (get y (i * mu + c)) (sum ni (fun j => cmul K (B i j) (get x (j * mu + c)))).
  (** The runs add the products of matrices whose sum is [M]. *)
  Definition add_up (runs : list (buf -> buf -> option buf)) (no ni mu : nat) (M : nat -> nat -> C) : Prop :=
    exists Bs, Forall2 (fun run B => adds_product run no ni mu B) runs Bs /\
      forall i j, i < no -> j < ni -> lsum Bs (fun B => B i j) = M i j.

  (** Products that overwrite the rows [so, so+sn) of the output instead of adding to them: right when these rows are
      zero. *)
  Definition adds_on_zero (run : buf -> buf -> option buf) (no ni mu so sn : nat) (B : nat -> nat -> C) : Prop :=
    so + sn <= no /\ (forall i j, i < no -> ~ so <= i < so + sn -> B i j = c0 K) /\
    forall x y, ni * mu <= length x -> no * mu <= length y ->
      (forall i c, so <= i < so + sn -> c < mu -> get y (i * mu + c) = c0 K) ->
      exists y', run x y = Some y' /\ only_first (no * mu) y y' /\
        forall i c, i < no -> c < mu ->
          get y' (i * mu + c) = cadd K (get y (i * mu + c)) (sum ni (fun j => cmul K (B i j) (get x (j * mu + c)))).
  (** The same for operators whose source clusters [so, so+sn) are disjoint. *)
  Definition add_up_disjoint (runs : list (buf -> buf -> option buf)) (no ni mu : nat) (M : nat -> nat -> C) : Prop :=
    exists Bs : list ((nat * nat) * (nat -> nat -> C)),
      Forall2 (fun run B => adds_on_zero run no ni mu (fst (fst B)) (snd (fst B)) (snd B)) runs Bs /\
      ForallOrdPairs disjoint_iv (map fst Bs) /\
      forall i j, i < no -> j < ni -> lsum Bs (fun B => snd B i j) = M i j.

  (** The global matrix A (user numbering): the local operators of every process add up to its row block. *)
  Section Blocks.
    Variables (D : dop K) (A : nat -> nat -> C).
    (** A in the numbering of the partitions *)
    Definition part_matrix (i j : nat) : C := A (user_index (d_perm K D) (d_t K D) i) (user_index (d_perm K D) (d_s K D) j).
    Definition row_blocks (run : vlop K -> buf -> buf -> option buf) (mu : nat) : Prop :=
      forall r o s, nth_error (pa_parts (d_t K D)) r = Some (o, s) ->
        add_up (map run (ops_of K D r)) s (pa_n (d_s K D)) mu (fun i j => part_matrix (o + i) j).
    (** the products by the transposed row blocks *)
    Definition transposed_blocks (run : vlop K -> buf -> buf -> option buf) (mu : nat) : Prop :=
      forall r o s, nth_error (pa_parts (d_t K D)) r = Some (o, s) ->
        add_up (map run (ops_of K D r)) (pa_n (d_s K D)) s mu (fun j i => part_matrix (o + i) j).
    Definition transposed_blocks_disjoint (run : vlop K -> buf -> buf -> option buf) (mu : nat) : Prop :=
      forall r o s, nth_error (pa_parts (d_t K D)) r = Some (o, s) ->
        add_up_disjoint (map run (ops_of K D r)) (pa_n (d_s K D)) s mu (fun j i => part_matrix (o + i) j).
    (** The operator declared symmetric or Hermitian: so is A. *)
    Definition sym_matrix : Prop :=
      match d_sym K D with
      | SyS => pa_n (d_t K D) = pa_n (d_s K D) /\ forall a b, a < pa_n (d_t K D) -> b < pa_n (d_s K D) -> A a b = A b a
      | SyH => pa_n (d_t K D) = pa_n (d_s K D) /\ forall a b, a < pa_n (d_t K D) -> b < pa_n (d_s K D) -> A a b = cconj K (A b a)
      | _ => True
      end.
  End Blocks.
  (** The four functions of a local operator as called by the distributed operator. *)
  Definition run_vec (v : vlop K) (x y : buf) : option buf := vl_vec K v (c1 K) x (c1 K) y.
  Definition run_mat (mu : nat) (v : vlop K) (x y : buf) : option buf := vl_mat K v (c1 K) x (c1 K) y mu.
  Definition run_tvec (v : vlop K) (x y : buf) : option buf := vl_tvec K v (c1 K) x (c1 K) y.
  Definition run_tmat (mu : nat) (v : vlop K) (x y : buf) : option buf := vl_tmat K v (c1 K) x (c1 K) y mu.

  (** A x and A^T x; nr, nc: numbers of rows and columns of A. *)
  Definition mul (nc : nat) (A : nat -> nat -> C) (x : nat -> C) (a : nat) : C := sum nc (fun b => cmul K (A a b) (x b)).
  Definition tmul (nr : nat) (A : nat -> nat -> C) (x : nat -> C) (b : nat) : C := sum nr (fun a => cmul K (A a b) (x a)).
  (** Part of a global vector. *)
  Definition part_of (o : nat) (x : nat -> C) (i : nat) : C := x (o + i).
End S.
Arguments holds_vec {K} b n x.
Arguments holds_cols {K} b n mu X.
Arguments holds_rows {K} b n mu X.
Arguments only_first {K} n b b'.
Arguments adds_product {K} run no ni mu B.
Arguments add_up {K} runs no ni mu M.
Arguments add_up_disjoint {K} runs no ni mu M.
Arguments adds_on_zero {K} run no ni mu so sn B.
Arguments row_blocks {K} D A run mu.
Arguments transposed_blocks {K} D A run mu.
Arguments transposed_blocks_disjoint {K} D A run mu.
Arguments part_matrix {K} D A i j.
Arguments sym_matrix {K} D A.
Arguments run_vec {K} v x y.
Arguments run_mat {K} mu v x y.
Arguments run_tvec {K} v x y.
Arguments run_tmat {K} mu v x y.
Arguments mul {K} nc A x a.
Arguments tmul {K} nr A x b.
Arguments part_of {K} o x i.
