(** * Specification vocabulary for hierarchical matrices.

    What the matrices mean, entry by entry, independently of the product routines. *)

From Coq Require Import List Arith Bool.
From Verif Require Import ClusterModel ClusterSpec IOModel BlockModel BlockSpec Algebra BlasModel HMatModel.
Import ListNotations.

Section S.
  Variable K : Coef.
  Notation C := (car K).

  (** The buffer of a matrix has r*c coefficients. *)
  Definition wf_mat (A : mat K) (r c : nat) : Prop := mr A = r /\ mc A = c /\ length (md A) = r * c.
  (** Entries of U V. *)
  Definition lr_entry (L : lrm K) (i j : nat) : C := sum (lrank L) (fun k => cmul K (me (lU L) i k) (me (lV L) k j)).
  Definition wf_lrm (L : lrm K) (r c : nat) : Prop := wf_mat (lU L) r (lrank L) /\ wf_mat (lV L) (lrank L) c.

  (** Entries of a symmetric (Hermitian) matrix given by one triangle: the other triangle is the transpose (conjugate). *)
  Definition from_triangle (u : uplo) (f : C -> C) (A : mat K) (i j : nat) : C :=
    if in_triangle u i j then me A i j else f (me A j i).

  (** Entry (i,j), local to the block, of a leaf. *)
  Definition leaf_entry (h : hinfo K) (i j : nat) : C :=
    match h_data h with
    | DDense A =>
        match h_sym h with
        | SyS => from_triangle (h_uplo h) (fun x => x) A i j
        | SyH => from_triangle (h_uplo h) (cconj K) A i j
        | _ => me A i j
        end
    | DLow L => lr_entry L i j
    | DNone => c0 K
    end.

  (** Data of the right size; a block with symmetry is a diagonal block, and the diagonal entries of a Hermitian block
      are real. *)
  Definition wf_leaf (h : hinfo K) : Prop :=
    1 <= c_size (h_t h) /\ 1 <= c_size (h_s h) /\
    match h_data h with
    | DDense A =>
        wf_mat A (c_size (h_t h)) (c_size (h_s h)) /\
        (h_sym h <> SyN -> c_size (h_t h) = c_size (h_s h)) /\
        (h_sym h = SyH -> forall i, i < c_size (h_t h) -> cconj K (me A i i) = me A i i)
    | DLow L => wf_lrm L (c_size (h_t h)) (c_size (h_s h))
    | DNone => False
    end.

  (** Entry (i,j) of op(M). *)
  Definition op_fun (t : trans) (M : nat -> nat -> C) (i j : nat) : C :=
    match t with TrN => M i j | TrT => M j i | TrC => cconj K (M j i) end.

  (** The symmetry supports the operation: 'S' with 'N' and 'T', 'H' (complex) with 'N' and 'C'. *)
  Definition compat (t : trans) (s : symc) : Prop :=
    match s with
    | SyN => True
    | SyS => t <> TrC \/ cplx K = false
    | SyH => t <> TrT /\ cplx K = true
    | Sy0 => False
    end.

  (** The leaves of the hierarchical matrix hold the entries of M (global numbering of the clusters). *)
  Definition represents (L : list (hinfo K)) (M : nat -> nat -> C) : Prop :=
    forall h, In h L -> forall i j, i < c_size (h_t h) -> j < c_size (h_s h) ->
      leaf_entry h i j = M (c_off (h_t h) + i) (c_off (h_s h) + j).

  Definition hcovers (i j : nat) (h : hinfo K) : bool := in_iv i (interval (h_t h)) && in_iv j (interval (h_s h)).

  (** The image of an entry under the symmetry. *)
  Definition flip (s : symc) (x : C) : C := match s with SyH => cconj K x | _ => x end.

  (** Structure of a hierarchical matrix with root [r], leaves [L], leaves for symmetry [Y] and symmetry type [sy]: the
      leaves hold data of the right size, lie in the block of the root, and cover it exactly once together with the mirror
      images of [Y]. *)
  Record well_formed (r : hinfo K) (L Y : list (hinfo K)) (sy : symc) : Prop := {
    wf_leaves : forall h, In h L -> wf_leaf h /\ (h_sym h = SyN \/ h_sym h = sy);
    wf_in : forall h, In h L -> contains (h_t r) (h_t h) = true /\ contains (h_s r) (h_s h) = true;
    wf_sub : forall h, In h Y -> In h L /\ contains (h_t r) (h_s h) = true /\ contains (h_s r) (h_t h) = true;
    wf_lsym : Y <> [] -> h_lsym r = sy /\ sy <> SyN;
    wf_once : forall i j, in_iv i (interval (h_t r)) = true -> in_iv j (interval (h_s r)) = true ->
      count (hcovers i j) L + count (hcovers j i) Y = 1
  }.

  (** The matrix that it represents: the entry of the leaf that contains (i,j), or the image under the symmetry of the entry
      (j,i) of the leaf for symmetry that contains it. *)
  Definition value (L Y : list (hinfo K)) (sy : symc) (i j : nat) : C :=
    match find (hcovers i j) L with
    | Some h => leaf_entry h (i - c_off (h_t h)) (j - c_off (h_s h))
    | None =>
        match find (hcovers j i) Y with
        | Some h => flip sy (leaf_entry h (j - c_off (h_t h)) (i - c_off (h_s h)))
        | None => c0 K
        end
    end.

  (** [M] is this matrix on the blocks. *)
  Record holds_matrix (r : hinfo K) (L Y : list (hinfo K)) (sy : symc) (M : nat -> nat -> C) : Prop := {
    hm_wf : well_formed r L Y sy;
    hm_entries : represents L M;
    hm_sym : forall h, In h Y -> forall i j, in_iv i (interval (h_t h)) = true -> in_iv j (interval (h_s h)) = true ->
      M j i = flip sy (M i j)
  }.

  (** [y'] is beta y + alpha op(M) x for mu vectors stored by rows (coefficient c of row i at position i*mu+c), the rows and
      columns of M being those of the root [r]; the memory behind the output is unchanged. *)
  Definition is_product (r : hinfo K) (M : nat -> nat -> C) (t : trans) (mu : nat) (alpha beta : C) (x y y' : list C) : Prop :=
    let out := if is_N t then h_t r else h_s r in
    let inn := if is_N t then h_s r else h_t r in
    length y' = length y /\
    (forall i c, i < c_size out -> c < mu ->
      get y' (i * mu + c) = cadd K (cmul K beta (get y (i * mu + c)))
        (cmul K alpha (sum (c_size inn) (fun j => cmul K (op_fun t M (c_off out + i) (c_off inn + j)) (get x (j * mu + c)))))) /\
    (forall p, c_size out * mu <= p -> get y' p = get y p).
End S.
Arguments leaf_entry {K} h i j.
Arguments op_fun {K} t M i j.
Arguments hcovers {K} i j h.
Arguments represents {K} L M.
Arguments wf_leaf {K} h.
Arguments lr_entry {K} L i j.
Arguments wf_mat {K} A r c.
Arguments wf_lrm {K} L r c.
Arguments holds_matrix {K} r L Y sy M.
Arguments flip {K} s x.
Arguments is_product {K} r M t mu alpha beta x y y'.
Arguments well_formed {K} r L Y sy.
Arguments value {K} L Y sy i j.
