(** * Domain decomposition: local numbering, GenEO coarse space and coarse operator.

    Source: solvers/utility.hpp, solvers/geneo/coarse_space_builder.hpp, solvers/geneo/coarse_operator_builder.hpp,
    local_operators/local_operator.hpp.  No proofs in this file.  None: undefined behaviour. *)

From Coq Require Import List Arith Bool.
From Verif Require Import ClusterModel IOModel Algebra BlasModel HMatModel DistModel.
Import ListNotations.

(** ** LocalNumberingBuilder, utility.hpp 22-52 *)

(** v[i] = a and v[i] with the bounds of the vector. *)
Fixpoint upd {A : Type} (l : list A) (i : nat) (a : A) : option (list A) :=
  match l, i with
  | [], _ => None
  | _ :: r, 0 => Some (a :: r)
  | b :: r, S k => do r' <- upd r k a; Some (b :: r')
  end.
(** First loop, lines 34-37: state renum, local_to_global_numbering; -1 is None. *)
Definition number_inside (ovr clu : list nat) (n : nat) : option (list (option nat) * list nat) :=
  foldM (fun i (st : list (option nat) * list nat) =>
    do c <- nth_error clu i;
    do renum <- upd (fst st) c (Some i);
    do g <- nth_error ovr c;
    do l2g <- upd (snd st) i g;
    Some (renum, l2g)) (seq 0 (length clu)) (repeat None n, repeat 0 n).
(** Second loop, lines 38-44: state renum, local_to_global_numbering, count. *)
Definition number_overlap (ovr : list nat) (st : list (option nat) * list nat * nat) (n : nat) : option (list (option nat) * list nat * nat) :=
  foldM (fun i (st : list (option nat) * list nat * nat) =>
    let '(renum, l2g, count) := st in
    do x <- nth_error renum i;
    match x with
    | Some _ => Some st
    | None =>
        do renum' <- upd renum i (Some count);
        do g <- nth_error ovr i;
        do l2g' <- upd l2g count g;
        Some (renum', l2g', S count)
    end) (seq 0 n) st.
(** The constructor, lines 27-51; renum[...] left at -1 would be a negative index later: None. *)
Definition local_numbering (ovr clu : list nat) (inter : list (list nat)) : option (list nat * list (list nat)) :=
  let n := length ovr in
  do st <- number_inside ovr clu n;
  do st2 <- number_overlap ovr (st, length clu) n;
  let '(renum, l2g, _) := st2 in
  do is <- all_some (map (fun l => all_some (map (fun k => do x <- nth_error renum k; x) l)) inter);
  Some (l2g, is).

(** ** GenEO threshold, coarse_space_builder.hpp 98-103 (symmetric case)

    [val k]: abs(w[k]) (LAPACK's eigenvalues); [above x]: x > threshold; [index]: the indices in the order given by
    std::sort.  The loop reads index[nevi] before it checks nevi. *)
Fixpoint count_above {V : Type} (above : V -> bool) (val : nat -> V) (index : list nat) (fuel nevi : nat) : option nat :=
  match fuel with
  | 0 => None
  | S fuel' =>
      do k <- nth_error index nevi;
      if above (val k) && (nevi <? length index) then count_above above val index fuel' (S nevi) else Some nevi
  end.
(** The same for the general case, lines 146-151: [inf k]: abs(beta[k]) < 1e-15, [val k]: abs(alphar[k]/beta[k]). *)
Fixpoint count_above_gen {V : Type} (above : V -> bool) (inf : nat -> bool) (val : nat -> V) (index : list nat) (fuel nevi : nat) : option nat :=
  match fuel with
  | 0 => None
  | S fuel' =>
      do k <- nth_error index nevi;
      if inf k || (above (val k) && (nevi <? length index)) then count_above_gen above inf val index fuel' (S nevi) else Some nevi
  end.

Section Solver.
  Variable K : Coef.
  Notation C := (car K).
  Notation buf := (list C).

  (** The coarse space: Z(n, nevi) = 0, then Z(i,j) = ev(i, index[j]) on the rows inside, lines 123-129, 173-179.  [ev]: the
      n x n matrix of the eigenvectors. *)
  Definition coarse_vectors (n inside nevi : nat) (ev : mat K) (index : list nat) : option (mat K) :=
    do d <- fold_opt K (fun i b => fold_opt K (fun j b' =>
              do k <- nth_error index j;
              if i + k * mr ev <? length (md ev) then set1 K (i + j * n) (me ev i k) b' else None) (seq 0 nevi) b)
            (seq 0 inside) (repeat (c0 K) (n * nevi));
    Some (mkMat n nevi d).

  (** build_coarse_space, coarse_space_builder.hpp 64-130 (symmetry S or H) and 132-180: [above]: Some for a positive
      threshold; None: the first [nu] vectors.  w / (alphar, beta) and ev are LAPACK's results and index is the result of
      std::sort: both are arguments here (trusted library calls). *)
  Definition coarse_space_sym {V : Type} (above : option (V -> bool)) (nu : nat) (val : nat -> V) (n inside : nat) (ev : mat K) (index : list nat) : option (mat K) :=
    do nevi <- match above with Some ab => count_above ab val index (S n) 0 | None => Some nu end;
    coarse_vectors n inside nevi ev index.
  Definition coarse_space_gen {V : Type} (above : option (V -> bool)) (nu : nat) (inf : nat -> bool) (val : nat -> V) (n inside : nat) (ev : mat K) (index : list nat) : option (mat K) :=
    do nevi <- match above with Some ab => count_above_gen ab inf val index (S n) 0 | None => Some nu end;
    coarse_vectors n inside nevi ev index.

  (** DAiD: the n x n matrix with the entries of Ai inside, lines 27-37.  The two cases read columns of length n or of
      length inside; another number of columns leaves zeros. *)
  Definition build_daid (inside n : nat) (Ai : mat K) : option (mat K) :=
    do d <- (if mc Ai =? n then
               fold_opt K (fun i b => do s <- ptr K (md Ai) (i * n); put K b s (0 + i * n) inside) (seq 0 inside) (repeat (c0 K) (n * n))
             else if mc Ai =? inside then
               fold_opt K (fun i b => do s <- ptr K (md Ai) (i * inside); put K b s (0 + i * n) inside) (seq 0 inside) (repeat (c0 K) (n * n))
             else Some (repeat (c0 K) (n * n)));
    Some (mkMat n n d).

  (** ** sub_matrix_product_to_local, local_operator.hpp 214-231, and local_sub_matrix_vector_product, 38-42 *)
  Definition lo_sub (o : lop K) (inp out : buf) (mu offset size : nat) : option buf :=
    let so := fst (lo_s K o) in
    let ss := snd (lo_s K o) in
    if (offset + size <? so) || (so + ss <? offset) then Some out
    else if (so =? offset) && (ss + so =? size + offset) then lo_mat K o TrN (c1 K) inp (c0 K) out mu
    else
      let temp_offset := Nat.max offset so in
      do temp_in <- (if offset <? so then ptr K inp (so - offset) else Some inp);
      let temp_size := if size + offset <=? ss + so then size - (so - offset) else size - (so - offset) - (size + offset - so - ss) in
      do temp <- put K (repeat (c0 K) (ss * mu)) temp_in (temp_offset * mu) (temp_size * mu);
      lo_add_mat K o (c1 K) temp (c0 K) out mu.

  (** ** build_geneo_coarse_operator, coarse_operator_builder.hpp 17-131

      [parts]: offset and size of the parts of the target partition; [zs r]: the coarse vectors Z[0..nevi-1] of process r;
      [subs r]: sub_matrix_product_to_local of the local operators of process r; [n r]: its size with overlap.
      The function returns the content of E on every process before the reduction and the result of MPI_Reduce on
      process 0. *)
  Section Coarse.
    Variables (parts : list (nat * nat)) (sym : symc) (n : nat -> nat) (zs : nat -> list buf)
              (subs : nat -> list (buf -> buf -> nat -> nat -> nat -> option buf)).
    Definition world_c : nat := length parts.
    Definition n_inside (r : nat) : nat := match nth_error parts r with Some p => snd p | None => 0 end.
    Definition off_of (r : nat) : nat := match nth_error parts r with Some p => fst p | None => 0 end.
    (** lines 27-39: MPI_Allgather of the numbers of vectors. *)
    Definition nevis : list nat := map (fun r => length (zs r)) (seq 0 world_c).
    Definition displs : list nat := prefix_sums 0 nevis.
    Definition size_E : nat := fold_right Nat.add 0 nevis.
    Definition nevi_max : nat := fold_right Nat.max 0 nevis.
    (** lines 41-45: evi. *)
    Definition build_evi (r : nat) : option buf :=
      fold_opt K (fun i b => put K b (nth i (zs r) []) (i * n r) (n_inside r)) (seq 0 (length (zs r))) (repeat (c0 K) (length (zs r) * n r)).
    (** lines 82-97 on process i, then MPI_Bcast: the buffer of all the processes. *)
    Definition pack_evi (i : nat) (evi : buf) : option buf :=
      let mu := nth i nevis 0 in
      fold_opt K (fun j b => fold_opt K (fun k b' => mov K evi (j * n i + k) (mu * k + j) b') (seq 0 (n_inside i)) b) (seq 0 mu)
        (repeat (c0 K) (n_inside i * mu)).
    (** std::inner_product of two sequences of length len, lines 122-123. *)
    Definition inner (len : nat) (x y : buf) : option C :=
      if (len <=? length x) && (len <=? length y) then Some (sum len (fun k => cmul K (get x k) (get y k))) else None.
    (** The contribution of the vectors of process i on process r, lines 78-127: state E, AZ. *)
    Definition one_root (r : nat) (evi : buf) (i : nat) (bcast : buf) (st : buf * buf) : option (buf * buf) :=
      let mu := nth i nevis 0 in
      if mu =? 0 then Some st
      else
        do az0 <- fill0 K (mu * n_inside r) (snd st);
        do b <- match sym with SyH => conj_buf K (length bcast) bcast | _ => Some bcast end;
        do az <- fold_opt K (fun f a => f b a mu (off_of i) (n_inside i)) (subs r) az0;
        do e <- fold_opt K (fun j e =>
          do v <- fold_opt K (fun k v => mov K az (j + mu * k) k v) (seq 0 (n_inside r)) (repeat (c0 K) (n r));
          fold_opt K (fun jj e' =>
            do x <- ptr K evi (jj * n r);
            do c <- inner (n_inside r) x v;
            set1 K (nth i displs 0 + j + (nth r displs 0 + jj) * size_E) c e') (seq 0 (length (zs r))) e) (seq 0 mu) (fst st);
        Some (e, az).
    Definition local_E (r : nat) : option buf :=
      do evi <- build_evi r;
      do st <- foldM (fun i st =>
        do evi_i <- build_evi i;
        do bcast <- pack_evi i evi_i;
        one_root r evi i bcast st) (seq 0 world_c) (repeat (c0 K) (size_E * size_E), repeat (c0 K) (nevi_max * n_inside r));
      Some (fst st).
    (** MPI_Reduce(MPI_SUM) on process 0, lines 127-130. *)
    Definition coarse_operator : option (mat K) :=
      do es <- on_ranks world_c local_E;
      Some (mkMat size_E size_E (mk (size_E * size_E) (fun p => lsum es (fun e => get e p)))).
  End Coarse.
End Solver.
