(** * Properties C18-C23: hierarchical matrices, products with vectors, expansion to dense.

    Vocabulary: HMatModel.v (model), HMatSpec.v (specification): [value L Y sy] is the represented matrix, entry by entry,
    in the numbering of the clusters; [is_product r M t mu alpha beta x y y'] says that [y'] is beta y + alpha op(M) x.
    Coefficients: any commutative ring with a conjugation ([Coef]); exact arithmetic. *)

From Coq Require Import List Arith ZArith Bool Permutation Lia Ring.
From Verif Require Import ClusterModel ClusterSpec ClusterFinal IOModel IOSpec IOProofs BlockModel BlockSpec BlockProofs
  BlockFinal BlockSym BlockLink P_Cluster P_Block Algebra BlasModel BlasProofs HMatModel HMatSpec HMatProofs HMatLoops HMatProducts HMatBuild HMatTop.
Import ListNotations.

(** Only leaves hold data. *)
Definition data_on_leaves {K} (A : hmat K) : Prop := rt_children A = [] \/ h_data (rt_val A) = DNone.
(** The matrix is not just one block of rank 0 with beta different from 1. *)
Definition not_rank_0 {K} (beta : car K) (A : hmat K) : Prop :=
  beta = c1 K \/ forall L, h_data (rt_val A) = DLow L -> lrank L <> 0.

Lemma not_rank_0_ok : forall K beta (A : hmat K), not_rank_0 beta A -> beta_ok K beta (rt_val A).
Proof. intros K beta A [->|H]; [left; reflexivity|right]. destruct (h_data (rt_val A)) as [| |L]; [exact I|exact I|apply H; reflexivity]. Qed.

(** C18.  Without symmetry, for N, T and C. *)
Theorem C18_hmatrix_vector_product :
  forall K (A : hmat K) L,
    hleaves K A = Some (L, []) -> well_formed (rt_val A) L [] SyN -> data_on_leaves A ->
    forall t alpha beta x y, not_rank_0 beta A ->
      c_size (if is_N t then h_s (rt_val A) else h_t (rt_val A)) <= length x ->
      c_size (if is_N t then h_t (rt_val A) else h_s (rt_val A)) <= length y ->
      exists y', add_hmatrix_vector_product K t alpha A x beta y = Some y' /\
        is_product (rt_val A) (value L [] SyN) t 1 alpha beta x y y'.
Proof.
  intros K A L HL W HD t alpha beta x y Hb Hx Hy.
  exact (vec_ok K A L [] SyN _ HL (value_holds K _ _ _ _ W) HD t alpha beta x y I (not_rank_0_ok K beta A Hb) Hx Hy).
Qed.
Print Assumptions C18_hmatrix_vector_product.

(** The hypotheses are those of the matrices that HMatrixTreeBuilder builds without symmetry; an entry of the represented
    matrix is related to the entry of the generator by any reflexive relation (equality, an error bound) that relates the
    entries of the compressed blocks. *)
Theorem C18_built_matrices :
  forall K B gen compress T S fuel A,
    bb_uplo B = UpN -> partitioned T (bb_tparts B) -> partitioned S (bb_sparts B) -> nonempty T -> nonempty S -> part_valid B T ->
    compress_ok K compress ->
    hbuild K SyN B gen compress fuel T S = Some A ->
    exists L, hleaves K A = Some (L, []) /\ well_formed (rt_val A) L [] SyN /\ data_on_leaves A /\
      (forall i, in_iv i (interval (h_t (rt_val A))) = row_in B T i) /\ h_s (rt_val A) = S /\
      forall P : car K -> car K -> Prop, (forall c, P c c) -> compress_within K gen compress P ->
        forall i j, row_in B T i = true -> in_iv j (interval S) = true -> P (value L [] SyN i j) (gen i j).
Proof.
  intros K B gen compress T S fuel A HN HT HS NT NS HV Hco HB. unfold hbuild in HB.
  destruct (build_root B fuel T S) as [root|] eqn:E; [|discriminate]. injection HB as <-.
  destruct (nosym_built K SyN B gen compress Hco (fun q => ltac:(discriminate)) T S fuel root eq_refl HN HT HS NT NS HV E)
    as (L & H1 & H2 & H3 & H4 & H5 & H6).
  exists L. split; [exact H1|]. split; [exact H2|]. split; [exact H6|]. split; [exact H3|]. split; [exact H4|].
  intros P Pr Hw i j Hi Hj.
  apply (value_within K SyN B gen compress P Pr (rt_val (hfill K SyN B gen compress root)) L [] Hw (fun x y q => q) (or_introl eq_refl) H2).
  - intros h Hh. destruct (H5 h Hh) as (x & E1 & _ & E2 & E3 & E4). exists x. auto.
  - rewrite H3. exact Hi.
  - rewrite H4. exact Hj.
Qed.
Print Assumptions C18_built_matrices.

(** C19.  Symmetric or Hermitian: the represented matrix contains the mirror images of the leaves for symmetry. *)
Theorem C19_symmetric_product :
  forall K (A : hmat K) L Y sy,
    hleaves K A = Some (L, Y) -> well_formed (rt_val A) L Y sy -> data_on_leaves A ->
    forall t alpha beta x y, compat K t sy -> not_rank_0 beta A ->
      c_size (if is_N t then h_s (rt_val A) else h_t (rt_val A)) <= length x ->
      c_size (if is_N t then h_t (rt_val A) else h_s (rt_val A)) <= length y ->
      exists y', add_hmatrix_vector_product K t alpha A x beta y = Some y' /\
        is_product (rt_val A) (value L Y sy) t 1 alpha beta x y y'.
Proof.
  intros K A L Y sy HL W HD t alpha beta x y Hc Hb Hx Hy.
  exact (vec_ok K A L Y sy _ HL (value_holds K _ _ _ _ W) HD t alpha beta x y Hc (not_rank_0_ok K beta A Hb) Hx Hy).
Qed.
Print Assumptions C19_symmetric_product.

(** The matrices built with symmetry, for the whole matrix or one part (rows of [R], columns of [T]). *)
Theorem C19_built_matrices :
  forall K sy B gen compress T R fuel A,
    (sy = SyS \/ sy = SyH) -> (forall i j, gen j i = flip sy (gen i j)) ->
    bb_uplo B <> UpN -> partitioned T (bb_tparts B) -> bb_sparts B = bb_tparts B -> nonempty T -> bb_cons B = true ->
    ((bb_tpart B = None /\ bb_qpart B = None /\ R = T) \/
     (exists q, bb_tpart B = Some q /\ bb_qpart B = Some q /\ nth_error (bb_tparts B) q = Some R /\
        (R = T \/ ((c_rank T < 0)%Z /\ contains T R = true)))) ->
    compress_ok K compress ->
    hbuild K sy B gen compress fuel T T = Some A ->
    exists L Y, hleaves K A = Some (L, Y) /\ well_formed (rt_val A) L Y sy /\ data_on_leaves A /\
      h_t (rt_val A) = R /\ h_s (rt_val A) = T /\
      forall P : car K -> car K -> Prop, (forall c, P c c) -> (forall a b, P a b -> P (flip sy a) (flip sy b)) ->
        compress_within K gen compress P ->
        forall i j, in_iv i (interval R) = true -> in_iv j (interval T) = true -> P (value L Y sy i j) (gen i j).
Proof.
  intros K sy B gen compress T R fuel A Hsy Hg HU HT HP NT HC HR Hco HB. unfold hbuild in HB.
  destruct (build_root B fuel T T) as [root|] eqn:E; [|discriminate]. injection HB as <-.
  assert (Hgo : gen_ok K sy gen). { intros Eh i. rewrite (Hg i i) at 2. rewrite Eh. reflexivity. }
  destruct (sym_built K sy B gen compress Hco Hgo T R fuel root Hsy HU HT HP NT HC HR E) as (L & Y & H1 & H2 & H3 & H4 & H5 & H6).
  exists L, Y. split; [exact H1|]. split; [exact H2|]. split; [exact H6|]. split; [exact H3|]. split; [exact H4|].
  intros P Pr Pf Hw i j Hi Hj.
  apply (value_within K sy B gen compress P Pr (rt_val (hfill K sy B gen compress root)) L Y Hw Pf (or_intror Hg) H2).
  - intros h Hh. destruct (H5 h Hh) as (x & E1 & _ & E2 & E3 & E4). exists x. auto.
  - rewrite H3. exact Hi.
  - rewrite H4. exact Hj.
Qed.
Print Assumptions C19_built_matrices.

Lemma is_product_unique : forall K (r : hinfo K) M t alpha beta x y y1 y2,
  is_product r M t 1 alpha beta x y y1 -> is_product r M t 1 alpha beta x y y2 -> y1 = y2.
Proof.
  intros K r M t alpha beta x y y1 y2 (A1 & A2 & A3) (B1 & B2 & B3). apply (list_ext K); [congruence|]. intros i _.
  destruct (Nat.lt_ge_cases i (c_size (if is_N t then h_t r else h_s r))) as [Hi|Hi].
  - specialize (A2 i 0 Hi (le_n 1)). specialize (B2 i 0 Hi (le_n 1)). rewrite Nat.mul_1_r, Nat.add_0_r in A2, B2. congruence.
  - rewrite A3, B3 by lia. reflexivity.
Qed.

(** C20.  For every distribution of the leaves, and of the leaves for symmetry, over the threads and every order of the
    critical sections (the order of the list [threads]), the multithreaded product returns what the sequential one
    returns. *)
Theorem C20_schedule_independent :
  forall K (A : hmat K) L Y sy,
    hleaves K A = Some (L, Y) -> well_formed (rt_val A) L Y sy ->
    forall t alpha beta x y, compat K t sy ->
      c_size (if is_N t then h_s (rt_val A) else h_t (rt_val A)) <= length x ->
      c_size (if is_N t then h_t (rt_val A) else h_s (rt_val A)) <= length y ->
      exists y', seq_vec K t alpha A x beta y = Some y' /\ is_product (rt_val A) (value L Y sy) t 1 alpha beta x y y' /\
        forall threads, Permutation (concat (map fst threads)) L -> Permutation (concat (map snd threads)) Y ->
          omp_vec K threads t alpha A x beta y = Some y'.
Proof.
  intros K A L Y sy HL W t alpha beta x y Hc Hx Hy. pose proof (value_holds K _ _ _ _ W) as H.
  destruct (seq_vec_ok K A L Y sy _ HL H t Hc alpha beta x y Hx Hy) as (y' & E1 & E2).
  exists y'. split; [exact E1|]. split; [exact E2|]. intros threads P1 P2.
  destruct (omp_vec_ok K A L Y sy _ H t Hc threads alpha beta x y P1 P2 Hx Hy) as (y'' & F1 & F2).
  rewrite F1. f_equal. exact (is_product_unique _ _ _ _ _ _ _ _ _ _ F2 E2).
Qed.
Print Assumptions C20_schedule_independent.

(** C21.  Column [c] of n vectors stored by rows. *)
Definition column {K} (mu c n : nat) (x : list (car K)) : list (car K) := mk n (fun i => get x (i * mu + c)).

Theorem C21_columnwise :
  forall K (A : hmat K) L Y sy,
    hleaves K A = Some (L, Y) -> well_formed (rt_val A) L Y sy -> data_on_leaves A ->
    forall t mu alpha beta x y, 1 <= mu -> compat K t sy -> not_rank_0 beta A ->
      let nin := c_size (if is_N t then h_s (rt_val A) else h_t (rt_val A)) in
      let nout := c_size (if is_N t then h_t (rt_val A) else h_s (rt_val A)) in
      nin * mu <= length x -> nout * mu <= length y ->
      exists y', add_hmatrix_matrix_product_row_major K t alpha A x beta y mu = Some y' /\
        is_product (rt_val A) (value L Y sy) t mu alpha beta x y y' /\
        forall c, c < mu -> add_hmatrix_vector_product K t alpha A (column mu c nin x) beta (column mu c nout y) = Some (column mu c nout y').
Proof.
  intros K A L Y sy HL W HD t mu alpha beta x y Hmu Hc Hb nin nout Hx Hy. pose proof (value_holds K _ _ _ _ W) as H.
  destruct (mat_ok K A L Y sy _ HL H HD t mu alpha beta x y Hmu Hc (not_rank_0_ok K beta A Hb) Hx Hy) as (y' & E1 & E2).
  exists y'. split; [exact E1|]. split; [exact E2|]. intros c Hcm.
  assert (Lx : length (column mu c nin x) = nin) by apply length_mk. assert (Ly : length (column mu c nout y) = nout) by apply length_mk.
  assert (Hx' : c_size (if is_N t then h_s (rt_val A) else h_t (rt_val A)) <= length (column mu c nin x)) by (rewrite Lx; apply le_n).
  assert (Hy' : c_size (if is_N t then h_t (rt_val A) else h_s (rt_val A)) <= length (column mu c nout y)) by (rewrite Ly; apply le_n).
  destruct (vec_ok K A L Y sy _ HL H HD t alpha beta (column mu c nin x) (column mu c nout y) Hc (not_rank_0_ok K beta A Hb) Hx' Hy') as (y'' & F1 & F2).
  rewrite F1. f_equal. destruct F2 as (F2 & F3 & _). destruct E2 as (_ & E3 & _). fold nin nout in F3, E3.
  assert (Lz : length (column mu c nout y') = nout) by apply length_mk.
  apply (list_ext K); [rewrite F2, Ly, Lz; reflexivity|]. intros i Hi. rewrite F2, Ly in Hi.
  specialize (F3 i 0 Hi (le_n 1)). rewrite Nat.mul_1_r, Nat.add_0_r in F3. rewrite F3.
  unfold column at 3. rewrite get_mk. destruct (Nat.ltb_spec i nout); [|lia]. rewrite (E3 i c Hi Hcm).
  unfold column at 1. rewrite get_mk. destruct (Nat.ltb_spec i nout); [|lia]. do 2 f_equal. apply sum_ext. intros j Hj. f_equal.
  unfold column. rewrite get_mk, Nat.mul_1_r, Nat.add_0_r. destruct (Nat.ltb_spec j nin); [reflexivity|lia].
Qed.
Print Assumptions C21_columnwise.

(** and the multithreaded version *)
Theorem C21_schedule_independent :
  forall K (A : hmat K) L Y sy,
    hleaves K A = Some (L, Y) -> well_formed (rt_val A) L Y sy ->
    forall t mu alpha beta x y threads, 1 <= mu -> compat K t sy ->
      c_size (if is_N t then h_s (rt_val A) else h_t (rt_val A)) * mu <= length x ->
      c_size (if is_N t then h_t (rt_val A) else h_s (rt_val A)) * mu <= length y ->
      Permutation (concat (map fst threads)) L -> Permutation (concat (map snd threads)) Y ->
      exists y', omp_mat K threads t alpha A x beta y mu = Some y' /\ is_product (rt_val A) (value L Y sy) t mu alpha beta x y y'.
Proof.
  intros K A L Y sy HL W t mu alpha beta x y threads Hmu Hc Hx Hy P1 P2. pose proof (value_holds K _ _ _ _ W) as H.
  exact (omp_mat_ok K A L Y sy _ H t Hc threads mu alpha beta x y Hmu P1 P2 Hx Hy).
Qed.
Print Assumptions C21_schedule_independent.

(** C22.  copy_to_dense, without symmetry, all the low-rank blocks having a positive rank. *)
Theorem C22_copy_to_dense :
  forall K (A : hmat K) L,
    hleaves K A = Some (L, []) -> well_formed (rt_val A) L [] SyN ->
    (forall h Lr, In h L -> h_data h = DLow Lr -> lrank Lr <> 0) ->
    let nr := c_size (h_t (rt_val A)) in
    let nc := c_size (h_s (rt_val A)) in
    forall b, nr * nc <= length b ->
    exists b', copy_to_dense K A b = Some b' /\ length b' = length b /\
      (forall i j, i < nr -> j < nc -> get b' (i + j * nr) = value L [] SyN (c_off (h_t (rt_val A)) + i) (c_off (h_s (rt_val A)) + j)) /\
      (forall p, nr * nc <= p -> get b' p = get b p).
Proof.
  intros K A L HL W HR nr nc b Hb. pose proof (value_holds K _ _ _ _ W) as H.
  assert (Hready : forall h, In h L -> dense_ready K h).
  { intros h Hh. unfold dense_ready. destruct (h_data h) as [|D|Lr] eqn:Ed; [exact I| |exact (HR h Lr Hh Ed)].
    intros i j _ _. unfold leaf_entry. rewrite Ed. destruct (wf_leaves _ _ _ _ _ W h Hh) as [_ [->| ->]]; reflexivity. }
  destruct (expanded_nosym K A L [] SyN _ H Hready (fun i => i) (fun i => i)) with (b0 := b) as (b' & E1 & X1 & X2 & X3); auto.
  unfold copy_to_dense. rewrite HL. exists b'. split; [exact E1|]. split; [exact X1|]. split.
  - intros i j Hi Hj. specialize (X2 (c_off (h_t (rt_val A)) + i) (c_off (h_s (rt_val A)) + j)). rewrite <- X2.
    + f_equal. fold nr. f_equal; [lia|f_equal; lia].
    + apply in_ivb. fold nr. lia.
    + apply in_ivb. fold nc. lia.
  - intros p Hp. apply X3. intros i j Hi Hj. apply in_ivb in Hi, Hj. fold nr in Hi |- *. fold nc in Hj. nia.
Qed.
Print Assumptions C22_copy_to_dense.

(** copy_to_dense_in_user_numbering: entry (i,j) of the represented matrix at the position of the points
    (permutation i, permutation j), also with symmetry (the dense diagonal leaves being stored in full, as the builder
    does). *)
Theorem C22_copy_to_dense_in_user_numbering :
  forall K (A : hmat K) L Y sy tp sp,
    hleaves K A = Some (L, Y) -> well_formed (rt_val A) L Y sy -> compat K TrN sy ->
    (forall h, In h L -> dense_ready K h) ->
    let R := h_t (rt_val A) in
    let S := h_s (rt_val A) in
    (forall i, in_iv i (interval R) = true -> in_iv (tp i) (interval R) = true) ->
    (forall j, in_iv j (interval S) = true -> in_iv (sp j) (interval S) = true) ->
    (forall i i', in_iv i (interval R) = true -> in_iv i' (interval R) = true -> tp i = tp i' -> i = i') ->
    (forall j j', in_iv j (interval S) = true -> in_iv j' (interval S) = true -> sp j = sp j' -> j = j') ->
    (Y <> [] -> forall i, in_iv i (interval R) = true -> in_iv i (interval S) = true -> sp i = tp i) ->
    forall b, c_size R * c_size S <= length b ->
    exists b', copy_to_dense_in_user_numbering K tp sp A b = Some b' /\ length b' = length b /\
      forall i j, in_iv i (interval R) = true -> in_iv j (interval S) = true ->
        get b' ((tp i - c_off R) + (sp j - c_off S) * c_size R) = value L Y sy i j.
Proof.
  intros K A L Y sy tp sp HL W Hc HR R S T1 T2 T3 T4 T5 b Hb. pose proof (value_holds K _ _ _ _ W) as H.
  destruct (user_copy_ok K A L Y sy _ HL H HR tp sp T1 T2 T3 T4 b Hb Hc T5) as (b' & E1 & X1 & X2 & X3).
  exists b'. split; [exact E1|]. split; [exact X1|]. exact X2.
Qed.
Print Assumptions C22_copy_to_dense_in_user_numbering.

(** The leaves that the builder fills are ready for it. *)
Theorem C22_built_leaves_ready :
  forall K sy B gen compress x, (sy = SyN \/ forall i j, gen j i = flip sy (gen i j)) ->
    (forall t s, lrank (compress t s) <> 0) ->
    (b_sym x = true -> c_off (b_t x) = c_off (b_s x) /\ c_size (b_t x) = c_size (b_s x)) ->
    dense_ready K (hleaf K sy B gen compress x).
Proof.
  intros K sy B gen compress x Hg Hr Hsq. unfold dense_ready, leaf_entry, hleaf. cbn [h_data h_sym h_uplo h_t h_s].
  assert (D : forall i j, i < c_size (b_t x) -> j < c_size (b_s x) -> me (dense_data K gen (b_t x) (b_s x)) i j =
    match (if b_sym x then sy else SyN) with
    | SyS => from_triangle K (if b_sym x then bb_uplo B else UpN) (fun c => c) (dense_data K gen (b_t x) (b_s x)) i j
    | SyH => from_triangle K (if b_sym x then bb_uplo B else UpN) (cconj K) (dense_data K gen (b_t x) (b_s x)) i j
    | _ => me (dense_data K gen (b_t x) (b_s x)) i j
    end).
  { intros i j Hi Hj. destruct (b_sym x); [|reflexivity]. destruct (Hsq eq_refl) as [Q1 Q2].
    destruct Hg as [->|Hg]; [reflexivity|].
    assert (E : forall i j, i < c_size (b_t x) -> j < c_size (b_s x) -> me (dense_data K gen (b_t x) (b_s x)) i j = gen (c_off (b_t x) + i) (c_off (b_s x) + j)).
    { intros a c Ha Hc. unfold dense_data. rewrite of_fun_me by assumption. reflexivity. }
    destruct sy; try reflexivity; unfold from_triangle; destruct (in_triangle _ i j); try reflexivity; rewrite !E by lia; rewrite Q1; apply Hg. }
  unfold block_data. destruct (b_task x) as [[|]|]; [|exact D|exact I]. destruct (_ && _); [apply Hr|exact D].
Qed.
Print Assumptions C22_built_leaves_ready.

(** C23. *)
Theorem C23_lrmat_vector_product :
  forall K (L : lrm K) m n t alpha beta x y, wf_lrm L m n -> 1 <= m -> 1 <= n ->
    (if is_N t then n else m) <= length x -> (if is_N t then m else n) <= length y ->
    (lrank L = 0 -> add_lrmat_vector_product K t alpha L x beta y = Some y) /\
    (lrank L <> 0 \/ beta = c1 K ->
     exists y', add_lrmat_vector_product K t alpha L x beta y = Some y' /\ length y' = length y /\
      (forall i, i < (if is_N t then m else n) -> get y' i = cadd K (cmul K beta (get y i))
         (cmul K alpha (sum (if is_N t then n else m) (fun j => cmul K (op_fun t (lr_entry L) i j) (get x j))))) /\
      (forall p, (if is_N t then m else n) <= p -> get y' p = get y p)).
Proof.
  intros K L m n t alpha beta x y W Hm Hn Hx Hy. split.
  - intros E. unfold add_lrmat_vector_product. rewrite E. reflexivity.
  - intros Hr. destruct (low_vec_adds K t alpha beta L m n) with (x := x) (y := y) as (y' & E1 & E2 & E3 & E4); unfold rows_of; try (destruct (is_N t); lia); try assumption.
    + destruct Hr; auto.
    + exists y'. split; [exact E1|]. split; [exact E2|]. unfold rows_of in *. split.
      * intros i Hi. specialize (E3 i 0 Hi (le_n 1)). rewrite Nat.mul_1_r, Nat.add_0_r in E3. rewrite E3. do 2 f_equal.
        apply sum_ext. intros j _. rewrite Nat.mul_1_r, Nat.add_0_r. reflexivity.
      * intros p Hp. apply E4. lia.
Qed.
Print Assumptions C23_lrmat_vector_product.

(** *** Examples: the tree of 23 points of P_Block.v, a matrix of rank 2 compressed exactly. *)
Definition ex_gen (i j : nat) : Z := ((Z.of_nat i + 1) * (Z.of_nat j + 1) + Z.of_nat i + Z.of_nat j)%Z.
Definition ex_compress (t s : ctree) : lrm Zc :=
  mkLrm (of_fun Zc (c_size t) 2 (fun i k => let a := Z.of_nat (c_off t + i) in if k =? 0 then (a + 2)%Z else a))
        (of_fun Zc 2 (c_size s) (fun k j => let b := Z.of_nat (c_off s + j) in if k =? 0 then (b + 1)%Z else 1%Z)).
Definition ex_gen' (i j : nat) : car Zc := ((Z.of_nat i + 2) * (Z.of_nat j + 1) + Z.of_nat i)%Z.
Definition exA : option (hmat Zc) := hbuild Zc SyN (exB None None UpN true) ex_gen' ex_compress 200 exT exT.
Definition ex_x : list Z := map (fun i => (Z.of_nat (i * i) - 30)%Z) (seq 0 23).
Definition ex_y : list Z := map (fun i => (7 - Z.of_nat i)%Z) (seq 0 23).
Definition dense_product (n : nat) (alpha beta : Z) (f : nat -> nat -> Z) (x y : list Z) : list Z :=
  map (fun i => (beta * nth i y 0 + alpha * fold_right Z.add 0 (map (fun j => f i j * nth j x 0) (seq 0 n)))%Z) (seq 0 n).

Lemma ex_compress_ok : compress_ok Zc ex_compress.
Proof. intros t s. split; apply of_fun_wf. Qed.
Lemma ex_compress_exact : compress_within Zc ex_gen' ex_compress eq.
Proof.
  intros t s i j _ _ Hi Hj. unfold lr_entry, lrank. cbn [mc lU ex_compress of_fun mkMat sum].
  unfold ex_compress. cbn [lU lV]. rewrite !of_fun_me by lia. unfold ex_gen'. cbn [Nat.eqb cadd cmul Zc c0]. lia.
Qed.

Example ex_product : forall t, In t [TrN; TrT; TrC] ->
  match exA with
  | Some A =>
      (match hleaves Zc A with Some (L, _) => existsb (fun h => match h_data h with DLow _ => true | _ => false end) L = true | None => False end) /\
      add_hmatrix_vector_product Zc t 3%Z A ex_x (-2)%Z ex_y =
      Some (dense_product 23 3 (-2) (fun i j => if is_N t then ex_gen' i j else ex_gen' j i) ex_x ex_y)
  | None => False
  end.
Proof. intros t [<-|[<-|[<-|[]]]]; vm_compute; (split; reflexivity). Qed.

(** Symmetric, whole matrix; then the rows of part 3. *)
Definition exS (p : option nat) (u : uplo) : option (hmat Zc) :=
  hbuild Zc SyS (exB p p u true) (ex_gen : nat -> nat -> car Zc)
    (fun t s => mkLrm (of_fun Zc (c_size t) 2 (fun i k => let a := Z.of_nat (c_off t + i) in if k =? 0 then (a + 2)%Z else (a - 1)%Z))
                      (of_fun Zc 2 (c_size s) (fun k j => let b := Z.of_nat (c_off s + j) in if k =? 0 then (b + 1)%Z else 1%Z))) 200 exT exT.
Example ex_gen_sym : forall i j, ex_gen j i = flip (K:=Zc) SyS (ex_gen i j).
Proof. intros i j. unfold flip, ex_gen. lia. Qed.

(** Gaussian integers, Hermitian: a_i conj(a_j). *)
Definition ex_a (i : nat) : gz := (Z.of_nat i, 1)%Z.
Definition ex_herm (i j : nat) : car Gc := gmul (ex_a i) (gconj (ex_a j)).
Definition ex_hcomp (t s : ctree) : lrm Gc :=
  mkLrm (of_fun Gc (c_size t) 1 (fun i _ => ex_a (c_off t + i))) (of_fun Gc 1 (c_size s) (fun _ j => gconj (ex_a (c_off s + j)))).
Definition exH (u : uplo) : option (hmat Gc) := hbuild Gc SyH (exB None None u true) ex_herm ex_hcomp 200 exT exT.
Example ex_herm_sym : forall i j, ex_herm j i = flip (K:=Gc) SyH (ex_herm i j).
Proof. intros i j. unfold flip, ex_herm, ex_a, gmul, gconj. cbn [cconj Gc fst snd]. unfold gconj. cbn [fst snd]. apply pair_eq; ring. Qed.
Definition gsum (l : list gz) : gz := fold_right gadd (0, 0)%Z l.
Definition ex_gx : list gz := map (fun i => (Z.of_nat i, Z.of_nat (i * i))) (seq 0 23).
Definition ex_gy : list gz := map (fun i => (1, Z.of_nat i)%Z) (seq 0 23).

Example ex_sym_product : forall u, In u [UpL; UpU] ->
  match exS None u, exH u with
  | Some A, Some H =>
      (match hleaves Zc A with Some (L, Y) => 5 <= length Y | None => False end) /\
      add_hmatrix_vector_product Zc TrN 3%Z A ex_x (-2)%Z ex_y = Some (dense_product 23 3 (-2) ex_gen ex_x ex_y) /\
      add_hmatrix_vector_product Gc TrN (0, 1)%Z H ex_gx (2, 1)%Z ex_gy =
        Some (map (fun i => gadd (gmul (2, 1)%Z (nth i ex_gy (0, 0)%Z))
          (gmul (0, 1)%Z (gsum (map (fun j => gmul (ex_herm i j) (nth j ex_gx (0, 0)%Z)) (seq 0 23))))) (seq 0 23))
  | _, _ => False
  end.
Proof. intros u [<-|[<-|[]]]; vm_compute; (split; [lia|split; reflexivity]). Qed.

(** The rows 15..18 of part 3. *)
Example ex_sym_part_product : forall u, In u [UpL; UpU] ->
  match exS (Some 3) u with
  | Some A => c_off (h_t (rt_val A)) = 15 /\ c_size (h_t (rt_val A)) = 4 /\
      add_hmatrix_vector_product Zc TrN 3%Z A ex_x 0%Z [0; 0; 0; 0]%Z =
        Some (firstn 4 (skipn 15 (dense_product 23 3 0 ex_gen ex_x ex_y)))
  | _ => False
  end.
Proof. intros u [<-|[<-|[]]]; vm_compute; (split; [reflexivity|split; reflexivity]). Qed.

(** Three threads, unequal chunks, one without work. *)
Example ex_threads :
  match exS None UpL with
  | Some A => match hleaves Zc A with
              | Some (L, Y) => let threads := [(skipn 9 L, firstn 4 Y); ([], []); (firstn 9 L, skipn 4 Y)] in
                  omp_vec Zc threads TrN 3%Z A ex_x (-2)%Z ex_y = Some (dense_product 23 3 (-2) ex_gen ex_x ex_y)
              | None => False
              end
  | None => False
  end.
Proof. vm_compute. reflexivity. Qed.

Example ex_row_major :
  match exA with
  | Some A =>
      let x := flat_map (fun i => [nth i ex_x 0; nth i ex_y 0]%Z) (seq 0 23) in
      match add_hmatrix_matrix_product_row_major Zc TrN 3%Z A x 0%Z (repeat 5%Z 46) 2 with
      | Some y' => column (K:=Zc) 2 0 23 y' = dense_product 23 3 0 ex_gen' ex_x ex_y /\
                   column (K:=Zc) 2 1 23 y' = dense_product 23 3 0 ex_gen' ex_y ex_x
      | None => False
      end
  | None => False
  end.
Proof. vm_compute. split; reflexivity. Qed.

Example ex_dense :
  match exA, exS None UpL with
  | Some A, Some A2 =>
      copy_to_dense Zc A (repeat 0%Z 529) = Some (flat_map (fun j => map (fun i => ex_gen' i j) (seq 0 23)) (seq 0 23)) /\
      copy_to_dense_in_user_numbering Zc (fun i => 22 - i) (fun i => 22 - i) A2 (repeat 0%Z 529) =
        Some (flat_map (fun j => map (fun i => ex_gen (22 - i) (22 - j)) (seq 0 23)) (seq 0 23))
  | _, _ => False
  end.
Proof. vm_compute. split; reflexivity. Qed.

(** *** Outside the hypotheses *)
Definition one_leaf {K} (s : symc) (d : hdata K) (n : nat) : hmat K :=
  let c := CNode (mkCinfo 0%Z 0 n 0 0 []) [] in RNode (mkHinfo K c c s (if sym_is_N s then UpN else UpL) d s (if sym_is_N s then UpN else UpL)) [].

(** A root block of rank 0: beta is ignored. *)
Theorem C18_rank_0_refuted :
  let A := one_leaf SyN (DLow (mkLrm (mkMat (K:=Zc) 1 0 []) (mkMat 0 1 []))) 1 in
  hleaves Zc A = Some ([rt_val A], []) /\ wf_leaf (rt_val A) /\
  add_hmatrix_vector_product Zc TrN 1%Z A [3%Z] 0%Z [5%Z] = Some [5%Z].
Proof. vm_compute. repeat split; lia. Qed.
Print Assumptions C18_rank_0_refuted.

(** Conjugate transpose of a complex symmetric matrix: the product by the matrix itself. *)
Theorem C19_conjugate_of_symmetric_refuted :
  let A := one_leaf SyS (DDense (mkMat (K:=Gc) 1 1 [(0, 1)%Z])) 1 in
  wf_leaf (rt_val A) /\ add_hmatrix_vector_product Gc TrC (1, 0)%Z A [(1, 0)%Z] (0, 0)%Z [(0, 0)%Z] = Some [(0, 1)%Z] /\
  ~ is_product (rt_val A) (value [rt_val A] [] SyS) TrC 1 (1, 0)%Z (0, 0)%Z [(1, 0)%Z] [(0, 0)%Z] [(0, 1)%Z].
Proof.
  split; [|split].
  - vm_compute. repeat split; try lia; discriminate.
  - vm_compute. reflexivity.
  - intros (_ & Q & _). specialize (Q 0 0). vm_compute in Q. specialize (Q (le_n 1) (le_n 1)). discriminate.
Qed.
Print Assumptions C19_conjugate_of_symmetric_refuted.

(** copy_to_dense does not mirror: the entries represented by leaves for symmetry are left untouched. *)
Theorem C22_copy_to_dense_symmetric_refuted :
  match exS None UpL with
  | Some A =>
      match hleaves Zc A, copy_to_dense Zc A (repeat 0%Z 529) with
      | Some (L, Y), Some b => nth (0 + 22 * 23) b 0%Z = 0%Z /\ value L Y SyS 0 22 = ex_gen 0 22 /\ ex_gen 0 22 <> 0%Z
      | _, _ => False
      end
  | None => False
  end.
Proof. vm_compute. split; [reflexivity|]. split; [reflexivity|discriminate]. Qed.
Print Assumptions C22_copy_to_dense_symmetric_refuted.

(** A low-rank leaf of rank 0: copy_to_dense hands BLAS an illegal leading dimension. *)
Theorem C22_rank_0_refuted :
  let A := one_leaf SyN (DLow (mkLrm (mkMat (K:=Zc) 1 0 []) (mkMat 0 1 []))) 1 in
  wf_leaf (rt_val A) /\ copy_to_dense Zc A [5%Z] = None.
Proof. vm_compute. repeat split; lia. Qed.
Print Assumptions C22_rank_0_refuted.

(** The examples meet the hypotheses of C18 and C19. *)
Definition genB (u : uplo) (parts : list ctree) : bbuild := mkBbuild None u None 0 0 true ex_adm parts parts.
Lemma ex_C18_gen : forall T parts fuel, partitioned T parts -> nonempty T ->
  forall A, hbuild Zc SyN (genB UpN parts) ex_gen' ex_compress fuel T T = Some A ->
  exists L, hleaves Zc A = Some (L, []) /\ well_formed (rt_val A) L [] SyN /\ data_on_leaves A /\
    forall i j, row_in (genB UpN parts) T i = true -> in_iv j (interval T) = true -> value L [] SyN i j = ex_gen' i j.
Proof.
  intros T parts fuel H1 H2 A HA.
  destruct (C18_built_matrices Zc (genB UpN parts) ex_gen' ex_compress T T fuel A eq_refl H1 H1 H2 H2 I ex_compress_ok HA)
    as (L & E1 & E2 & E3 & _ & _ & E4).
  exists L. split; [exact E1|]. split; [exact E2|]. split; [exact E3|]. intros i j Hi Hj. apply (E4 eq); auto. exact ex_compress_exact.
Qed.
Lemma ex_C19_gen : forall u T parts fuel, u <> UpN -> partitioned T parts -> nonempty T ->
  forall A, hbuild Gc SyH (genB u parts) ex_herm ex_hcomp fuel T T = Some A ->
  exists L Y, hleaves Gc A = Some (L, Y) /\ well_formed (rt_val A) L Y SyH /\ data_on_leaves A.
Proof.
  intros u T parts fuel HU H1 H2 A HA.
  assert (Hco : compress_ok Gc ex_hcomp) by (intros t s; split; apply of_fun_wf).
  destruct (C19_built_matrices Gc SyH (genB u parts) ex_herm ex_hcomp T T fuel A (or_intror eq_refl) ex_herm_sym HU H1 eq_refl H2 eq_refl
    (or_introl (conj eq_refl (conj eq_refl eq_refl))) Hco HA) as (L & Y & E1 & E2 & E3 & _).
  exists L, Y. auto.
Qed.
Example ex_C18_hypotheses :
  match hbuild Zc SyN (genB UpN ex_parts) ex_gen' ex_compress 200 exT exT with Some _ => true | None => false end = true /\
  partitioned exT ex_parts /\ nonempty exT.
Proof. split; [vm_compute; reflexivity|]. destruct ex_hyps as (H1 & H2 & _). split; assumption. Qed.
Example ex_C19_hypotheses : forall u, In u [UpL; UpU] ->
  match hbuild Gc SyH (genB u ex_parts) ex_herm ex_hcomp 200 exT exT with Some _ => true | None => false end = true /\
  partitioned exT ex_parts /\ nonempty exT.
Proof. intros u Hu. split; [destruct Hu as [<-|[<-|[]]]; vm_compute; reflexivity|]. destruct ex_hyps as (H1 & H2 & _). split; assumption. Qed.
