(** * C77: products of a hierarchical matrix, with or without symmetric storage, by dense and low-rank matrices on either side. *)

From Coq Require Import List Arith ZArith Bool Lia Permutation.
From Verif Require Import ClusterModel ClusterSpec IOModel IOSpec BlockModel BlockSpec BlockSym Algebra BlasModel HMatModel HMatSpec HMatBuild
  ArithModel ArithSpec ArithDense ArithLr ArithTree ArithHier ArithDest P_Arith P_ArithSym SymProdProofs.
Import ListNotations.

(** [holds_matrix r L Y sy M] (HMatSpec.v): the leaves L of the hierarchical matrix of root r, together with the mirrored images of the
    leaves Y, hold the entries M.  [mat_op t B r c g], [lr_op t B r c g] (ArithSpec.v): op(B) has r rows, c columns and the entries g. *)

(** ** The hierarchical matrix on the left: C := beta C + alpha op(A) op(B) *)
Theorem C77_matrix_right : forall (K : Coef) (A : rtree (hinfo K)) L Y sy M, hleaves K A = Some (L, Y) -> holds_matrix (rt_val A) L Y sy M ->
  forall ta tb, compat K ta sy ->
  forall alpha (B : mat K) beta (Cm : mat K) c g, 1 <= c ->
  let o := out_of K ta A in let m := mid_of K ta A in
  mat_op tb B (c_size m) c g -> wf_mat Cm (c_size o) c ->
  exists C', add_hmatrix_matrix_product_dense K ta tb alpha A B beta Cm = Some C' /\ wf_mat C' (c_size o) c /\
    forall i j, i < c_size o -> j < c ->
      me C' i j = cadd K (cmul K beta (me Cm i j)) (cmul K alpha (sum (c_size m) (fun l => cmul K (op_fun ta M (c_off o + i) (c_off m + l)) (g l j)))).
Proof.
  intros K A L Y sy M HL HM ta tb Hc alpha B beta Cm c g Hc1 o m HB WC.
  destruct (right_ok K A L Y sy M HL HM ta Hc tb alpha B beta Cm c g Hc1 HB WC) as (C' & E1 & E2 & E3).
  exists C'. split; [exact E1|]. split; [exact E2|exact E3].
Qed.
Print Assumptions C77_matrix_right.

Theorem C77_low_rank_right : forall (K : Coef) (A : rtree (hinfo K)) L Y sy M, hleaves K A = Some (L, Y) -> holds_matrix (rt_val A) L Y sy M ->
  forall ta tb, compat K ta sy ->
  forall alpha (B : lrm K) beta (Cm : mat K) c g, 1 <= c ->
  let o := out_of K ta A in let m := mid_of K ta A in 1 <= c_size o -> 1 <= c_size m ->
  lr_op tb B (c_size m) c g -> wf_mat Cm (c_size o) c ->
  exists C', add_hmatrix_lrmat_product_dense K ta tb alpha A B beta Cm = Some C' /\ wf_mat C' (c_size o) c /\
    forall i j, i < c_size o -> j < c ->
      me C' i j = cadd K (cmul K beta (me Cm i j)) (cmul K alpha (sum (c_size m) (fun l => cmul K (op_fun ta M (c_off o + i) (c_off m + l)) (g l j)))).
Proof.
  intros K A L Y sy M HL HM ta tb Hc alpha B beta Cm c g Hc1 o m Ho Hm HB WC.
  destruct (low_right_dense K A L Y sy M HL HM ta Hc Ho Hm tb alpha B beta Cm c g Hc1 HB WC) as (C' & E1 & E2 & E3).
  exists C'. split; [exact E1|]. split; [exact E2|exact E3].
Qed.
Print Assumptions C77_low_rank_right.

(** The result may be a low-rank matrix; the truncations are exact (their errors: C27, C70). *)
Theorem C77_into_low_rank_right : forall (K : Coef) (A : rtree (hinfo K)) L Y sy M, hleaves K A = Some (L, Y) -> holds_matrix (rt_val A) L Y sy M ->
  forall recompress svd_factors, exact_recompression recompress -> exact_svd svd_factors ->
  forall ta tb, compat K ta sy ->
  forall alpha beta (Cl : lrm K) c g, 1 <= c ->
  let o := out_of K ta A in let m := mid_of K ta A in 1 <= c_size o -> 1 <= c_size m ->
  (lrank Cl = 0 \/ wf_lrm Cl (c_size o) c) ->
  let product := fun i j => cadd K (cmul K beta (lr_entry Cl i j)) (cmul K alpha (sum (c_size m) (fun l => cmul K (op_fun ta M (c_off o + i) (c_off m + l)) (g l j)))) in
  (forall B : mat K, mat_op tb B (c_size m) c g ->
     exists L', add_hmatrix_matrix_product_lr K recompress svd_factors ta tb alpha A B beta Cl = Some L' /\ lr_op TrN L' (c_size o) c product) /\
  (forall B : lrm K, lr_op tb B (c_size m) c g ->
     exists L', add_hmatrix_lrmat_product_lr K recompress ta tb alpha A B beta Cl = Some L' /\ lr_op TrN L' (c_size o) c product).
Proof.
  intros K A L Y sy M HL HM rc sv HR HS ta tb Hc alpha beta Cl c g Hc1 o m Ho Hm WC product. split; intros B HB.
  - exact (right_lr K A L Y sy M HL HM ta Hc Ho Hm rc HR sv HS tb alpha B beta Cl c g Hc1 HB WC).
  - exact (low_right_lr K A L Y sy M HL HM ta Hc Ho Hm rc HR tb alpha B beta Cl c g Hc1 HB WC).
Qed.
Print Assumptions C77_into_low_rank_right.

(** ** The hierarchical matrix on the right: C := beta C + alpha op(A) op(B) *)
(** Without symmetric storage nothing more is asked.  With symmetric storage the block is square and the entries are symmetric or
    Hermitian, as announced by the root (which the product relies on). *)
Definition storage_announced {K : Coef} (B : rtree (hinfo K)) (sy : symc) (M : nat -> nat -> car K) : Prop :=
  match sy with
  | SyN => no_sym_leaves (h_lsym (rt_val B)) = true
  | SyS | SyH => h_lsym (rt_val B) = sy /\ h_t (rt_val B) = h_s (rt_val B) /\
      (forall i j, in_iv i (interval (h_t (rt_val B))) = true -> in_iv j (interval (h_t (rt_val B))) = true -> M j i = flip sy (M i j))
  | Sy0 => False
  end.
Lemma storage_ok : forall K (B : rtree (hinfo K)) sy M, storage_announced B sy M -> announced K B sy M.
Proof.
  intros K B sy M H. destruct sy; cbn [storage_announced] in H; unfold announced.
  - left. split; [reflexivity|]. destruct (h_lsym (rt_val B)); try discriminate; split; reflexivity.
  - right. split; [left; reflexivity|]. exact H.
  - right. split; [right; reflexivity|]. exact H.
  - contradiction.
Qed.

Theorem C77_matrix_left : forall (K : Coef) (B : rtree (hinfo K)) L Y sy M, hleaves K B = Some (L, Y) -> holds_matrix (rt_val B) L Y sy M ->
  storage_announced B sy M -> compat K TrN sy ->
  forall ta tb, (sy = SyH -> ta = TrN \/ tb <> TrN) ->
  forall alpha (A : mat K) beta (Cm : mat K) r f, 1 <= r ->
  let m := out_of K tb B in let o := mid_of K tb B in
  mat_op ta A r (c_size m) f -> wf_mat Cm r (c_size o) ->
  exists C', add_matrix_hmatrix_product_dense K ta tb alpha A B beta Cm = Some C' /\ wf_mat C' r (c_size o) /\
    forall i j, i < r -> j < c_size o ->
      me C' i j = cadd K (cmul K beta (me Cm i j)) (cmul K alpha (sum (c_size m) (fun l => cmul K (f i l) (op_fun tb M (c_off m + l) (c_off o + j))))).
Proof.
  intros K B L Y sy M HL HM HA Hc ta tb G alpha A beta Cm r f Hr m o HB WC.
  destruct (left_ok K B L Y sy M HL HM ta tb Hc (storage_ok _ _ _ _ HA)) with (alpha := alpha) (B := A) (beta := beta) (Cm := Cm) (r := r) (f := f) as (C' & E1 & E2 & E3); try assumption.
  { intros Q. destruct (G Q) as [->|Q']; [left; reflexivity|right; destruct tb; [congruence|reflexivity|reflexivity]]. }
  exists C'. split; [exact E1|]. split; [exact E2|exact E3].
Qed.
Print Assumptions C77_matrix_left.

Theorem C77_low_rank_left : forall (K : Coef) (B : rtree (hinfo K)) L Y sy M, hleaves K B = Some (L, Y) -> holds_matrix (rt_val B) L Y sy M ->
  storage_announced B sy M -> compat K TrN sy ->
  forall ta tb, (sy = SyH -> ta = TrN \/ tb <> TrN) ->
  forall alpha (A : lrm K) beta (Cm : mat K) r f, 1 <= r ->
  let m := out_of K tb B in let o := mid_of K tb B in 1 <= c_size m -> 1 <= c_size o ->
  lr_op ta A r (c_size m) f -> wf_mat Cm r (c_size o) ->
  exists C', add_lrmat_hmatrix_product_dense K ta tb alpha A B beta Cm = Some C' /\ wf_mat C' r (c_size o) /\
    forall i j, i < r -> j < c_size o ->
      me C' i j = cadd K (cmul K beta (me Cm i j)) (cmul K alpha (sum (c_size m) (fun l => cmul K (f i l) (op_fun tb M (c_off m + l) (c_off o + j))))).
Proof.
  intros K B L Y sy M HL HM HA Hc ta tb G alpha A beta Cm r f Hr m o Hm Ho HB WC.
  assert (G' : sy = SyH -> is_N ta = true \/ is_N tb = false). { intros Q. destruct (G Q) as [->|Q']; [left; reflexivity|right; destruct tb; [congruence|reflexivity|reflexivity]]. }
  destruct (low_left_dense K B L Y sy M HL HM ta tb Hc (storage_ok _ _ _ _ HA) G' Hm Ho alpha A beta Cm r f Hr HB WC) as (C' & E1 & E2 & E3).
  exists C'. split; [exact E1|]. split; [exact E2|exact E3].
Qed.
Print Assumptions C77_low_rank_left.

Theorem C77_into_low_rank_left : forall (K : Coef) (B : rtree (hinfo K)) L Y sy M, hleaves K B = Some (L, Y) -> holds_matrix (rt_val B) L Y sy M ->
  storage_announced B sy M -> compat K TrN sy ->
  forall recompress svd_factors, exact_recompression recompress -> exact_svd svd_factors ->
  forall ta tb, (sy = SyH -> ta = TrN \/ tb <> TrN) ->
  forall alpha beta (Cl : lrm K) r f, 1 <= r ->
  let m := out_of K tb B in let o := mid_of K tb B in 1 <= c_size m -> 1 <= c_size o ->
  (lrank Cl = 0 \/ wf_lrm Cl r (c_size o)) ->
  let product := fun i j => cadd K (cmul K beta (lr_entry Cl i j)) (cmul K alpha (sum (c_size m) (fun l => cmul K (f i l) (op_fun tb M (c_off m + l) (c_off o + j))))) in
  (forall A : mat K, mat_op ta A r (c_size m) f ->
     exists L', add_matrix_hmatrix_product_lr K recompress svd_factors ta tb alpha A B beta Cl = Some L' /\ lr_op TrN L' r (c_size o) product) /\
  (forall A : lrm K, lr_op ta A r (c_size m) f ->
     exists L', add_lrmat_hmatrix_product_lr K recompress ta tb alpha A B beta Cl = Some L' /\ lr_op TrN L' r (c_size o) product).
Proof.
  intros K B L Y sy M HL HM HA Hc rc sv HR HS ta tb G alpha beta Cl r f Hr m o Hm Ho WC product.
  assert (G' : sy = SyH -> is_N ta = true \/ is_N tb = false). { intros Q. destruct (G Q) as [->|Q']; [left; reflexivity|right; destruct tb; [congruence|reflexivity|reflexivity]]. }
  split; intros A HB.
  - exact (left_lr K B L Y sy M HL HM ta tb Hc (storage_ok _ _ _ _ HA) G' Hm Ho rc HR sv HS alpha A beta Cl r f Hr HB WC).
  - exact (low_left_lr K B L Y sy M HL HM ta tb Hc (storage_ok _ _ _ _ HA) G' Hm Ho rc HR alpha A beta Cl r f Hr HB WC).
Qed.
Print Assumptions C77_into_low_rank_left.

(** ** The matrices of the builder *)
(** A symmetric or Hermitian generator, one process, the default consistent partition, no diagonal block admissible: the matrix stored
    by one of its halves meets the hypotheses above as soon as one block stands for two. *)
Theorem C77_built_matrices : forall (K : Coef) sy B gen compress T fuel A,
  (sy = SyS \/ sy = SyH) -> (forall i j, gen j i = flip sy (gen i j)) -> (forall t, bb_adm B t t = false) ->
  bb_uplo B <> UpN -> partitioned T (bb_tparts B) -> bb_sparts B = bb_tparts B -> nonempty T -> bb_cons B = true ->
  bb_tpart B = None -> bb_qpart B = None -> compress_ok K compress ->
  hbuild K sy B gen compress fuel T T = Some A ->
  exists L Y, hleaves K A = Some (L, Y) /\ holds_matrix (rt_val A) L Y sy (value L Y sy) /\ block_of A = (T, T) /\
    (Y <> [] -> storage_announced A sy (value L Y sy)).
Proof.
  intros K sy B gen compress T fuel A H1 H2 H3 H4 H5 H6 H7 H8 H9 H10 H11 H12.
  destruct (built_symmetric K sy B gen compress T fuel A H1 H2 H3 H4 H5 H6 H7 H8 H9 H10 H11 H12) as (L & Y & E1 & E2 & E3 & E4 & E5).
  exists L, Y. split; [exact E1|]. split; [apply value_holds, E2|]. split; [unfold block_of; congruence|].
  intros HY. destruct (wf_lsym _ _ _ _ _ E2 HY) as [E6 _]. unfold storage_announced.
  assert (Q : h_lsym (rt_val A) = sy /\ h_t (rt_val A) = h_s (rt_val A) /\
    (forall i j, in_iv i (interval (h_t (rt_val A))) = true -> in_iv j (interval (h_t (rt_val A))) = true -> value L Y sy j i = flip sy (value L Y sy i j))).
  { split; [exact E6|]. split; [congruence|]. rewrite E3. exact E5. }
  destruct H1 as [-> | ->]; exact Q.
Qed.
Print Assumptions C77_built_matrices.

(** ** A concrete case: the symmetric matrix 1 2 5 / 2 4 6 / 5 6 9 of which the blocks of the lower half are stored *)
Section Example.
  Local Open Scope Z_scope.
  Definition sL : list (hinfo Zc) := match hleaves Zc yS with Some (L, _) => L | None => [] end.
  Definition sY : list (hinfo Zc) := match hleaves Zc yS with Some (_, Y) => Y | None => [] end.
  Lemma s_leaves : hleaves Zc yS = Some (sL, sY).
  Proof. reflexivity. Qed.
  Lemma s_wf : well_formed (rt_val yS) sL sY SyS.
  Proof.
    constructor.
    - intros h Hh. unfold sL in Hh. cbn in Hh. repeat (destruct Hh as [<-|Hh]); try contradiction;
        (split; [unfold wf_leaf; cbn; repeat split; try lia; try (intros; reflexivity); try (intros; discriminate); try (intros; congruence)|cbn; auto]).
    - intros h Hh. unfold sL in Hh. cbn in Hh. repeat (destruct Hh as [<-|Hh]); try contradiction; split; reflexivity.
    - intros h Hh. unfold sY in Hh. cbn in Hh. repeat (destruct Hh as [<-|Hh]); try contradiction. split; [unfold sL; cbn; auto|split; reflexivity].
    - intros _. split; [reflexivity|discriminate].
    - intros i j Hi Hj. apply in_ivb in Hi, Hj. cbn in Hi, Hj.
      assert (A : (i = 0 \/ i = 1 \/ i = 2)%nat) by lia. assert (A' : (j = 0 \/ j = 1 \/ j = 2)%nat) by lia.
      destruct A as [->|[->| ->]]; destruct A' as [->|[->| ->]]; reflexivity.
  Qed.
  Example C77_hypotheses : hleaves Zc yS = Some (sL, sY) /\ holds_matrix (rt_val yS) sL sY SyS (value sL sY SyS) /\
    storage_announced yS SyS (value sL sY SyS) /\ compat Zc TrN SyS /\ sY <> [] /\
    map (fun i => map (value sL sY SyS i) [0; 1; 2]%nat) [0; 1; 2]%nat = [[1; 2; 5]; [2; 4; 6]; [5; 6; 9]].
  Proof.
    split; [exact s_leaves|]. split; [apply value_holds, s_wf|]. split; [|split; [left; discriminate|split; [discriminate|reflexivity]]].
    split; [reflexivity|]. split; [reflexivity|]. intros i j Hi Hj. apply in_ivb in Hi, Hj. cbn in Hi, Hj.
    assert (A : (i = 0 \/ i = 1 \/ i = 2)%nat) by lia. assert (A' : (j = 0 \/ j = 1 \/ j = 2)%nat) by lia.
    destruct A as [->|[->| ->]]; destruct A' as [->|[->| ->]]; reflexivity.
  Qed.
  (** (1 0 1) times the matrix, on the left and on the right. *)
  Example C77_run_left : option_map (fun C : mat Zc => md C)
    (add_matrix_hmatrix_product_dense Zc TrN TrN 1 (mkMat (K := Zc) 1 3 [1; 0; 1]) yS 1 (mkMat (K := Zc) 1 3 [0; 0; 100])) = Some [6; 8; 114].
  Proof. vm_compute. reflexivity. Qed.
  Example C77_run_right : option_map (fun C : mat Zc => md C)
    (add_hmatrix_matrix_product_dense Zc TrN TrT 1 yS (mkMat (K := Zc) 1 3 [1; 0; 1]) 1 (mkMat (K := Zc) 3 1 [0; 0; 100])) = Some [6; 8; 114].
  Proof. vm_compute. reflexivity. Qed.
End Example.

(** ** Outside the hypotheses *)
(** B Hermitian, stored as such, transb = 'N' and transa <> 'N': the product computed is op(A) times the conjugate of B.  The matrix B is
    1 i / -i 2, A is the column (1, 0), C is the row (0, 0): the product op(A) B is (1, i). *)
Section Hermitian.
  Local Open Scope Z_scope.
  Definition yH : rtree (hinfo Gc) := RNode (mkHinfo Gc xa xa SyH UpL (DDense (mkMat (K := Gc) 2 2 [(1, 0); (0, -1); (0, 1); (2, 0)])) SyH UpL) [].
  Definition hM (i j : nat) : car Gc := nth (2 * i + j)%nat [(1, 0); (0, 1); (0, -1); (2, 0)] (0, 0).
  Theorem C77_hermitian_transposed_refuted :
    exists L Y, hleaves Gc yH = Some (L, Y) /\ holds_matrix (rt_val yH) L Y SyH hM /\ storage_announced yH SyH hM /\ compat Gc TrN SyH /\
    mat_op (K := Gc) TrT (mkMat (K := Gc) 2 1 [(1, 0); (0, 0)]) 1 2 (fun _ l => nth l [(1, 0); (0, 0)] (0, 0)) /\
    map (fun j => sum (K := Gc) 2 (fun l => cmul Gc (nth l [(1, 0); (0, 0)] (0, 0)) (hM l j))) [0; 1]%nat = [(1, 0); (0, 1)] /\
    option_map (fun C : mat Gc => md C) (add_matrix_hmatrix_product_dense Gc TrT TrN (1, 0) (mkMat (K := Gc) 2 1 [(1, 0); (0, 0)]) yH (0, 0) (mkMat (K := Gc) 1 2 [(0, 0); (0, 0)]))
      = Some [(1, 0); (0, -1)].
  Proof.
    exists [rt_val yH], []. split; [reflexivity|]. split.
    { constructor.
      - constructor.
        + intros h [<-|[]]. split; [|right; reflexivity]. unfold wf_leaf. cbn. repeat split; try lia.
          intros _ i Hi. assert (A : (i = 0 \/ i = 1)%nat) by lia. destruct A as [->| ->]; reflexivity.
        + intros h [<-|[]]. split; reflexivity.
        + intros h [].
        + intros Q. congruence.
        + intros i j Hi Hj. unfold count. cbn [filter]. unfold hcovers. rewrite Hi, Hj. reflexivity.
      - intros h [<-|[]] i j Hi Hj. cbn in Hi, Hj. assert (A : (i = 0 \/ i = 1)%nat) by lia. assert (A' : (j = 0 \/ j = 1)%nat) by lia.
        destruct A as [->| ->]; destruct A' as [->| ->]; reflexivity.
      - intros h []. }
    split. { split; [reflexivity|]. split; [reflexivity|]. intros i j Hi Hj. apply in_ivb in Hi, Hj. cbn in Hi, Hj.
      assert (A : (i = 0 \/ i = 1)%nat) by lia. assert (A' : (j = 0 \/ j = 1)%nat) by lia. destruct A as [->| ->]; destruct A' as [->| ->]; reflexivity. }
    split; [split; [discriminate|reflexivity]|].
    split. { split; [repeat split|]. intros i j Hi Hj. assert (i = 0)%nat as -> by lia. assert (A' : (j = 0 \/ j = 1)%nat) by lia. destruct A' as [->| ->]; reflexivity. }
    split; vm_compute; reflexivity.
  Qed.
  Print Assumptions C77_hermitian_transposed_refuted.
End Hermitian.

