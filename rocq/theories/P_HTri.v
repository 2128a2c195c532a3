(** * Triangular solves with hierarchical matrices: C29. *)

From Coq Require Import List Arith ZArith Bool Lia Permutation QArith.Qcanon.
From Verif Require Import ClusterModel ClusterSpec IOModel IOSpec BlockModel BlockSpec Algebra BlasModel HMatModel HMatSpec Field
  DenseModel DenseSpec ArithModel ArithSpec ArithDense ArithDest P_Arith P_Dense HFactModel HFactSpec HFactSubst HFactSolve HFactHH HFactTri.
Import ListNotations.
Local Open Scope nat_scope.

(** [hrep parts M A]: the hierarchical matrix A holds the entries M (numbering of the clusters).  [triangle_of u d M]: the
    triangle u of M with the diagonal convention d.  The other entries of A are not used. *)

(** ** A dense right-hand side *)
Theorem C29_dense_right_hand_side : forall (F : Fld) parts s u t d alpha M (A : rtree (hinfo (fk F))) (B : mat (fk F)) q fuel,
  let c := h_t (rt_val A) in
  hrep parts M A -> h_s (rt_val A) = c -> dense_diagonal A -> (d = DgN -> forall i, inc c i -> M i i <> c0 (fk F)) ->
  1 <= q -> cheight c <= fuel ->
  let r := match s with SdL => c_size c | SdR => q end in let k := match s with SdL => q | SdR => c_size c end in
  wf_mat B r k ->
  exists X, matrix_solve F parts fuel s u t d alpha A B = Some X /\ wf_mat X r k /\
    is_solution s t (fun i j => triangle_of u d M (c_off c + i) (c_off c + j)) alpha r k (me B) (me X).
Proof.
  intros F parts s u t d alpha M A B q fuel c HM HS HD HN Hq Hf r k HB.
  apply (matrix_solve_ok F parts fuel s u t d (triangle_of u d M) A alpha B q); try assumption. apply hrep_htri; assumption.
Qed.
Print Assumptions C29_dense_right_hand_side.

(** ** A low-rank right-hand side *)
Theorem C29_low_rank_right_hand_side : forall (F : Fld) parts s u t d alpha M (A : rtree (hinfo (fk F))) (L : lrm (fk F)) q fuel,
  let c := h_t (rt_val A) in
  hrep parts M A -> h_s (rt_val A) = c -> dense_diagonal A -> (d = DgN -> forall i, inc c i -> M i i <> c0 (fk F)) ->
  1 <= lrank L -> cheight c <= fuel ->
  let r := match s with SdL => c_size c | SdR => q end in let k := match s with SdL => q | SdR => c_size c end in
  wf_lrm L r k ->
  exists X, lrmat_solve F parts fuel s u t d alpha A L = Some X /\ wf_lrm X r k /\
    is_solution s t (fun i j => triangle_of u d M (c_off c + i) (c_off c + j)) alpha r k (lr_entry L) (lr_entry X).
Proof.
  intros F parts s u t d alpha M A L q fuel c HM HS HD HN Hr Hf r k HL.
  apply (lrmat_solve_ok F parts fuel s u t d (triangle_of u d M) A alpha L q); try assumption. apply hrep_htri; assumption.
Qed.
Print Assumptions C29_low_rank_right_hand_side.

(** ** A hierarchical right-hand side *)
Theorem C29_hierarchical_right_hand_side : forall (F : Fld) parts recompress svd_factors, exact_recompression recompress -> exact_svd svd_factors ->
  forall s u t d alpha M (A : rtree (hinfo (fk F))) MB (B : rtree (hinfo (fk F))) fuel,
  let c := h_t (rt_val A) in
  hrep parts M A -> h_s (rt_val A) = c -> dense_diagonal A -> (d = DgN -> forall i, inc c i -> M i i <> c0 (fk F)) ->
  hrep parts MB B ->
  let o := match s with SdL => h_s (rt_val B) | SdR => h_t (rt_val B) end in
  block_of B = match s with SdL => (c, o) | SdR => (o, c) end -> above o = above c -> 2 * cheight c + cheight o <= fuel ->
  exists B' X, hh_solve F recompress svd_factors parts fuel s u t d alpha A B = Some B' /\ hrep parts X B' /\ block_of B' = block_of B /\
    solves s t (triangle_of u d M) alpha c o MB X.
Proof.
  intros F parts rc sv HR HSv s u t d alpha M A MB B fuel c HM HS HD HN HB o HBl HA Hf.
  assert (Eo : oth_of F s B = o) by (unfold oth_of, o; destruct s; reflexivity).
  destruct (hh_solve_ok F parts rc sv HR HSv fuel s u t d (triangle_of u d M) A MB B alpha) as (B' & X & E1 & E2 & E3 & E4).
  - apply hrep_htri; assumption.
  - exact HB.
  - unfold tri_of, block_of, c, o in *. destruct s; injection HBl; auto.
  - rewrite Eo. exact HA.
  - rewrite Eo. exact Hf.
  - exists B', X. rewrite Eo in E4. auto.
Qed.
Print Assumptions C29_hierarchical_right_hand_side.

(** ** A matrix of which one triangle only is stored, or of which the diagonal leaves are factored (with row exchanges) *)
Theorem C29_stored_triangle : forall (F : Fld) parts s u t d alpha T (A : rtree (hinfo (fk F))) (B : mat (fk F)) q fuel,
  let c := h_t (rt_val A) in
  htri parts u d T A -> 1 <= q -> cheight c <= fuel ->
  let r := match s with SdL => c_size c | SdR => q end in let k := match s with SdL => q | SdR => c_size c end in
  wf_mat B r k ->
  exists X, matrix_solve F parts fuel s u t d alpha A B = Some X /\ wf_mat X r k /\
    is_solution s t (fun i j => T (c_off c + i) (c_off c + j)) alpha r k (me B) (me X).
Proof. intros F parts s u t d alpha T A B q fuel c HT Hq Hf r k HB. apply (matrix_solve_ok F parts fuel s u t d T A alpha B q); assumption. Qed.
Print Assumptions C29_stored_triangle.

(** ** A concrete case *)
Section Example.
  Definition ya : ctree := CNode (mkCinfo 0 0 2 1 0 [0; 1]) [].
  Definition yb : ctree := CNode (mkCinfo 1 2 1 1 1 [2]) [].
  Definition yr : ctree := CNode (mkCinfo (-1) 0 3 0 0 [0; 1; 2]) [ya; yb].
  Definition yparts (_ : ctree) : list ctree := [ya; yb].
  Definition yh (t s : ctree) (d : hdata Qcc) (cs : list (rtree (hinfo Qcc))) : rtree (hinfo Qcc) := RNode (mkHinfo Qcc t s SyN UpL d SyN UpL) cs.
  Definition yd (r c : nat) (l : list Z) : hdata Qcc := DDense (mkMat (K := Qcc) r c (map q l)).
  Definition yl (r c k : nat) (u v : list Z) : hdata Qcc := DLow (mkLrm (mkMat (K := Qcc) r k (map q u)) (mkMat (K := Qcc) k c (map q v))).
  (** 1 2 5 / 3 4 10 / 7 8 9 *)
  Definition yA : rtree (hinfo Qcc) := yh yr yr DNone
    [yh ya ya (yd 2 2 [1; 3; 2; 4]%Z) []; yh yb ya (yd 1 2 [7; 8]%Z) []; yh ya yb (yl 2 1 1 [1; 2]%Z [5]%Z) []; yh yb yb (yd 1 1 [9]%Z) []].
  Definition yM (i j : nat) : Qc := q (nth (3 * i + j) [1; 2; 5; 3; 4; 10; 7; 8; 9]%Z 0%Z).
  Lemma y_tree : cluster_tree yparts yr /\ cluster_tree yparts ya /\ cluster_tree yparts yb.
  Proof.
    assert (La : cluster_tree yparts ya).
    { constructor; cbn; try (intros; contradiction); try lia; congruence. }
    assert (Lb : cluster_tree yparts yb).
    { constructor; cbn; try (intros; contradiction); try lia; congruence. }
    split; [|split; assumption]. constructor; cbn.
    - lia.
    - intros _. unfold interval, ya, yb. cbn. repeat split.
    - intros c [<-|[<-|[]]]; reflexivity.
    - intros c [<-|[<-|[]]]; cbn; lia.
    - intros _. split; [discriminate|reflexivity].
    - intros c [<-|[<-|[]]]; assumption.
  Qed.
  Lemma qeq : forall x y : Qc, Qc_eq_bool x y = true -> x = y.
  Proof. exact Qc_eq_bool_correct. Qed.
  Lemma y_rep : hrep (K := Qcc) yparts yM yA.
  Proof.
    destruct y_tree as (Lr & La & Lb). apply (hrep_node Qcc); try reflexivity; try assumption.
    - cbn. unfold block_of. cbn. apply perm_skip. apply perm_swap.
    - intros c [<-|[<-|[<-|[<-|[]]]]]; apply (hrep_leaf Qcc); try reflexivity; try assumption;
        try (cbn; unfold wf_mat, wf_lrm; cbn; repeat split; lia); cbn [rt_val yh h_t h_s ya yb c_size c_off ct_info ci_size ci_off];
        intros a b Ha Hb; destruct a as [|[|a]]; try lia; destruct b as [|[|b]]; try lia; apply qeq; vm_compute; reflexivity.
  Qed.
  Lemma y_diag : dense_diagonal (F := Qf) yA.
  Proof.
    apply dense_diagonal_node; [reflexivity|]. intros c k [<-|[<-|[<-|[<-|[]]]]] Hb; try (unfold block_of in Hb; cbn in Hb; injection Hb as <- E; discriminate E); (eapply dense_diagonal_leaf; reflexivity).
  Qed.
  Lemma y_nz : forall i, inc yr i -> yM i i <> c0 Qcc.
  Proof. intros i Hi. unfold inc in Hi. cbn in Hi. destruct i as [|[|[|i]]]; try lia; intros E; vm_compute in E; discriminate. Qed.
  (** The hypotheses hold for this matrix, of which a block is low rank and the root is above the partition; the theorem for one choice of the options. *)
  Example C29_hyps : exists X, matrix_solve Qf yparts 3 SdR UpU TrT DgN (q 2) yA (mkMat (K := Qcc) 2 3 (map q [1; 2; 3; 4; 5; 6]%Z)) = Some X /\ wf_mat X 2 3 /\
    is_solution (F := Qf) SdR TrT (fun i j => triangle_of (F := Qf) UpU DgN yM (0 + i) (0 + j)) (q 2) 2 3 (me (mkMat (K := Qcc) 2 3 (map q [1; 2; 3; 4; 5; 6]%Z))) (me X).
  Proof.
    apply (C29_dense_right_hand_side Qf yparts SdR UpU TrT DgN (q 2) yM yA (mkMat (K := Qcc) 2 3 (map q [1; 2; 3; 4; 5; 6]%Z)) 2 3); try lia.
    - exact y_rep.
    - reflexivity.
    - exact y_diag.
    - intros _. exact y_nz.
    - cbn. lia.
    - repeat split.
  Qed.
  Example C29_hierarchical_hyps : exists B' X, hh_solve Qf (fun L => L) (svd_id Qcc) yparts 9 SdL UpL TrC DgU (q 3) yA yA = Some B' /\ hrep (K := Qcc) yparts X B' /\
    block_of B' = (yr, yr) /\ solves (F := Qf) SdL TrC (triangle_of (F := Qf) UpL DgU yM) (q 3) yr yr yM X.
  Proof.
    apply (C29_hierarchical_right_hand_side Qf yparts (fun L => L) (svd_id Qcc) (recompress_id Qcc) (svd_id_exact Qcc) SdL UpL TrC DgU (q 3) yM yA yM yA 9);
      try exact y_rep; try exact y_diag; try reflexivity; [discriminate|cbn; lia].
  Qed.
  (** All the options, by computation: op(T) X = 2 B for side L. *)
  Definition yT (u : uplo) (t : trans) (d : diagc) (i j : nat) : Qc := op_fun (K := Qcc) t (triangle_of (F := Qf) u d yM) i j.
  Definition yB : mat Qcc := mkMat (K := Qcc) 3 2 (map q [1; 2; 3; 4; 5; 6]%Z).
  Definition y_ok (u : uplo) (t : trans) (d : diagc) : bool :=
    match matrix_solve Qf yparts 3 SdL u t d (q 2) yA yB with
    | Some X => forallb (fun p => Qc_eq_bool (sum (K := Qcc) 3 (fun k => Qcmult (yT u t d (fst p) k) (me X k (snd p)))) (Qcmult (q 2) (me yB (fst p) (snd p))))
                  (list_prod [0; 1; 2] [0; 1])
    | None => false
    end.
  Example C29_run : forallb (fun f => f) [y_ok UpL TrN DgN; y_ok UpL TrN DgU; y_ok UpL TrT DgN; y_ok UpL TrC DgU; y_ok UpU TrN DgN; y_ok UpU TrN DgU; y_ok UpU TrT DgN; y_ok UpU TrC DgU] = true.
  Proof. vm_compute. reflexivity. Qed.

  (** Outside the hypotheses: a low-rank leaf on the diagonal. With a dense right-hand side a null pointer is read; with a
      hierarchical one an error is logged and the right-hand side is returned. *)
  Theorem C29_low_rank_diagonal_refuted : exists A M, hrep (K := Qcc) yparts M A /\ h_s (rt_val A) = h_t (rt_val A) /\ (forall i, inc (h_t (rt_val A)) i -> M i i <> c0 Qcc) /\
    (forall fuel B, matrix_solve Qf yparts fuel SdL UpL TrN DgN (q 1) A B = None) /\
    (forall fuel B, hh_solve Qf (fun L => L) (svd_id Qcc) yparts (S fuel) SdL UpL TrN DgN (q 1) A B = Some B).
  Proof.
    exists (yh yb yb (yl 1 1 1 [2]%Z [1]%Z) []), (fun _ _ => q 2). destruct y_tree as (_ & _ & Lb). split.
    { apply (hrep_leaf Qcc); try reflexivity; try assumption; try (cbn; unfold wf_mat, wf_lrm; cbn; repeat split; lia).
      cbn [rt_val yh h_t h_s yb c_size c_off ct_info ci_size ci_off]. intros [|a] [|b] Ha Hb; try lia. apply qeq. vm_compute. reflexivity. }
    split; [reflexivity|]. split; [intros i _ E; vm_compute in E; discriminate|]. split.
    - intros [|fuel] B; [reflexivity|]. cbn [matrix_solve row_solve]. destruct (if ceqb (fk Qf) (q 1) (c1 (fk Qf)) then _ else _); reflexivity.
    - intros fuel B. cbn [hh_solve]. replace (ceqb (fk Qf) (q 1) (c1 (fk Qf))) with true by (vm_compute; reflexivity). reflexivity.
  Qed.
End Example.
Print Assumptions C29_low_rank_diagonal_refuted.
