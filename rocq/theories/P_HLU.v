(** * LU factorisation of hierarchical matrices: C27. *)

From Coq Require Import List Arith ZArith Bool Lia Permutation QArith.Qcanon.
From Verif Require Import ClusterModel ClusterSpec IOModel IOSpec BlockModel BlockSpec Algebra BlasModel HMatModel HMatSpec Field
  DenseModel DenseSpec DenseChol ArithModel ArithSpec ArithDense ArithDest P_Arith P_Dense HFactModel HFactSpec HFactSubst HFactSolve HFactHH HFactTri
  HFactLU HFactRenum P_HTri.
Import ListNotations.
Local Open Scope nat_scope.

(** [hrep parts M A]: the hierarchical matrix A holds the entries M (numbering of the clusters).  [factorable M first A]: the
    leaves of the diagonal are dense and the leading principal submatrices of M that end with one of them are not singular.
    [pivot_rule piv]: the rule of LAPACK for the choice of the pivot in a leaf. *)

(** ** The factorisation: A holds afterwards a unit lower triangle (with the row exchanges of its leaves) and an upper triangle,
    the product of which is the matrix *)
Theorem C27_factorization : forall (F : Fld) parts recompress svd_factors piv, exact_recompression recompress -> exact_svd svd_factors -> pivot_rule piv ->
  forall M (A : rtree (hinfo (fk F))) fuel,
  let c := h_t (rt_val A) in
  hrep parts M A -> h_s (rt_val A) = c -> factorable M (c_off c) A -> 3 * cheight c <= fuel ->
  exists A' L U, lu F recompress svd_factors parts piv fuel A = Some A' /\ block_of A' = (c, c) /\
    htri parts UpL DgU L A' /\ htri parts UpU DgN U A' /\
    forall i j, inc c i -> inc c j -> M i j = csum c (fun x => cmul (fk F) (L i x) (U x j)).
Proof.
  intros F parts rc sv piv HR HSv HP M A fuel c HM HS HF Hf.
  destruct (lu_factorization_ok F parts rc sv HR HSv piv HP fuel M A HM HS HF Hf) as (A' & L & U & E1 & [E2 _] & E3).
  exists A', L, U. split; [exact E1|]. split; [|exact E3]. rewrite E2. unfold block_of. rewrite HS. reflexivity.
Qed.
Print Assumptions C27_factorization.

(** ** The factorisation followed by the solve, in the numbering of the clusters *)
Theorem C27_internal_solve : forall (F : Fld) parts recompress svd_factors piv, exact_recompression recompress -> exact_svd svd_factors -> pivot_rule piv ->
  forall M (A : rtree (hinfo (fk F))) fuel,
  let c := h_t (rt_val A) in let n := c_size c in
  hrep parts M A -> h_s (rt_val A) = c -> factorable M (c_off c) A -> 3 * cheight c <= fuel ->
  exists A', lu F recompress svd_factors parts piv fuel A = Some A' /\
    forall t (B : mat (fk F)) q, 1 <= q -> wf_mat B n q ->
    exists X, internal_lu_solve F parts fuel t A' B = Some X /\ wf_mat X n q /\
      is_solution SdL t (fun i j => M (c_off c + i) (c_off c + j)) (c1 (fk F)) n q (me B) (me X).
Proof.
  intros F parts rc sv piv HR HSv HP M A fuel c n HM HS HF Hf.
  destruct (C27_factorization F parts rc sv piv HR HSv HP M A fuel HM HS HF Hf) as (A' & L & U & E1 & E2 & E3 & E4 & E5).
  exists A'. split; [exact E1|]. intros t B q Hq HB. unfold block_of in E2. injection E2 as Et Es.
  pose proof (internal_lu_solve_ok F parts fuel t M L U A' q B) as Q. cbn zeta in Q. rewrite Et in Q. apply Q; try assumption. fold c. lia.
Qed.
Print Assumptions C27_internal_solve.

(** ** The factorisation followed by the solve, in user numbering.  The entries of the matrix are Au (user numbering), perm is the
    permutation of the cluster tree; if the cluster is not the root, it must be local (its slice of perm is a permutation of it). *)
Theorem C27_solve : forall (F : Fld) parts recompress svd_factors piv, exact_recompression recompress -> exact_svd svd_factors -> pivot_rule piv ->
  forall N perm Au (A : rtree (hinfo (fk F))) fuel,
  let c := h_t (rt_val A) in let n := c_size c in
  Permutation perm (seq 0 N) -> c_off c + n <= N -> Permutation (slice (c_off c) n perm) (seq (c_off c) n) ->
  let M := fun i j => Au (nth i perm 0) (nth j perm 0) in
  hrep parts M A -> h_s (rt_val A) = c -> factorable M (c_off c) A -> 3 * cheight c <= fuel ->
  exists A', lu F recompress svd_factors parts piv fuel A = Some A' /\
    forall t (B : mat (fk F)) q, 1 <= q -> wf_mat B n q ->
    exists X, lu_solve F parts perm fuel t A' B = Some X /\ wf_mat X n q /\
      is_solution SdL t (fun i j => Au (c_off c + i) (c_off c + j)) (c1 (fk F)) n q (me B) (me X).
Proof.
  intros F parts rc sv piv HR HSv HP N perm Au A fuel c n Hp Hb Hl M HM HS HF Hf.
  destruct (C27_factorization F parts rc sv piv HR HSv HP M A fuel HM HS HF Hf) as (A' & L & U & E1 & E2 & E3 & E4 & E5).
  exists A'. split; [exact E1|]. intros t B q Hq HB. unfold block_of in E2. injection E2 as Et Es. unfold lu_solve.
  apply (renumbered_ok F N perm c Hp Hb Hl (internal_lu_solve F parts fuel t A') t M Au A' q B Et Es); [|reflexivity|exact HB].
  intros P HP'. pose proof (internal_lu_solve_ok F parts fuel t M L U A' q P) as Q. cbn zeta in Q. rewrite Et in Q. apply Q; try assumption. fold c. lia.
Qed.
Print Assumptions C27_solve.

(** ** A concrete case: the matrix of P_HTri, with a low-rank block, a root above the partition, a row exchange in the first leaf *)
Section Example.
  Lemma z_tree_inj : forall n (A : nat -> nat -> Qc) (I : list Qc),
    forallb (fun i => forallb (fun j => Qc_eq_bool (sum (K := Qcc) n (fun k => Qcmult (nth (n * i + k) I (q 0)) (A k j))) (if i =? j then q 1 else q 0)) (seq 0 n)) (seq 0 n) = true ->
    injective (F := Qf) n A.
  Proof.
    intros n A I H. apply (left_inverse_injective Qf n A (fun i k => nth (n * i + k) I (q 0))). intros i j Hi Hj.
    assert (H1 := proj1 (forallb_forall _ _) H i ltac:(apply in_seq; lia)). cbv beta in H1.
    assert (H2 := proj1 (forallb_forall _ _) H1 j ltac:(apply in_seq; lia)). cbv beta in H2. apply Qc_eq_bool_correct in H2.
    refine (eq_trans H2 _). destruct (i =? j)%nat; apply Qc_is_canon; reflexivity.
  Qed.
  Definition zI2 : list Qc := map (fun a => Qcdiv (q a) (q (-2))) [4; -2; -3; 1]%Z.
  Definition zI3 : list Qc := map (fun a => Qcdiv (q a) (q 22)) [-44; 22; 0; 43; -26; 5; -4; 6; -2]%Z.
  Lemma z_factorable : factorable (F := Qf) yM 0 yA.
  Proof.
    apply factorable_node; [reflexivity|]. intros c k [<-|[<-|[<-|[<-|[]]]]] Hb; try (unfold block_of in Hb; cbn in Hb; injection Hb as <- E; discriminate E);
      (eapply factorable_leaf; [reflexivity|]); cbn [yh rt_val h_t ya yb c_off c_size ct_info ci_off ci_size].
    - apply (z_tree_inj 2 _ zI2). vm_compute. reflexivity.
    - apply (z_tree_inj 3 _ zI3). vm_compute. reflexivity.
  Qed.
  (** The user numbering: the first and the second point are exchanged. *)
  Definition zperm : list nat := [1; 0; 2].
  Definition zAu (i j : nat) : Qc := q (nth (3 * i + j) [4; 3; 10; 2; 1; 5; 8; 7; 9]%Z 0%Z).
  Lemma z_rep : hrep (K := Qcc) yparts (fun i j => zAu (nth i zperm 0) (nth j zperm 0)) yA.
  Proof.
    destruct y_tree as (Lr & La & Lb). apply (hrep_node Qcc); try reflexivity; try assumption.
    - cbn. unfold block_of. cbn. apply perm_skip. apply perm_swap.
    - intros c [<-|[<-|[<-|[<-|[]]]]]; apply (hrep_leaf Qcc); try reflexivity; try assumption;
        try (cbn; unfold wf_mat, wf_lrm; cbn; repeat split; lia); cbn [rt_val yh h_t h_s ya yb c_size c_off ct_info ci_size ci_off];
        intros a b Ha Hb; destruct a as [|[|a]]; try lia; destruct b as [|[|b]]; try lia; apply qeq; vm_compute; reflexivity.
  Qed.
  Lemma z_factorable' : factorable (F := Qf) (fun i j => zAu (nth i zperm 0) (nth j zperm 0)) 0 yA.
  Proof.
    apply factorable_node; [reflexivity|]. intros c k [<-|[<-|[<-|[<-|[]]]]] Hb; try (unfold block_of in Hb; cbn in Hb; injection Hb as <- E; discriminate E);
      (eapply factorable_leaf; [reflexivity|]); cbn [yh rt_val h_t ya yb c_off c_size ct_info ci_off ci_size].
    - apply (z_tree_inj 2 _ zI2). vm_compute. reflexivity.
    - apply (z_tree_inj 3 _ zI3). vm_compute. reflexivity.
  Qed.
  (** The hypotheses hold. *)
  Example C27_hyps : exists A', lu Qf (fun L => L) (svd_id Qcc) yparts (iamax Qf qlt) 6 yA = Some A' /\
    forall t (B : mat Qcc) q', 1 <= q' -> wf_mat B 3 q' ->
    exists X, lu_solve Qf yparts zperm 6 t A' B = Some X /\ wf_mat X 3 q' /\ is_solution (F := Qf) SdL t (fun i j => zAu (0 + i) (0 + j)) (q 1) 3 q' (me B) (me X).
  Proof.
    apply (C27_solve Qf yparts (fun L => L) (svd_id Qcc) (iamax Qf qlt) (recompress_id Qcc) (svd_id_exact Qcc) (iamax_rule Qf qlt qlt_order) 3 zperm zAu yA 6);
      try reflexivity; try exact z_rep; try exact z_factorable'; try (cbn; lia); try (cbn; apply perm_swap).
  Qed.
  (** By computation: the three operations, the system in user numbering; the first leaf exchanges its rows. *)
  Definition z_ok (t : trans) : bool :=
    match lu Qf (fun L => L) (svd_id Qcc) yparts (iamax Qf qlt) 6 yA with
    | Some A' =>
        match lu_solve Qf yparts zperm 6 t A' yB with
        | Some X => forallb (fun p => Qc_eq_bool (sum (K := Qcc) 3 (fun k => Qcmult (op_fun (K := Qcc) t zAu (fst p) k) (me X k (snd p)))) (me yB (fst p) (snd p))) (list_prod [0; 1; 2] [0; 1])
        | None => false
        end
    | None => false
    end.
  Example C27_run : z_ok TrN && z_ok TrT && z_ok TrC = true. Proof. vm_compute. reflexivity. Qed.
  Example C27_exchanges : match lu Qf (fun L => L) (svd_id Qcc) yparts (iamax Qf qlt) 6 yA with
    | Some (RNode _ (RNode i _ :: _)) => match h_data i with DDense D => mp D | _ => [] end | _ => [] end = [2; 2].
  Proof. vm_compute. reflexivity. Qed.

  (** Outside the hypotheses.  Rows are exchanged inside the leaves only: a matrix that is not singular, of which a leading
      block is singular, is not solved. *)
  Definition wa : ctree := CNode (mkCinfo 0 0 1 1 0 [0]) [].
  Definition wb : ctree := CNode (mkCinfo 1 1 1 1 1 [1]) [].
  Definition wr : ctree := CNode (mkCinfo (-1) 0 2 0 0 [0; 1]) [wa; wb].
  Definition wparts (_ : ctree) : list ctree := [wa; wb].
  Definition wA : rtree (hinfo Qcc) := yh wr wr DNone [yh wa wa (yd 1 1 [0]%Z) []; yh wb wa (yd 1 1 [1]%Z) []; yh wa wb (yd 1 1 [1]%Z) []; yh wb wb (yd 1 1 [0]%Z) []].
  Definition wM (i j : nat) : Qc := if i =? j then q 0 else q 1.
  Lemma w_rep : hrep (K := Qcc) wparts wM wA.
  Proof.
    assert (La : cluster_tree wparts wa) by (constructor; cbn; try (intros; contradiction); try lia; congruence).
    assert (Lb : cluster_tree wparts wb) by (constructor; cbn; try (intros; contradiction); try lia; congruence).
    assert (Lr : cluster_tree wparts wr).
    { constructor; cbn.
      - lia.
      - intros _. unfold interval, wa, wb. cbn. repeat split.
      - intros c [<-|[<-|[]]]; reflexivity.
      - intros c [<-|[<-|[]]]; cbn; lia.
      - intros _. split; [discriminate|reflexivity].
      - intros c [<-|[<-|[]]]; assumption. }
    apply (hrep_node Qcc); try reflexivity; try assumption.
    - cbn. unfold block_of. cbn. apply perm_skip. apply perm_swap.
    - intros c [<-|[<-|[<-|[<-|[]]]]]; apply (hrep_leaf Qcc); try reflexivity; try assumption;
        try (cbn; unfold wf_mat; cbn; repeat split; lia); cbn [rt_val yh h_t h_s wa wb c_size c_off ct_info ci_size ci_off];
        intros a b Ha Hb; destruct a as [|a]; try lia; destruct b as [|b]; try lia; apply qeq; vm_compute; reflexivity.
  Qed.
  Theorem C27_singular_leading_block_refuted : exists parts M (A A' : rtree (hinfo Qcc)) (B X : mat Qcc),
    hrep (K := Qcc) parts M A /\ block_of A = (wr, wr) /\ injective (F := Qf) 2 M /\ wf_mat B 2 1 /\
    lu Qf (fun L => L) (svd_id Qcc) parts (iamax Qf qlt) 6 A = Some A' /\ internal_lu_solve Qf parts 6 TrN A' B = Some X /\
    ~ is_solution (F := Qf) SdL TrN M (q 1) 2 1 (me B) (me X).
  Proof.
    exists wparts, wM, wA. eexists. exists (mkMat (K := Qcc) 2 1 (map q [1; 2]%Z)). eexists.
    split; [exact w_rep|]. split; [reflexivity|]. split; [apply (z_tree_inj 2 _ (map q [0; 1; 1; 0]%Z)); vm_compute; reflexivity|].
    split; [repeat split|]. split; [vm_compute; reflexivity|]. split; [vm_compute; reflexivity|].
    intros H. specialize (H 0 0 ltac:(lia) ltac:(lia)). vm_compute in H. discriminate.
  Qed.
  (** A low-rank leaf on the diagonal: an error is logged and the matrix is returned as it is. *)
  Theorem C27_low_rank_diagonal_refuted : exists parts M (A : rtree (hinfo Qcc)), hrep (K := Qcc) parts M A /\ h_s (rt_val A) = h_t (rt_val A) /\
    injective (F := Qf) 1 (fun i j => M (2 + i) (2 + j)) /\
    (forall fuel, lu Qf (fun L => L) (svd_id Qcc) parts (iamax Qf qlt) (S fuel) A = Some A) /\
    forall fuel B, internal_lu_solve Qf parts fuel TrN A B = None.
  Proof.
    exists yparts, (fun _ _ => q 2), (yh yb yb (yl 1 1 1 [2]%Z [1]%Z) []). destruct y_tree as (_ & _ & Lb). split.
    { apply (hrep_leaf Qcc); try reflexivity; try assumption; try (cbn; unfold wf_mat, wf_lrm; cbn; repeat split; lia).
      cbn [rt_val yh h_t h_s yb c_size c_off ct_info ci_size ci_off]. intros [|a] [|b] Ha Hb; try lia. apply qeq. vm_compute. reflexivity. }
    split; [reflexivity|]. split; [apply (z_tree_inj 1 _ [Qcinv (q 2)]); vm_compute; reflexivity|]. split; [reflexivity|].
    intros fuel B. unfold internal_lu_solve. cbn [is_N]. destruct fuel as [|fuel]; [reflexivity|]. cbn [matrix_solve row_solve].
    destruct (if ceqb (fk Qf) (c1 (fk Qf)) (c1 (fk Qf)) then _ else _); reflexivity.
  Qed.
End Example.
Print Assumptions C27_singular_leading_block_refuted.
Print Assumptions C27_low_rank_diagonal_refuted.
