(** * Property C62: copies of hierarchical matrices.

    Vocabulary: CopyModel.v ([hcopy]: copy constructor, [hassign]: copy assignment), CopySpec.v ([same_results]: the same products, exports
    and diagonals for all the arguments). *)

From Coq Require Import List Arith ZArith Bool Lia Permutation QArith Qcanon.
From Verif Require Import ClusterModel ClusterSpec ClusterFinal IOModel IOSpec IOProofs BlockModel BlockSpec P_Cluster P_Block Algebra BlasModel BlasProofs
  HMatModel HMatSpec HMatProofs P_HMat DiagModel Field ArithModel ArithSpec DenseModel DenseSpec DenseChol ArithDense ArithDest P_Arith P_Dense HFactModel HFactSpec HFactSubst HFactSolve HFactHH HFactTri HFactLU HFactRenum P_HTri P_HLU
  CopyModel CopySpec CopyProofs CopyFact.
Import ListNotations.
Local Open Scope nat_scope.

(** C62.  A copy gives the same results as the original, unless it is complex symmetric: without symmetry (no leaf for symmetry),
    Hermitian, or symmetric with coefficients that conjugation leaves unchanged (real numbers). *)
Definition copied_faithfully K (A : hmat K) : Prop :=
  exists L Y, hleaves K A = Some (L, Y) /\
    (Y = [] \/ h_lsym (rt_val A) = SyH \/
     h_lsym (rt_val A) = SyS /\ (forall x : car K, cconj K x = x) /\ forall h, In h Y -> wf_leaf h).

Theorem C62_copy : forall K (A : hmat K), copied_faithfully K A -> same_results K A (hcopy K A).
Proof. intros K A (L & Y & HL & HF). exact (copy_same K A L Y HL HF). Qed.
Print Assumptions C62_copy.

(** With several threads, for every distribution of the leaves and order of the critical sections. *)
Theorem C62_copy_threads : forall K (A : hmat K) L Y, hleaves K A = Some (L, Y) ->
  h_lsym (rt_val A) = SyH \/ (h_lsym (rt_val A) = SyS /\ (forall x : car K, cconj K x = x) /\ forall h, In h Y -> wf_leaf h) \/ Y = [] ->
  forall threads, (forall th, In th threads -> incl (snd th) Y) ->
  let threads' := map (fun th => (map (copy_info K) (fst th), map (copy_info K) (snd th))) threads in
  (forall t alpha x beta y, omp_vec K threads' t alpha (hcopy K A) x beta y = omp_vec K threads t alpha A x beta y) /\
  (forall t alpha x beta y mu, omp_mat K threads' t alpha (hcopy K A) x beta y mu = omp_mat K threads t alpha A x beta y mu).
Proof.
  intros K A L Y HL HF threads Hth. cbn zeta.
  assert (G : forall th, In th threads -> faithful K (h_lsym (rt_val A)) (snd th)).
  { intros th H. specialize (Hth th H). destruct HF as [E|[(E & Hid & W)| ->]]; [right; left; exact E| |].
    - right. right. split; [exact E|]. split; [exact Hid|]. intros h Hh. apply W, Hth, Hh.
    - left. destruct (snd th) as [|a l]; [reflexivity|]. destruct (Hth a (or_introl eq_refl)). }
  split; intros; [apply omp_vec_copy, G|apply omp_mat_copy, G].
Qed.
Print Assumptions C62_copy_threads.

(** The assignment copies the field that the constructor leaves out: always the same results. *)
Theorem C62_assignment : forall K (D A : hmat K) L Y, hleaves K A = Some (L, Y) ->
  same_results K A (hassign K false D A) /\ hassign K true A A = A.
Proof. intros K D A L Y HL. split; [exact (assign_same K D A L Y HL)|reflexivity]. Qed.
Print Assumptions C62_assignment.

(** The copy of a matrix without symmetry can be factorised and used to solve systems, under the hypotheses of C27 on the original. *)
Theorem C62_copy_can_be_factorised : forall (F : Fld) parts recompress svd_factors piv, exact_recompression recompress -> exact_svd svd_factors -> pivot_rule piv ->
  forall N perm Au (A : rtree (hinfo (fk F))) fuel,
  let c := h_t (rt_val A) in let n := c_size c in
  Permutation perm (seq 0 N) -> c_off c + n <= N -> Permutation (slice (c_off c) n perm) (seq (c_off c) n) ->
  let M := fun i j => Au (nth i perm 0) (nth j perm 0) in
  hrep parts M A -> h_s (rt_val A) = c -> factorable M (c_off c) A -> 3 * cheight c <= fuel ->
  exists A', lu F recompress svd_factors parts piv fuel (hcopy (fk F) A) = Some A' /\
    forall t (B : mat (fk F)) q, 1 <= q -> wf_mat B n q ->
    exists X, lu_solve F parts perm fuel t A' B = Some X /\ wf_mat X n q /\
      is_solution SdL t (fun i j => Au (c_off c + i) (c_off c + j)) (c1 (fk F)) n q (me B) (me X).
Proof.
  intros F parts rc sv piv HR HSv HP N perm Au A fuel c n Hp Hb Hl M HM HS HF Hf.
  pose proof (C27_solve F parts rc sv piv HR HSv HP N perm Au (hcopy (fk F) A) fuel) as Q. cbn zeta in Q. rewrite rt_copy in Q.
  change (h_t (copy_info (fk F) (rt_val A))) with c in Q. change (h_s (copy_info (fk F) (rt_val A))) with (h_s (rt_val A)) in Q.
  apply Q; try assumption; [apply hrep_copy; exact HM|apply factorable_copy; exact HF].
Qed.
Print Assumptions C62_copy_can_be_factorised.

(** What C28 requires of a symmetric matrix holds of its copy. *)
Theorem C62_copy_keeps_symmetric_data : forall (F : Fld) parts u M (A : rtree (hinfo (fk F))),
  hsym (F := F) parts u M A -> hsym (F := F) parts u M (hcopy (fk F) A).
Proof. intros F parts u M A. apply hsym_copy. Qed.
Print Assumptions C62_copy_keeps_symmetric_data.

(** The parameters (epsilon, eta, ...).  In a built tree they are shared: a setter called on any node is seen by all.  A copy reads the
    values of the original and shares nothing with it: a setter on one is not seen by the other. *)
Theorem C62_built_trees_share_parameters : forall P X (d : P) (shape : rtree X) heap,
  let (A, heap1) := td_build P d shape heap in
  forall p f q, In p (ids A) -> In q (ids A) -> td_get P q heap1 = Some d /\ td_get P q (td_set P p f heap1) = Some (f d).
Proof.
  intros P X d shape heap. cbn [td_build]. intros p f q Hp Hq. apply share_ids in Hp, Hq. subst p q. unfold td_get.
  assert (E : nth_error (heap ++ [d]) (length heap) = Some d) by (rewrite nth_error_app2 by lia; rewrite Nat.sub_diag; reflexivity).
  split; [exact E|]. apply td_set_same. exact E.
Qed.
Print Assumptions C62_built_trees_share_parameters.

Theorem C62_copy_has_its_own_parameters : forall P (A : rtree nat) (heap : list P), (forall p, In p (ids A) -> p < length heap) ->
  exists A' heap', td_copy P A heap = Some (A', heap') /\
    values A' heap' = values A heap /\ values A heap' = values A heap /\
    (forall p f, In p (ids A') -> values A (td_set P p f heap') = values A heap) /\
    (forall p f, In p (ids A) -> values A' (td_set P p f heap') = values A heap).
Proof.
  intros P A heap H. destruct (td_copy_ok P A heap H) as (A' & heap' & E & (ext & E1) & E2 & E3 & _).
  exists A', heap'. split; [exact E|]. split; [exact E2|].
  assert (V : values A heap' = values A heap). { apply values_ext. intros p Hp. rewrite E1. apply nth_ext, H, Hp. }
  split; [exact V|]. split.
  - intros p f Hp. rewrite <- V. apply values_ext. intros q Hq. apply td_set_other. specialize (E3 p Hp). specialize (H q Hq). lia.
  - intros p f Hp. rewrite <- E2. apply values_ext. intros q Hq. apply td_set_other. specialize (E3 q Hq). specialize (H p Hp). lia.
Qed.
Print Assumptions C62_copy_has_its_own_parameters.

(** *** Examples *)
(** The matrices of P_HMat.v: symmetric with integer coefficients, Hermitian. *)
Example ex_copies : forall u, In u [UpL; UpU] ->
  match exS None u, P_HMat.exH u with
  | Some A, Some H =>
      (match hleaves Zc A with Some (L, Y) => negb (length Y =? 0) && sym_is_S (h_lsym (rt_val A)) | None => false end = true) /\
      (match hleaves Gc H with Some (L, Y) => negb (length Y =? 0) && sym_is_H (h_lsym (rt_val H)) | None => false end = true) /\
      add_hmatrix_vector_product Gc TrN (2, 1)%Z (hcopy Gc H) ex_gx (1, 1)%Z ex_gy = add_hmatrix_vector_product Gc TrN (2, 1)%Z H ex_gx (1, 1)%Z ex_gy
  | _, _ => False
  end.
Proof. intros u [<-|[<-|[]]]; vm_compute; repeat split; reflexivity. Qed.
Lemma hermitian_copied : forall K (A : hmat K) L Y, hleaves K A = Some (L, Y) -> h_lsym (rt_val A) = SyH -> copied_faithfully K A.
Proof. intros K A L Y H1 H2. exists L, Y. auto. Qed.
Lemma built_copied : forall (o : option (hmat Gc)),
  match o with Some A => match hleaves Gc A with Some _ => sym_is_H (h_lsym (rt_val A)) | None => false end | None => false end = true ->
  match o with Some A => copied_faithfully Gc A | None => False end.
Proof.
  intros [A|] E; [|discriminate]. destruct (hleaves Gc A) as [[L Y]|] eqn:HL; [|discriminate]. apply (hermitian_copied Gc A L Y HL).
  destruct (h_lsym (rt_val A)); try discriminate. reflexivity.
Qed.
Example ex_faithful : forall u, In u [UpL; UpU] -> match P_HMat.exH u with Some A => copied_faithfully Gc A | None => False end.
Proof. intros u Hu. apply built_copied. destruct Hu as [<-|[<-|[]]]; vm_compute; reflexivity. Qed.
(** The system of P_HLU.v solved with a copy. *)
Example ex_copy_solve : exists A', lu Qf (fun L => L) (svd_id Qcc) yparts (iamax Qf qlt) 6 (hcopy Qcc yA) = Some A' /\
  forall t (B : mat Qcc) q', 1 <= q' -> wf_mat B 3 q' ->
  exists X, lu_solve Qf yparts zperm 6 t A' B = Some X /\ wf_mat X 3 q' /\ is_solution (F := Qf) SdL t (fun i j => zAu (0 + i) (0 + j)) (q 1) 3 q' (me B) (me X).
Proof.
  apply (C62_copy_can_be_factorised Qf yparts (fun L => L) (svd_id Qcc) (iamax Qf qlt) (recompress_id Qcc) (svd_id_exact Qcc) (iamax_rule Qf qlt qlt_order) 3 zperm zAu yA 6);
    try reflexivity; try exact z_rep; try exact z_factorable'; try (cbn; lia); try (cbn; apply perm_swap).
Qed.

(** *** Outside the hypotheses *)
(** The copy of a complex symmetric matrix: the blocks above the diagonal, which are not stored, are conjugated.
    The matrix (1 i; i 1) applied to (0, 1): the original gives (i, 1), the copy (-i, 1). *)
Definition cs_a : ctree := CNode (mkCinfo 0%Z 0 1 1 0 []) [].
Definition cs_b : ctree := CNode (mkCinfo 0%Z 1 1 1 1 []) [].
Definition cs_r : ctree := CNode (mkCinfo 0%Z 0 2 0 0 []) [cs_a; cs_b].
Definition cs_leaf (t s : ctree) (sy : symc) (u : uplo) (v : gz) : hmat Gc := RNode (mkHinfo Gc t s sy u (DDense (mkMat (K:=Gc) 1 1 [v])) SyN UpN) [].
Definition cs_A : hmat Gc :=
  RNode (mkHinfo Gc cs_r cs_r SyS UpL DNone SyS UpL)
    [cs_leaf cs_a cs_a SyS UpL (1, 0)%Z; cs_leaf cs_b cs_a SyN UpN (0, 1)%Z; cs_leaf cs_b cs_b SyS UpL (1, 0)%Z].
Theorem C62_copy_complex_symmetric_refuted :
  (exists L Y, hleaves Gc cs_A = Some (L, Y) /\ value L Y SyS 0 1 = (0, 1)%Z /\ value L Y SyS 1 0 = (0, 1)%Z) /\
  add_hmatrix_vector_product Gc TrN (1, 0)%Z cs_A [(0, 0); (1, 0)]%Z (0, 0)%Z [(0, 0); (0, 0)]%Z = Some [(0, 1); (1, 0)]%Z /\
  add_hmatrix_vector_product Gc TrN (1, 0)%Z (hcopy Gc cs_A) [(0, 0); (1, 0)]%Z (0, 0)%Z [(0, 0); (0, 0)]%Z = Some [(0, -1); (1, 0)]%Z.
Proof.
  split; [|split; vm_compute; reflexivity].
  match eval vm_compute in (hleaves Gc cs_A) with Some (?L, ?Y) => exists L, Y end. split; [vm_compute; reflexivity|]. split; vm_compute; reflexivity.
Qed.
Print Assumptions C62_copy_complex_symmetric_refuted.

(** The nodes of a copy no longer share their parameters: set_epsilon on the root of the copy is not seen by its blocks. *)
Theorem C62_copy_does_not_share_refuted :
  let (A, heap) := td_build nat 6 (RNode tt [RNode tt []]) [] in
  match td_copy nat A heap with
  | Some (RNode p [RNode q []] as A', heap') =>
      values A' heap' = RNode (Some 6) [RNode (Some 6) []] /\ values A' (td_set nat p (fun _ => 3) heap') = RNode (Some 3) [RNode (Some 6) []]
  | _ => False
  end.
Proof. vm_compute. split; reflexivity. Qed.
Print Assumptions C62_copy_does_not_share_refuted.
