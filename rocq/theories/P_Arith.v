(** * Sums of low-rank matrices and products of hierarchical matrices: C24, C25, C54. *)

From Coq Require Import List Arith ZArith Bool Lia Permutation.
From Verif Require Import ClusterModel ClusterSpec IOModel IOSpec BlockModel BlockSpec BlockSym Algebra BlasModel HMatModel HMatSpec HMatBuild
  ArithModel ArithSpec ArithDense ArithLr ArithTree ArithHier ArithProd ArithDest.
Import ListNotations.

(** ** C24: a low-rank matrix is added to another one, on the block of the latter *)
Theorem C24_low_rank_sum : forall (K : Coef) (recompress : lrm K -> lrm K), exact_recompression recompress ->
  forall (X Y : lrm K) (Xt Xs Yt Ys : ctree), 1 <= c_size Yt -> 1 <= c_size Ys ->
  wf_lrm X (c_size Xt) (c_size Xs) -> wf_lrm Y (c_size Yt) (c_size Ys) ->
  (contains Yt Xt = true /\ contains Ys Xs = true) \/ (contains Xt Yt = true /\ contains Xs Ys = true) ->
  exists L, add_lrmat_lrmat K recompress X Xt Xs Y Yt Ys = Some L /\ wf_lrm L (c_size Yt) (c_size Ys) /\
    forall i j, in_iv i (interval Yt) = true -> in_iv j (interval Ys) = true ->
      lr_entry L (i - c_off Yt) (j - c_off Ys) =
      cadd K (lr_entry Y (i - c_off Yt) (j - c_off Ys))
        (if in_iv i (interval Xt) && in_iv j (interval Xs) then lr_entry X (i - c_off Xt) (j - c_off Xs) else c0 K).
Proof.
  intros K rc HR X Y Xt Xs Yt Ys H1 H2 H3 H4 H5. destruct (add_lrmat_lrmat_ok K rc HR X Xt Xs Y Yt Ys H1 H2 H3 H4 H5) as (L & E1 & E2 & _ & _ & E3).
  exists L. split; [exact E1|]. split; [exact E2|]. exact E3.
Qed.
Print Assumptions C24_low_rank_sum.

(** ** C25: products of hierarchical matrices *)
(** [hrep parts M A]: the hierarchical matrix A holds the entries M. *)
Theorem C25_product : forall (K : Coef) parts (recompress : lrm K -> lrm K) (svd_factors : mat K -> lrm K),
  exact_recompression recompress -> exact_svd svd_factors ->
  forall fuel ta tb alpha MA MB MC (A B Cm : rtree (hinfo K)), height K A < fuel ->
  hrep parts MA A -> hrep parts MB B -> hrep parts MC Cm ->
  mid_of K ta A = out_of K tb B -> block_of Cm = (out_of K ta A, mid_of K tb B) ->
  above (out_of K ta A) = above (mid_of K ta A) -> above (mid_of K tb B) = above (mid_of K ta A) ->
  exists C', hh_h K recompress svd_factors parts fuel ta tb alpha A B (c1 K) Cm = Some C' /\
    hrep parts (fun i j => cadd K (MC i j) (cmul K alpha (csum (mid_of K ta A) (fun x => cmul K (op_fun ta MA i x) (op_fun tb MB x j))))) C'.
Proof.
  intros K parts rc sv HR HS fuel ta tb alpha MA MB MC A B Cm Hf HA HB HC HM HBl Ao Ai.
  destruct (hh_h_ok K parts rc HR sv HS fuel ta tb alpha MA MB A B Cm Hf HA HB HM Ao Ai (hrep_hdest K parts MC Cm HC) HBl) as (C' & E & U).
  exists C'. split; [exact E|]. exact (hrep_upd K parts MC Cm HC _ C' U).
Qed.
Print Assumptions C25_product.

(** C may miss some of its blocks (symmetric storage): those that it has are updated.  Any beta when C is a leaf or both A
    and B are hierarchical. *)
Theorem C25_product_scaled : forall (K : Coef) parts (recompress : lrm K -> lrm K) (svd_factors : mat K -> lrm K),
  exact_recompression recompress -> exact_svd svd_factors ->
  forall fuel ta tb alpha beta MA MB (A B H : rtree (hinfo K)), height K A < fuel ->
  hrep parts MA A -> hrep parts MB B -> hdest H ->
  mid_of K ta A = out_of K tb B -> block_of H = (out_of K ta A, mid_of K tb B) ->
  above (out_of K ta A) = above (mid_of K ta A) -> above (mid_of K tb B) = above (mid_of K ta A) ->
  beta = c1 K \/ h_data (rt_val H) <> DNone \/ (h_data (rt_val A) = DNone /\ h_data (rt_val B) = DNone) ->
  exists H', hh_h K recompress svd_factors parts fuel ta tb alpha A B beta H = Some H' /\
    hupd (fun i j v => cadd K (cmul K beta v) (cmul K alpha (csum (mid_of K ta A) (fun x => cmul K (op_fun ta MA i x) (op_fun tb MB x j))))) H H'.
Proof.
  intros K parts rc sv HR HS fuel ta tb alpha beta MA MB A B H Hf HA HB HD HM HBl Ao Ai G. pose proof (c_ring K) as RT.
  destruct (ceqb_spec K beta (c1 K)) as [->|Hb].
  - destruct (hh_h_ok K parts rc HR sv HS fuel ta tb alpha MA MB A B H Hf HA HB HM Ao Ai HD HBl) as (H' & E & U). exists H'. split; [exact E|].
    eapply hupd_ext; [|exact U]. intros i j v. cbn beta. f_equal. symmetry. apply (Ring_theory.Rmul_1_l RT).
  - destruct G as [G|G]; [contradiction|]. destruct fuel as [|fuel]; [lia|]. destruct (out_ct K parts ta MA A HA) as [Co _]. destruct (out_ct K parts tb MB B HB) as [_ Ci].
    pose proof HBl as HBl'. unfold block_of in HBl'. injection HBl' as Bt Bs.
    destruct (hh_h_beta K parts rc sv fuel ta tb alpha beta A B H Hb G HD) as (H1 & E1 & D1 & B1 & U1 & E2); [rewrite Bt; exact Co|rewrite Bs; exact Ci|].
    destruct (hh_h_ok K parts rc HR sv HS (S fuel) ta tb alpha MA MB A B H1 Hf HA HB HM Ao Ai D1) as (H' & E & U); [congruence|].
    exists H'. split; [congruence|]. exact (hupd_trans K _ _ _ _ _ U1 U).
Qed.
Print Assumptions C25_product_scaled.

(** Dense and low-rank results. *)
Theorem C25_product_into_dense : forall (K : Coef) parts ta tb alpha MA MB (A B : rtree (hinfo K)) (Cm : mat K),
  hrep parts MA A -> hrep parts MB B -> mid_of K ta A = out_of K tb B ->
  wf_mat Cm (c_size (out_of K ta A)) (c_size (mid_of K tb B)) ->
  exists C', hh_dense K ta tb alpha A B (c1 K) Cm = Some C' /\ wf_mat C' (c_size (out_of K ta A)) (c_size (mid_of K tb B)) /\
    forall i j, i < c_size (out_of K ta A) -> j < c_size (mid_of K tb B) ->
      me C' i j = cadd K (me Cm i j) (cmul K alpha (csum (mid_of K ta A) (fun x =>
        cmul K (op_fun ta MA (c_off (out_of K ta A) + i) x) (op_fun tb MB x (c_off (mid_of K tb B) + j))))).
Proof.
  intros K parts ta tb alpha MA MB A B Cm HA HB HM HC. destruct (hh_dense_ok K parts ta tb alpha (c1 K) MA MB A B HA HB HM Cm eq_refl HC) as (C' & E1 & E2 & E3).
  exists C'. split; [exact E1|]. split; [exact E2|]. intros i j Hi Hj. rewrite E3 by assumption. f_equal. apply (Ring_theory.Rmul_1_l (c_ring K)).
Qed.
Print Assumptions C25_product_into_dense.

Theorem C25_product_into_low_rank : forall (K : Coef) parts (recompress : lrm K -> lrm K) (svd_factors : mat K -> lrm K),
  exact_recompression recompress -> exact_svd svd_factors ->
  forall fuel ta tb alpha MA MB (A B : rtree (hinfo K)) (L : lrm K), height K A < fuel ->
  hrep parts MA A -> hrep parts MB B -> mid_of K ta A = out_of K tb B ->
  above (out_of K ta A) = above (mid_of K ta A) -> above (mid_of K tb B) = above (mid_of K ta A) ->
  wf_lrm L (c_size (out_of K ta A)) (c_size (mid_of K tb B)) ->
  exists L', hh_lr K recompress svd_factors parts fuel ta tb alpha A B (c1 K) L = Some L' /\
    wf_lrm L' (c_size (out_of K ta A)) (c_size (mid_of K tb B)) /\ 1 <= lrank L' /\
    forall i j, i < c_size (out_of K ta A) -> j < c_size (mid_of K tb B) ->
      lr_entry L' i j = cadd K (lr_entry L i j) (cmul K alpha (csum (mid_of K ta A) (fun x =>
        cmul K (op_fun ta MA (c_off (out_of K ta A) + i) x) (op_fun tb MB x (c_off (mid_of K tb B) + j))))).
Proof.
  intros K parts rc sv HR HS fuel ta tb alpha MA MB A B L Hf HA HB HM Ao Ai HL.
  destruct (hh_lr_ok K parts rc HR sv HS fuel ta tb alpha MA MB A B L Hf HA HB HM Ao Ai HL) as (L' & E & W & R & V). exists L'. auto.
Qed.
Print Assumptions C25_product_into_low_rank.

(** ** C54: scaling, and adding a low-rank matrix to a hierarchical matrix *)
Theorem C54_scale : forall (K : Coef) parts da M (A : rtree (hinfo K)), hrep parts M A ->
  exists B, h_scale K da A = Some B /\ hrep parts (fun i j => cmul K da (M i j)) B.
Proof.
  intros K parts da M A H. destruct (hrep_ct K parts M A H) as [Ht Hs]. destruct (h_scale_ok K parts da A (hrep_hdest K parts M A H) Ht Hs) as (B & E & U).
  exists B. split; [exact E|]. exact (hrep_upd K parts M A H _ B U).
Qed.
Print Assumptions C54_scale.

Theorem C54_add_low_rank : forall (K : Coef) parts (recompress : lrm K -> lrm K), exact_recompression recompress ->
  forall (L : lrm K) M (A : rtree (hinfo K)), hrep parts M A ->
  wf_lrm L (c_size (h_t (rt_val A))) (c_size (h_s (rt_val A))) -> 1 <= lrank L ->
  exists B, add_lrmat_hmatrix K recompress L A = Some B /\
    hrep parts (fun i j => cadd K (M i j) (lr_entry L (i - c_off (h_t (rt_val A))) (j - c_off (h_s (rt_val A))))) B.
Proof.
  intros K parts rc HR L M A H WL RL. destruct (hrep_ct K parts M A H) as [Ht Hs].
  destruct (add_lrmat_hmatrix_ok K parts rc HR L A (hrep_hdest K parts M A H) Ht Hs WL RL) as (B & E & U).
  exists B. split; [exact E|]. exact (hrep_upd K parts M A H _ B U).
Qed.
Print Assumptions C54_add_low_rank.

(** ** A concrete case *)
Section Example.
  Local Open Scope Z_scope.
  Definition xa : ctree := CNode (mkCinfo 0 0 2 1 0 [0; 1]%nat) [].
  Definition xb : ctree := CNode (mkCinfo 1 2 1 1 1 [2]%nat) [].
  Definition xr : ctree := CNode (mkCinfo (-1) 0 3 0 0 [0; 1; 2]%nat) [xa; xb].
  Definition xparts (_ : ctree) : list ctree := [xa; xb].
  Definition xh (t s : ctree) (d : hdata Zc) (cs : list (rtree (hinfo Zc))) : rtree (hinfo Zc) := RNode (mkHinfo Zc t s SyN UpL d SyN UpL) cs.
  Definition zd (r c : nat) (l : list Z) : hdata Zc := DDense (mkMat (K := Zc) r c l).
  Definition zl (r c k : nat) (u v : list Z) : hdata Zc := DLow (mkLrm (mkMat (K := Zc) r k u) (mkMat (K := Zc) k c v)).
  (** 1 2 5 / 3 4 10 / 7 8 9 *)
  Definition xA : rtree (hinfo Zc) := xh xr xr DNone
    [xh xa xa (zd 2 2 [1; 3; 2; 4]) []; xh xb xa (zd 1 2 [7; 8]) []; xh xa xb (zl 2 1 1 [1; 2] [5]) []; xh xb xb (zd 1 1 [9]) []].
  Definition xM (i j : nat) : Z := nth (3 * i + j)%nat [1; 2; 5; 3; 4; 10; 7; 8; 9] 0.
  Lemma x_tree : cluster_tree xparts xr /\ cluster_tree xparts xa /\ cluster_tree xparts xb.
  Proof.
    assert (La : cluster_tree xparts xa).
    { constructor; cbn; try (intros; contradiction); try lia; congruence. }
    assert (Lb : cluster_tree xparts xb).
    { constructor; cbn; try (intros; contradiction); try lia; congruence. }
    split; [|split; assumption]. constructor; cbn.
    - lia.
    - intros _. unfold interval, xa, xb. cbn. repeat split.
    - intros c [<-|[<-|[]]]; reflexivity.
    - intros c [<-|[<-|[]]]; cbn; lia.
    - intros _. split; [discriminate|reflexivity].
    - intros c [<-|[<-|[]]]; assumption.
  Qed.
  Lemma x_rep : hrep (K := Zc) xparts xM xA.
  Proof.
    destruct x_tree as (Lr & La & Lb). apply (hrep_node Zc); try reflexivity; try assumption.
    - cbn. unfold block_of. cbn. apply perm_skip. apply perm_swap.
    - intros c [<-|[<-|[<-|[<-|[]]]]]; apply (hrep_leaf Zc); try reflexivity; try assumption;
        try (cbn; unfold wf_mat, wf_lrm; cbn; repeat split; lia); cbn [rt_val xh h_t h_s xa xb c_size c_off ct_info ci_size ci_off];
        intros a b Ha Hb; destruct a as [|[|a]]; try lia; destruct b as [|[|b]]; try lia; reflexivity.
  Qed.
  (** The hypotheses hold, for A A^T added to A (roots above the partition). *)
  Example C25_hyps : exists C', hh_h Zc (fun L => L) (svd_id Zc) xparts 3 TrN TrT 1 xA xA 1 xA = Some C' /\
    hrep (K := Zc) xparts (fun i j => xM i j + 1 * csum (K := Zc) xr (fun x => xM i x * xM j x)) C'.
  Proof.
    apply (C25_product Zc xparts (fun L => L) (svd_id Zc) (recompress_id Zc) (svd_id_exact Zc) 3 TrN TrT 1 xM xM xM xA xA xA);
      try exact x_rep; try reflexivity. cbn. lia.
  Qed.
  (** ... and the low-rank leaf of the result: the entries of A A^T + A on the rows 0, 1 and the column 2. *)
  Example C25_run : option_map (fun C' => match rt_children C' with [_; _; c; _] =>
      match h_data (rt_val c) with DLow L => [lr_entry L 0 0; lr_entry L 1 0] | _ => [] end | _ => [] end)
    (hh_h Zc (fun L => L) (svd_id Zc) xparts 3 TrN TrT 1 xA xA 1 xA) = Some [5 + 68; 10 + 143].
  Proof. vm_compute. reflexivity. Qed.
  Example C24_hyps : exists L, add_lrmat_lrmat Zc (fun L => L) (mkLrm (mkMat (K := Zc) 2 1 [1; 2]) (mkMat (K := Zc) 1 1 [5])) xa xb
      (mkLrm (mkMat (K := Zc) 3 1 [1; 1; 1]) (mkMat (K := Zc) 1 3 [1; 2; 3])) xr xr = Some L /\
    map (fun p => lr_entry L (fst p) (snd p)) [(0, 0); (0, 2); (1, 2); (2, 2)]%nat = [1; 8; 13; 3].
  Proof. eexists. split; [reflexivity|]. vm_compute. reflexivity. Qed.
  Example C54_hyps : exists B, h_scale Zc 3 xA = Some B /\ hrep (K := Zc) xparts (fun i j => 3 * xM i j) B.
  Proof. exact (C54_scale Zc xparts 3 xM xA x_rep). Qed.

  (** ** Outside the hypotheses *)
  (** Blocks that are not nested: nothing is added (an error is logged). *)
  Theorem C24_not_nested_refuted : exists X Xt Xs Y Yt Ys, wf_lrm (K := Zc) X (c_size Xt) (c_size Xs) /\ wf_lrm Y (c_size Yt) (c_size Ys) /\
    (exists i j, (in_iv i (interval Xt) = true /\ in_iv i (interval Yt) = true) /\ (in_iv j (interval Xs) = true /\ in_iv j (interval Ys) = true) /\
       lr_entry X (i - c_off Xt) (j - c_off Xs) = 1) /\
    add_lrmat_lrmat Zc (fun L => L) X Xt Xs Y Yt Ys = Some Y.
  Proof.
    exists (mkLrm (mkMat (K := Zc) 2 1 [1; 1]) (mkMat (K := Zc) 1 3 [1; 1; 1])), xa, xr, (mkLrm (mkMat (K := Zc) 3 1 [1; 1; 1]) (mkMat (K := Zc) 1 1 [1])), xr, xb.
    split; [repeat split|]. split; [repeat split|]. split; [|reflexivity]. exists 0%nat, 2%nat. repeat split.
  Qed.
  (** beta is ignored when C is hierarchical and one of A, B is a leaf. *)
  Definition xL : rtree (hinfo Zc) := xh xr xr (zd 3 3 [1; 0; 0; 0; 1; 0; 0; 0; 1]) [].
  Theorem C25_beta_refuted : exists A MA C' , hrep (K := Zc) xparts MA A /\ hh_h Zc (fun L => L) (svd_id Zc) xparts 3 TrN TrN 1 A xA 2 xA = Some C' /\
    ~ hrep (K := Zc) xparts (fun i j => 2 * xM i j + 1 * csum (K := Zc) xr (fun x => MA i x * xM x j)) C' /\
    hrep (K := Zc) xparts (fun i j => xM i j + 1 * csum (K := Zc) xr (fun x => MA i x * xM x j)) C'.
  Proof.
    exists xL, (fun i j => if (i =? j)%nat then 1 else 0).
    assert (HL : hrep (K := Zc) xparts (fun i j => if (i =? j)%nat then 1 else 0) xL).
    { destruct x_tree as (Lr & _). apply (hrep_leaf Zc); try reflexivity; try assumption.
      - cbn. repeat split.
      - cbn [xL xh rt_val h_t h_s xr c_size c_off ct_info ci_size ci_off]. intros a b Ha Hb. destruct a as [|[|[|a]]]; try lia; destruct b as [|[|[|b]]]; try lia; reflexivity. }
    assert (E : hh_h Zc (fun L => L) (svd_id Zc) xparts 3 TrN TrN 1 xL xA 2 xA = hh_h Zc (fun L => L) (svd_id Zc) xparts 3 TrN TrN 1 xL xA 1 xA) by (vm_compute; reflexivity).
    destruct (C25_product Zc xparts (fun L => L) (svd_id Zc) (recompress_id Zc) (svd_id_exact Zc) 3 TrN TrN 1 (fun i j => if (i =? j)%nat then 1 else 0) xM xM xL xA xA) as (C' & E1 & E2);
      try exact x_rep; try exact HL; try reflexivity; [cbn; lia|].
    exists C'. split; [exact HL|]. split; [rewrite E; exact E1|]. split; [|exact E2].
    intros Q. change (c1 Zc) with 1%Z in E1. vm_compute in E1. injection E1 as <-. apply hrep_node_inv in Q; [|reflexivity]. destruct Q as (_ & _ & Q). cbn [rt_children] in Q.
    specialize (Q _ (or_introl eq_refl)). apply hrep_leaf_inv in Q; [|discriminate]. destruct Q as (_ & _ & Q). specialize (Q 0%nat 0%nat). cbn in Q. lia.
  Qed.
  (** A low-rank leaf of rank 0 in A, a hierarchical C with a dense leaf: gemm is called with a leading dimension 0. *)
  Theorem C25_rank_0_refuted : exists A, (exists L, h_data (rt_val A) = DLow L /\ lrank L = 0%nat /\ wf_lrm L (c_size (h_t (rt_val A))) (c_size (h_s (rt_val A)))) /\
    block_of A = (xr, xr) /\ hh_h Zc (fun L => L) (svd_id Zc) xparts 3 TrN TrN 1 A xA 1 xA = None.
  Proof.
    exists (xh xr xr (zl 3 3 0 [] []) []). split; [eexists; repeat split|]. split; [reflexivity|]. vm_compute. reflexivity.
  Qed.
End Example.
Print Assumptions C24_not_nested_refuted.
Print Assumptions C25_beta_refuted.
Print Assumptions C25_rank_0_refuted.
