(** * Cholesky factorisation of hierarchical matrices: proofs. *)

From Coq Require Import List Arith ZArith Bool Permutation Lia Ring.
From Verif Require Import ClusterModel ClusterSpec IOModel IOSpec BlockModel BlockSpec BlockSym Algebra BlasModel HMatModel HMatSpec HMatBuild HMatTop Field
  DenseModel DenseSpec DenseProofs DenseLU DenseChol DensePos DistModel DistVec ArithModel ArithSpec ArithDense ArithLr ArithTree ArithHier ArithProd ArithDest
  HFactModel HFactSpec HFactSubst HFactSolve HFactHH HFactTri HFactLU HFactRenum.
Import ListNotations.

(** ** Nodes with some of their blocks *)
Section Node.
  Variable F : Fld.
  Notation K := (fk F).
  Notation C := (car K).
  Notation hmat := (rtree (hinfo K)).
  Notation hv := rt_val.
  Variable parts : ctree -> list ctree.
  Notation ct := (cluster_tree parts).
  Variable i : hinfo K.
  Hypothesis Hi : h_t i = h_s i.
  Hypothesis Hct : ct (h_t i).
  Hypothesis Hleaf : is_leaf (h_t i) = false.
  Notation c := (h_t i).
  Variable B : list (ctree * ctree).
  Hypothesis HN : NoDup B.
  Hypothesis HI : incl B (list_prod (ckids c) (ckids c)).

  Definition sblocks (G : ctree -> ctree -> hmat) (H : hmat) : Prop :=
    exists cs, H = RNode i cs /\ map block_of cs = B /\ forall x o j, In x cs -> block_of x = (o, j) -> x = G o j.

  Lemma sblocks_in : forall o j, In (o, j) B -> In o (ckids c) /\ In j (ckids c).
  Proof. intros o j H. apply in_prod_iff. apply HI, H. Qed.
  Lemma sblocks_find : forall G H o j, sblocks G H -> In (o, j) B ->
    exists k, nth_error (rt_children H) k = Some (G o j) /\ block_of (G o j) = (o, j) /\ sub_path K H o j = Some [k] /\ sub K H o j = Some (G o j).
  Proof.
    intros G H o j (cs & -> & HB & HG) Hoj. destruct (sblocks_in o j Hoj) as [Ho Hj].
    assert (Hx : In (o, j) (map block_of cs)) by (rewrite HB; exact Hoj). apply in_map_iff in Hx. destruct Hx as (x & Hb & Hx).
    apply In_nth_error in Hx. destruct Hx as [k Hk].
    assert (E : x = G o j) by (apply HG; [eapply nth_error_In, Hk|exact Hb]). subst x. exists k. cbn [rt_children]. split; [exact Hk|]. split; [exact Hb|].
    apply (sub_found K parts i cs) with (c := G o j); try assumption.
    - rewrite <- Hi. exact Hct.
    - rewrite <- Hi, andb_diag. exact Hleaf.
    - rewrite HB. exact HN.
    - rewrite <- Hi, HB. exact HI.
    - rewrite <- Hi. exact Hj.
  Qed.
  Lemma sblocks_sub : forall G H o j, sblocks G H -> In (o, j) B -> sub K H o j = Some (G o j) /\ block_of (G o j) = (o, j).
  Proof. intros G H o j HG Hoj. destruct (sblocks_find G H o j HG Hoj) as (k & _ & E1 & _ & E2). auto. Qed.
  Lemma sblocks_set : forall G H o j k x', sblocks G H -> In (o, j) B -> nth_error (rt_children H) k = Some (G o j) -> block_of x' = (o, j) ->
    sblocks (gset F G o j x') (RNode i (replace_nth k x' (rt_children H))).
  Proof.
    intros G H o j k x' (cs & -> & HB & HG) Hoj Hk Hb. cbn [rt_children] in *. destruct (sblocks_in o j Hoj) as [Ho Hj].
    assert (Hg : block_of (G o j) = (o, j)).
    { assert (Hx : In (o, j) (map block_of cs)) by (rewrite HB; exact Hoj). apply in_map_iff in Hx. destruct Hx as (x & Hbx & Hx). rewrite <- (HG x o j Hx Hbx). exact Hbx. }
    exists (replace_nth k x' cs). split; [reflexivity|]. split.
    - rewrite (replace_blocks K cs k _ _ Hk); [exact HB|congruence].
    - intros x o' j' Hx Hbx. apply In_nth_error in Hx. destruct Hx as [n Hn].
      assert (Hlen : k < length cs) by (apply nth_error_Some; congruence). rewrite nth_replace in Hn by exact Hlen.
      destruct (Nat.eqb_spec n k) as [En|Nk].
      + injection Hn as <-. rewrite Hb in Hbx. injection Hbx as <- <-. rewrite gset_same. reflexivity.
      + assert (Hbk : In (o', j') B) by (rewrite <- HB, <- Hbx; apply in_map; eapply nth_error_In, Hn).
        destruct (sblocks_in o' j' Hbk) as [B1 B2]. rewrite (gset_other F parts i Hct); try assumption; [apply HG; [eapply nth_error_In, Hn|exact Hbx]|].
        intros E. apply Nk. apply (unique_index K cs n k x (G o j)); try assumption; [rewrite HB; exact HN|congruence].
  Qed.
  Lemma sblocks_on : forall G H o j f x', sblocks G H -> In (o, j) B -> f (G o j) = Some x' -> block_of x' = (o, j) ->
    exists H', on_sub F H o j f = Some H' /\ sblocks (gset F G o j x') H'.
  Proof.
    intros G H o j f x' HG Hoj Hf Hb. destruct (sblocks_find G H o j HG Hoj) as (k & Hk & E1 & E2 & _).
    exists (RNode i (replace_nth k x' (rt_children H))). split; [|apply sblocks_set; assumption].
    destruct HG as (cs & -> & HB & HG). cbn [rt_children] in *.
    unfold on_sub. rewrite E2. cbn [node_at rt_children replace_at rt_val]. rewrite Hk. cbn [node_at]. rewrite Hf. reflexivity.
  Qed.
End Node.

Section Chol.
  Variable F : Fld.
  Notation K := (fk F).
  Notation C := (car K).
  Notation hmat := (rtree (hinfo K)).
  Notation hv := rt_val.
  Notation "0" := (c0 K).
  Notation "1" := (c1 K).
  Notation "x + y" := (cadd K x y) (at level 50, left associativity).
  Notation "x - y" := (csub K x y) (at level 50, left associativity).
  Notation "x * y" := (cmul K x y) (at level 40, left associativity).
  Add Ring Kring_hch : (c_ring K).
  Variable parts : ctree -> list ctree.
  Notation ct := (cluster_tree parts).
  Notation hrep := (hrep parts).
  Notation htri := (htri parts).
  Notation hsym := (hsym parts).

  (** ** Symmetric storage *)
  Lemma hsym_block : forall u M (A : hmat), hsym u M A -> h_s (hv A) = h_t (hv A) /\ ct (h_t (hv A)).
  Proof. intros u M A H. destruct H; cbn [rt_val]; auto. Qed.
  Lemma hsym_hdest : forall u M (A : hmat), hsym u M A -> hdest A.
  Proof.
    intros u M A H. destruct H as [i D H1 H2 H3 H4 H5 H6|i cs H1 H2 H3 H4 H5 H6 H7 H8 H9 H10 H11].
    - apply hdest_leaf. unfold leaf_ok. rewrite H1, <- H2. exact H4.
    - apply hdest_node; try assumption; rewrite <- H2; [rewrite andb_diag; exact H4|exact H6].
  Qed.
  Lemma hsym_ext : forall u (M M' : nat -> nat -> C) (A : hmat), hsym u M A ->
    (forall a b, inc (h_t (hv A)) a -> inc (h_t (hv A)) b -> M a b = M' a b) -> hsym u M' A.
  Proof.
    intros u M M' A H. induction H as [i D H1 H2 H3 H4 H5 H6|i cs H1 H2 H3 H4 H5 H6 H7 H8 H9 IH H10 H11]; intros E; cbn [rt_val] in E.
    - apply hsym_leaf with D; try assumption. intros a b Ha Hb. rewrite H6 by assumption. apply E; unfold inc; lia.
    - assert (Q : forall o a, In o (ckids (h_t i)) -> inc o a -> inc (h_t i) a) by (intros o a Ho Ha; apply (kid_inc parts (h_t i) o); assumption).
      assert (BK : forall c o j, In c cs -> block_of c = (o, j) -> In o (ckids (h_t i)) /\ In j (ckids (h_t i))).
      { intros c o j Hc Hb. apply in_prod_iff. rewrite <- Hb. apply H6. apply in_map, Hc. }
      apply hsym_node; try assumption.
      + intros c k Hc Hb. destruct (BK c k k Hc Hb) as [B1 _]. apply (IH c k Hc Hb). unfold block_of in Hb. injection Hb as Eb _. rewrite Eb. intros a b Ha Hb. apply E; apply (Q k); assumption.
      + intros c o j Hc Hb Hs. destruct (BK c o j Hc Hb) as [B1 B2]. eapply hrep_ext; [exact (H11 c o j Hc Hb Hs)|]. unfold block_of in Hb. injection Hb as E1 E2. rewrite E1, E2.
        intros a b Ha Hb. apply inc_iv in Ha, Hb. apply E; [apply (Q o)|apply (Q j)]; assumption.
  Qed.
  Lemma Forall2_in_r : forall (P : hmat -> hmat -> Prop) l l', Forall2 P l l' -> forall y, In y l' -> exists x, In x l /\ P x y.
  Proof. intros P l l' H. induction H as [|x y l l' H1 H2 IH]; intros z Hz; [destruct Hz|]. destruct Hz as [<-|Hz]; [exists x; split; [left; reflexivity|exact H1]|]. destruct (IH z Hz) as (w & W1 & W2). exists w. split; [right; exact W1|exact W2]. Qed.
  Lemma hsym_upd : forall u (M : nat -> nat -> C) (A : hmat), hsym u M A -> forall g B, hupd g A B -> hsym u (fun a b => g a b (M a b)) B.
  Proof.
    intros u M A H. induction H as [i D H1 H2 H3 H4 H5 H6|i cs H1 H2 H3 H4 H5 H6 H7 H8 H9 IH H10 H11]; intros g B U; inversion U as [x x' S1 S2 S3|x xs xs' S1 S2]; subst.
    - destruct S1 as (E1 & E2 & _ & _ & _ & _ & E3). rewrite H1 in E3. destruct (h_data x') as [|D'|] eqn:ED; try contradiction.
      unfold leaf_ok in S2. rewrite ED in S2. unfold stored in S3. rewrite H1, ED in S3. rewrite <- E1, <- E2, <- H2 in S2. rewrite <- H2 in S3.
      apply hsym_leaf with D'; rewrite <- ?E1; try assumption; try congruence.
      intros a b Ha Hb. rewrite S3 by assumption. rewrite H6 by assumption. reflexivity.
    - congruence.
    - destruct S1 as (_ & _ & _ & _ & _ & _ & E3). rewrite H1 in E3. unfold leaf_ok in S2. destruct (h_data x'); contradiction.
    - pose proof (hupd_blocks K g _ _ S2) as EB. apply hsym_node; rewrite ?EB; try assumption.
      + intros y Hy. destruct (Forall2_in_r _ _ _ S2 y Hy) as (x & Hx & Ux). exact (hupd_hdest K x (H7 x Hx) g y Ux).
      + intros y k Hy Hb. destruct (Forall2_in_r _ _ _ S2 y Hy) as (x & Hx & Ux). apply (IH x k Hx); [rewrite <- (hupd_block K _ _ _ Ux); exact Hb|exact Ux].
      + intros y o j Hy Hb Hs. destruct (Forall2_in_r _ _ _ S2 y Hy) as (x & Hx & Ux). apply (hrep_upd K parts M x); [|exact Ux]. apply (H11 x o j Hx); [rewrite <- (hupd_block K _ _ _ Ux); exact Hb|exact Hs].
  Qed.
  (** Full storage. *)
  Lemma hrep_hsym : forall u M (A : hmat), hrep M A -> h_t (hv A) = h_s (hv A) -> dense_diagonal A -> hsym u M A.
  Proof.
    intros u M A H. induction H as [i H1 H2 H3 H4 H5 H6|i cs H1 H2 H3 H4 H5 H6 H7 H8 IH]; intros Es HD; cbn [rt_val] in *.
    - inversion HD as [x D Q1 Q2|x xs Q1 Q2]; subst; unfold leaf_ok in H5; unfold stored in H6; rewrite Q1 in *; [|contradiction].
      rewrite <- Es in *. apply hsym_leaf with D; assumption.
    - inversion HD as [x D Q1 Q2|x xs Q1 Q2]; subst; [congruence|]. rewrite <- Es in *. rewrite andb_diag in H6.
      assert (ND : NoDup (map block_of cs)) by (eapply Permutation_NoDup; [apply Permutation_sym, H7|]; apply prod_nodup with parts; assumption).
      assert (AL : forall o j, In o (ckids (h_t i)) -> In j (ckids (h_t i)) -> In (o, j) (map block_of cs)) by (intros o j Ho Hj; eapply Permutation_in; [apply Permutation_sym, H7|]; apply in_prod; assumption).
      apply hsym_node; try assumption; auto.
      + intros p Hp. eapply Permutation_in; eassumption.
      + intros c Hc. apply (hrep_hdest K parts M), H8, Hc.
      + intros c k Hc Hb. apply (IH c Hc); [unfold block_of in Hb; congruence|apply (Q2 c k Hc Hb)].
  Qed.

  (** Solutions with any triangular matrix exist. *)
  Lemma htri_surj_op : forall u d t (T : nat -> nat -> C) (A : hmat), htri u d T A -> forall r : nat -> C,
    exists y, forall a, inc (h_t (hv A)) a -> csum (h_t (hv A)) (fun x => op_fun t T a x * y x) = r a.
  Proof.
    intros u d t T A H r. destruct (htri_block F parts u d T A H) as [_ Hc]. pose proof (ct_size parts _ Hc) as Hs.
    destruct (row_solve_ok F parts (cheight (h_t (hv A))) u t d T A H (Nat.le_refl _) 1 (of_fun K 1%nat (c_size (h_t (hv A))) (fun _ j => r (c_off (h_t (hv A)) + j)%nat)) 1%nat (Nat.le_refl _))
      as (X & _ & _ & E); [apply of_fun_wf|].
    exists (fun x => me X 0%nat (x - c_off (h_t (hv A)))%nat). intros a Ha. rewrite E by (try exact Ha; lia). unfold inc in Ha. rewrite of_fun_me by lia.
    replace (c_off (h_t (hv A)) + (a - c_off (h_t (hv A))))%nat with a by lia. ring.
  Qed.

  Variable recompress : lrm K -> lrm K.
  Variable svd_factors : mat K -> lrm K.
  Hypothesis HR : exact_recompression recompress.
  Hypothesis HSv : exact_svd svd_factors.
  Variables (ppos : C -> bool) (psqrt : C -> C).
  Hypothesis HS : sqrt_rule ppos psqrt.
  Variable star : trans.
  Hypothesis Hstar : star = TrC \/ (star = TrT /\ forall x, cconj K x = x).

  Lemma op_star : forall (f : nat -> nat -> C) a b, op_fun star f a b = cconj K (f b a).
  Proof. intros f a b. destruct Hstar as [->|[-> E]]; cbn [op_fun]; [reflexivity|symmetry; apply E]. Qed.

  (** The factor as it is stored: L, or U = L^H. *)
  Definition lform (u : uplo) (T : nat -> nat -> C) (a b : nat) : C := if is_L u then T a b else cconj K (T b a).
  Definition key (u : uplo) (o k : ctree) : ctree * ctree := if is_L u then (o, k) else (k, o).

  (** The solve with the block under (or beside) the pivot. *)
  Lemma off_ok : forall f u M T1 (P X : hmat) k o, u <> UpN -> htri u DgN (lform u T1) P -> block_of P = (k, k) -> hrep M X -> block_of X = key u o k ->
    above o = above k -> (2 * cheight k + cheight o <= f)%nat -> (forall a b, inc o a -> inc k b -> M a b = cconj K (M b a)) ->
    exists X' T, (if is_L u then hh_solve F recompress svd_factors parts f SdR u star DgN 1 P X else hh_solve F recompress svd_factors parts f SdL u star DgN 1 P X) = Some X' /\
      hrep (lform u T) X' /\ block_of X' = key u o k /\ forall a b, inc o a -> inc k b -> M a b = csum k (fun x => T a x * cconj K (T1 b x)).
  Proof.
    intros f u M T1 P X k o Hu HP BP HX BX Ha Hf HH. assert (Tk : h_t (hv P) = k) by (unfold block_of in BP; congruence).
    unfold key in *. destruct (is_L u) eqn:EL.
    - destruct (hh_solve_ok F parts recompress svd_factors HR HSv f SdR u star DgN (lform u T1) P M X 1 HP HX) as (X' & V & F1 & F2 & F3 & F4).
      { unfold tri_of, block_of in *. congruence. }
      { unfold oth_of, block_of in *. injection BX as B1 B2. rewrite B1, Tk. exact Ha. }
      { unfold oth_of, block_of in *. injection BX as B1 B2. rewrite B1, Tk. exact Hf. }
      exists X', V. split; [exact F1|]. split; [|split; [congruence|]].
      + eapply hrep_ext; [exact F2|]. intros. unfold lform. rewrite EL. reflexivity.
      + rewrite Tk in F4. unfold oth_of in F4. replace (h_t (hv X)) with o in F4 by (unfold block_of in BX; congruence). cbn [solves] in F4.
        intros a b Hoa Hkb. transitivity (1 * M a b); [ring|]. rewrite <- (F4 a b Hoa Hkb). apply (csum_inc F). intros x Hx. rewrite op_star. unfold lform. rewrite EL. reflexivity.
    - destruct (hh_solve_ok F parts recompress svd_factors HR HSv f SdL u star DgN (lform u T1) P M X 1 HP HX) as (X' & V & F1 & F2 & F3 & F4).
      { unfold tri_of, block_of in *. congruence. }
      { unfold oth_of, block_of in *. injection BX as B1 B2. rewrite B2, Tk. exact Ha. }
      { unfold oth_of, block_of in *. injection BX as B1 B2. rewrite B2, Tk. exact Hf. }
      exists X', (fun a b => cconj K (V b a)). split; [exact F1|]. split; [|split; [congruence|]].
      + eapply hrep_ext; [exact F2|]. intros. unfold lform. rewrite EL, cconj_invol. reflexivity.
      + rewrite Tk in F4. unfold oth_of in F4. replace (h_s (hv X)) with o in F4 by (unfold block_of in BX; congruence). cbn [solves] in F4.
        intros a b Hoa Hkb. rewrite HH by assumption. transitivity (cconj K (1 * M b a)); [f_equal; ring|]. rewrite <- (F4 b a Hkb Hoa). unfold csum. rewrite conj_sum. apply sum_ext. intros x Hx.
        rewrite op_star. unfold lform. rewrite EL, cconj_mul, !cconj_invol. ring.
  Qed.

  (** The update of the diagonal block. *)
  Lemma upd_ok : forall f u T (X H : hmat) k o, u <> UpN -> hrep (lform u T) X -> block_of X = key u o k -> above o = above k -> (cheight k + cheight o <= f)%nat -> (height K X < f)%nat ->
    hdest H -> block_of H = (o, o) ->
    exists H', (if is_L u then hh_h K recompress svd_factors parts f TrN star (copp K 1) X X 1 H else hh_h K recompress svd_factors parts f star TrN (copp K 1) X X 1 H) = Some H' /\
      hupd (fun a b v => v - csum k (fun x => T a x * cconj K (T b x))) H H'.
  Proof.
    intros f u T X H k o Hu HX BX Ha Hf Hh HD BH. unfold key in BX.
    assert (SN : is_N star = false) by (destruct Hstar as [->|[-> _]]; reflexivity).
    destruct (is_L u) eqn:EL; unfold block_of in BX; injection BX as B1 B2.
    - destruct (hh_h_ok K parts recompress HR svd_factors HSv f TrN star (copp K 1) (lform u T) (lform u T) X X H) as (H' & F1 & F2); try assumption;
        unfold mid_of, out_of; rewrite ?SN; cbn [is_N]; rewrite ?B1, ?B2; try assumption; try reflexivity.
      exists H'. split; [exact F1|]. eapply hupd_ext; [|exact F2]. intros a b v. cbv beta. unfold mid_of. cbn [is_N]. rewrite B2.
      rewrite (csum_inc F k (fun x => op_fun TrN (lform u T) a x * op_fun star (lform u T) x b) (fun x => T a x * cconj K (T b x))); [ring|].
      intros x _. rewrite op_star. cbn [op_fun]. unfold lform. rewrite EL. reflexivity.
    - destruct (hh_h_ok K parts recompress HR svd_factors HSv f star TrN (copp K 1) (lform u T) (lform u T) X X H) as (H' & F1 & F2); try assumption;
        unfold mid_of, out_of; rewrite ?SN; cbn [is_N]; rewrite ?B1, ?B2; try assumption; try reflexivity.
      exists H'. split; [exact F1|]. eapply hupd_ext; [|exact F2]. intros a b v. cbv beta. unfold mid_of. rewrite SN. rewrite B1.
      rewrite (csum_inc F k (fun x => op_fun star (lform u T) a x * op_fun TrN (lform u T) x b) (fun x => T a x * cconj K (T b x))); [ring|].
      intros x _. rewrite op_star. cbn [op_fun]. unfold lform. rewrite EL, cconj_invol. reflexivity.
  Qed.

  Notation chol := (cholesky F recompress svd_factors parts ppos psqrt star).
  (** One turn of the loop on the clusters. *)
  Definition chol_step (f : nat) (u : uplo) (cl : list ctree) (k : ctree) (H : hmat) : option (hmat * bool) :=
    do p <- sub_path K H k k;
    do P <- node_at p H;
    match chol f u P with
    | None => None
    | Some (P', ok) =>
        do H1 <- replace_at p P' H;
        do H2 <- fold_o (fun o H =>
          if c_off k <? c_off o then
            do P <- sub K H k k;
            if is_L u then on_sub F H o k (hh_solve F recompress svd_factors parts f SdR u star DgN 1 P)
            else on_sub F H k o (hh_solve F recompress svd_factors parts f SdL u star DgN 1 P)
          else Some H) cl H1;
        do H3 <- fold_o (fun oi H =>
          if (c_off k <? c_off (fst oi)) && (c_off k <? c_off (snd oi)) &&
             (if is_L u then c_off (snd oi) <=? c_off (fst oi) else c_off (fst oi) <=? c_off (snd oi)) then
            if is_L u then
              do L <- sub K H (fst oi) k;
              on_sub F H (fst oi) (snd oi) (hh_h K recompress svd_factors parts f TrN star (copp K 1) L L 1)
            else
              do U <- sub K H k (snd oi);
              on_sub F H (fst oi) (snd oi) (hh_h K recompress svd_factors parts f star TrN (copp K 1) U U 1)
          else Some H) (pairs_of cl cl) H2;
        Some (H3, ok)
    end.

  Section Kids.
    Variable i : hinfo K.
    Hypothesis Hi : h_t i = h_s i.
    Hypothesis Hct : ct (h_t i).
    Hypothesis Hleaf : is_leaf (h_t i) = false.
    Notation c := (h_t i).
    Variable B : list (ctree * ctree).
    Hypothesis HN : NoDup B.
    Hypothesis HI : incl B (list_prod (ckids c) (ckids c)).
    Variables (f : nat) (u : uplo).
    Hypothesis Hu : u <> UpN.

    (** No cluster after k: only the pivot changes. *)
    Lemma last_step : forall G H k P' ok cl, sblocks F i B G H -> In (k, k) B -> chol f u (G k k) = Some (P', ok) -> block_of P' = (k, k) ->
      (forall o, In o cl -> (c_off o <= c_off k)%nat) ->
      exists H', chol_step f u cl k H = Some (H', ok) /\ sblocks F i B (gset F G k k P') H'.
    Proof.
      intros G H k P' ok cl HG Hk E BP Ho. destruct (sblocks_find F parts i Hi Hct Hleaf B HN HI G H k k HG Hk) as (n & Hn & E1 & E2 & _).
      exists (RNode i (replace_nth n P' (rt_children H))). split; [|apply (sblocks_set F parts i Hct B HN HI); assumption].
      unfold chol_step. rewrite E2. destruct HG as (cs & -> & HB & HG). cbn [node_at rt_children replace_at rt_val] in *. rewrite Hn, E. cbn [replace_at rt_children rt_val]. rewrite ?Hn.
      assert (F1 : forall l H0, incl l cl -> fold_o (fun o H => if c_off k <? c_off o then
            do P <- sub K H k k;
            if is_L u then on_sub F H o k (hh_solve F recompress svd_factors parts f SdR u star DgN 1 P)
            else on_sub F H k o (hh_solve F recompress svd_factors parts f SdL u star DgN 1 P)
          else Some H) l H0 = Some H0).
      { induction l as [|o l IH]; intros H0 Hl; [reflexivity|]. cbn [fold_o]. specialize (Ho o (Hl o (or_introl eq_refl))). replace (c_off k <? c_off o)%nat with false by (symmetry; apply Nat.ltb_ge; exact Ho).
        apply IH. intros x Hx. apply Hl. right. exact Hx. }
      rewrite F1 by (intros x Hx; exact Hx). rewrite pairs_prod.
      match goal with |- match ?X with _ => _ end = _ => assert (F2 : X = Some (RNode i (replace_nth n P' cs))) end.
      { assert (Q : forall l H0, incl l (list_prod cl cl) -> fold_o (fun oi H =>
          if (c_off k <? c_off (fst oi)) && (c_off k <? c_off (snd oi)) &&
             (if is_L u then c_off (snd oi) <=? c_off (fst oi) else c_off (fst oi) <=? c_off (snd oi)) then
            if is_L u then
              do L <- sub K H (fst oi) k;
              on_sub F H (fst oi) (snd oi) (hh_h K recompress svd_factors parts f TrN star (copp K 1) L L 1)
            else
              do U <- sub K H k (snd oi);
              on_sub F H (fst oi) (snd oi) (hh_h K recompress svd_factors parts f star TrN (copp K 1) U U 1)
          else Some H) l H0 = Some H0).
        { induction l as [|[o j] l IH]; intros H0 Hl; [reflexivity|]. cbn [fold_o fst snd]. assert (Q : In (o, j) (list_prod cl cl)) by (apply Hl; left; reflexivity).
          apply in_prod_iff in Q. destruct Q as [Q _]. specialize (Ho o Q). replace (c_off k <? c_off o)%nat with false by (symmetry; apply Nat.ltb_ge; exact Ho). cbn [andb].
          apply IH. intros x Hx. apply Hl. right. exact Hx. }
        apply Q. intros x Hx. exact Hx. }
      rewrite F2. reflexivity.
    Qed.

    Lemma key_eq : forall o k, key u o k = if is_L u then (o, k) else (k, o).
    Proof. reflexivity. Qed.

    (** The first of two clusters. *)
    Lemma first_step : forall G H k o P' ok T1 M, sblocks F i B G H -> In (k, k) B -> In (o, o) B -> In (key u o k) B -> (c_off k < c_off o)%nat ->
      chol f u (G k k) = Some (P', ok) -> block_of P' = (k, k) -> htri u DgN (lform u T1) P' ->
      hrep M (if is_L u then G o k else G k o) -> hdest (G o o) -> (3 * cheight c <= S f)%nat ->
      (forall a b, inc o a -> inc k b -> M a b = cconj K (M b a)) ->
      exists H' X S' T, chol_step f u [k; o] k H = Some (H', ok) /\
        sblocks F i B (gset F (gset F (gset F G k k P') (fst (key u o k)) (snd (key u o k)) X) o o S') H' /\
        hrep (lform u T) X /\ block_of X = key u o k /\ block_of S' = (o, o) /\
        (forall a b, inc o a -> inc k b -> M a b = csum k (fun x => T a x * cconj K (T1 b x))) /\
        hupd (fun a b v => v - csum k (fun x => T a x * cconj K (T b x))) (G o o) S'.
    Proof.
      intros G H k o P' ok T1 M HG Hk Ho Hok Lk E BP HT HX HD Hf HH.
      destruct (sblocks_find F parts i Hi Hct Hleaf B HN HI G H k k HG Hk) as (n & Hn & E1 & E2 & _).
      destruct (sblocks_sub F parts i Hi Hct Hleaf B HN HI G H o o HG Ho) as [_ BO].
      destruct (sblocks_in F i B HI k k Hk) as [Kk _]. destruct (sblocks_in F i B HI o o Ho) as [Ko _].
      assert (Nko : o <> k) by (intros ->; lia). assert (Nko' : k <> o) by congruence.
      pose proof (sblocks_set F parts i Hct B HN HI G H k k n P' HG Hk Hn BP) as HG1. set (H1 := RNode i (replace_nth n P' (rt_children H))) in *.
      set (G1 := gset F G k k P') in *.
      pose proof (cheight_kid c k Hleaf Kk) as Ck. pose proof (cheight_kid c o Hleaf Ko) as Co.
      assert (Ab : above o = above k) by (rewrite (above_kid parts c o Hct Ko), (above_kid parts c k Hct Kk); reflexivity).
      destruct (sblocks_sub F parts i Hi Hct Hleaf B HN HI G1 H1 k k HG1 Hk) as [S1 _]. assert (G1k : G1 k k = P') by apply gset_same. rewrite G1k in S1.
      set (X0 := if is_L u then G o k else G k o) in *.
      assert (BX0 : block_of X0 = key u o k).
      { unfold key in Hok. unfold X0, key. destruct (is_L u); apply (sblocks_sub F parts i Hi Hct Hleaf B HN HI G H _ _ HG Hok). }
      destruct (off_ok f u M T1 P' X0 k o Hu HT BP HX BX0 Ab ltac:(lia) HH) as (X & T & EX & RX & BX & VX).
      assert (G1x : G1 (fst (key u o k)) (snd (key u o k)) = X0).
      { unfold key, X0, G1. destruct (is_L u); cbn [fst snd]; apply (gset_other F parts i Hct); try assumption; congruence. }
      destruct (sblocks_on F parts i Hi Hct Hleaf B HN HI G1 H1 (fst (key u o k)) (snd (key u o k))
        (if is_L u then hh_solve F recompress svd_factors parts f SdR u star DgN 1 P' else hh_solve F recompress svd_factors parts f SdL u star DgN 1 P') X HG1) as (H2 & EH2 & HG2).
      { destruct (key u o k); exact Hok. }
      { rewrite G1x. destruct (is_L u); exact EX. }
      { destruct (key u o k); exact BX. }
      set (G2 := gset F G1 (fst (key u o k)) (snd (key u o k)) X) in *.
      assert (G2o : G2 o o = G o o).
      { unfold G2, G1. rewrite !(gset_other F parts i Hct); try assumption; try congruence; unfold key; destruct (is_L u); cbn [fst snd]; try assumption; congruence. }
      assert (G2x : G2 (fst (key u o k)) (snd (key u o k)) = X) by apply gset_same.
      destruct (upd_ok f u T X (G o o) k o Hu RX BX Ab) as (S' & ES & US); try assumption; try lia.
      { pose proof (hrep_height F parts (lform u T) X RX) as Q. unfold key in BX. pose proof (cheight_pos k). destruct (is_L u); unfold block_of in BX; injection BX as Q1 Q2; rewrite Q1, Q2 in Q; lia. }
      destruct (sblocks_on F parts i Hi Hct Hleaf B HN HI G2 H2 o o
        (if is_L u then hh_h K recompress svd_factors parts f TrN star (copp K 1) X X 1 else hh_h K recompress svd_factors parts f star TrN (copp K 1) X X 1) S' HG2 Ho) as (H3 & EH3 & HG3).
      { rewrite G2o. destruct (is_L u); exact ES. }
      { rewrite (hupd_block K _ _ _ US). exact BO. }
      exists H3, X, S', T. split; [|split; [exact HG3|split; [exact RX|split; [exact BX|split; [rewrite (hupd_block K _ _ _ US); exact BO|split; [exact VX|exact US]]]]]].
      assert (SX : sub K H2 (fst (key u o k)) (snd (key u o k)) = Some X).
      { destruct (sblocks_sub F parts i Hi Hct Hleaf B HN HI G2 H2 (fst (key u o k)) (snd (key u o k)) HG2) as [Q _]; [destruct (key u o k); exact Hok|]. rewrite Q, G2x. reflexivity. }
      unfold chol_step. rewrite E2.
      assert (NA : node_at [n] H = Some (G k k)).
      { destruct H as [i0 cs]. cbn [node_at rt_children] in *. rewrite Hn. reflexivity. }
      rewrite NA, E.
      assert (RA : replace_at [n] P' H = Some H1).
      { destruct HG as (cs & -> & _). unfold H1. cbn [replace_at rt_children rt_val] in *. rewrite Hn. reflexivity. }
      rewrite RA. cbn [fold_o]. rewrite Nat.ltb_irrefl. replace (c_off k <? c_off o)%nat with true by (symmetry; apply Nat.ltb_lt; exact Lk). rewrite S1.
      unfold pairs_of. cbn [flat_map map app fold_o fst snd]. rewrite Nat.ltb_irrefl. replace (c_off k <? c_off o)%nat with true by (symmetry; apply Nat.ltb_lt; exact Lk). rewrite !Nat.leb_refl.
      unfold key in EH2, SX. destruct (is_L u); cbn [fst snd andb] in *; rewrite EH2; cbn [andb]; rewrite SX; rewrite EH3; reflexivity.
    Qed.
  End Kids.

  Lemma block_herm : forall c (M : nat -> nat -> C), hermitian (F:=F) (c_size c) (block c M) -> forall a b, inc c a -> inc c b -> M a b = cconj K (M b a).
  Proof.
    intros c M H a b Ha Hb. unfold inc in *. specialize (H (a - c_off c)%nat (b - c_off c)%nat ltac:(lia) ltac:(lia)). unfold block in H.
    replace (c_off c + (a - c_off c))%nat with a in H by lia. replace (c_off c + (b - c_off c))%nat with b in H by lia. exact H.
  Qed.
  Lemma lform_ext : forall u (T T' : nat -> nat -> C) (P : nat -> nat -> Prop), (forall a b, P a b -> T a b = T' a b) -> forall a b, (if is_L u then P a b else P b a) -> lform u T a b = lform u T' a b.
  Proof. intros u T T' P H a b Q. unfold lform. destruct (is_L u); [apply H, Q|]. f_equal. apply H, Q. Qed.

  Theorem cholesky_h_ok : forall fuel u M (A : hmat), u <> UpN -> hsym u M A -> two_way (h_t (hv A)) ->
    hermitian (F:=F) (c_size (h_t (hv A))) (block (h_t (hv A)) M) -> posdef ppos (c_size (h_t (hv A))) (block (h_t (hv A)) M) -> (3 * cheight (h_t (hv A)) <= fuel)%nat ->
    exists A' T, chol fuel u A = Some (A', true) /\ (block_of A' = block_of A /\ h_sym (hv A') = h_sym (hv A) /\ h_uplo (hv A') = h_uplo (hv A)) /\ htri u DgN (lform u T) A' /\
      forall a b, inc (h_t (hv A)) a -> inc (h_t (hv A)) b -> M a b = csum (h_t (hv A)) (fun x => T a x * cconj K (T b x)).
  Proof.
    induction fuel as [|f IH]; intros u M A Hu HM HW HH HP Hf; [pose proof (cheight_pos (h_t (hv A))); lia|].
    destruct HM as [i D H1 H2 H3 H4 H5 H6|i cs H1 H2 H3 H4 H5 H6 H7 H8 H9 H10 H11]; cbn [rt_val] in *.
    - (* a dense leaf *)
      pose proof (ct_size parts _ H3) as Hsz. set (c := h_t i) in *. cbn [cholesky rt_val]. rewrite H1.
      assert (HH' : hermitian (c_size c) (me D)) by (intros a b Ha Hb; rewrite !H6 by assumption; apply HH; assumption).
      assert (HP' : posdef ppos (c_size c) (me D)) by (apply (posdef_ext F ppos (c_size c) (block c M)); [intros a b Ha Hb; symmetry; apply H6; assumption|exact HP]).
      destruct (cholesky_posdef F ppos psqrt HS u (c_size c) D Hu Hsz H4 HH' HP') as [E EB]. rewrite EB.
      destruct (cholesky_ok F ppos psqrt HS u (c_size c) D E Hu H4 HH' EB) as (W & Wp & WD & WV).
      set (T := fun a b => if is_L u then triangle UpL DgN E (a - c_off c)%nat (b - c_off c)%nat else cconj K (triangle UpU DgN E (b - c_off c)%nat (a - c_off c)%nat)).
      exists (with_hdata K (RNode i []) (DDense E)), T. split; [reflexivity|]. split; [split; [|split]; reflexivity|]. unfold with_hdata. cbn [rt_val rt_children]. split.
      + apply htri_leaf with E; cbn [set_data h_data h_t h_s]; try assumption; try reflexivity; auto.
        * left. congruence.
        * intros a b Ha Hb. fold c. unfold lform, T, factor. rewrite Wp, H5. cbn [target_row]. replace (if is_L u then a else a) with a by (destruct (is_L u); reflexivity).
          replace (c_off c + a - c_off c)%nat with a by lia. replace (c_off c + b - c_off c)%nat with b by lia. destruct u; [congruence| |]; cbn [is_L]; [reflexivity|]. apply cconj_invol.
      + intros a b Ha Hb. unfold inc in Ha, Hb. fold c in Ha, Hb |- *. replace a with (c_off c + (a - c_off c))%nat at 1 by lia. replace b with (c_off c + (b - c_off c))%nat at 1 by lia.
        rewrite <- H6 by lia. rewrite WV by lia. rewrite csum_local. unfold T. destruct u; [congruence| |]; cbn [is_L]; apply sum_ext; intros x Hx; replace (c_off c + x - c_off c)%nat with x by lia;
          [reflexivity|rewrite cconj_invol; reflexivity].
    - (* hierarchical *)
      cbn [cholesky rt_val]. rewrite H1.
      assert (EK : kids parts (above (h_t i) || above (h_s i)) (h_t i) = ckids (h_t i)) by (apply kids_eq; [exact H3|]; rewrite <- H2, orb_diag; reflexivity).
      rewrite EK. change (fold_b _ (ckids (h_t i)) (RNode i cs)) with (fold_b (chol_step f u (ckids (h_t i))) (ckids (h_t i)) (RNode i cs)).
      set (B := map block_of cs) in *. set (A := RNode i cs) in *.
      set (G := fun o j => match sub K A o j with Some x => x | None => A end).
      assert (BK : forall o j, In (o, j) B -> In o (ckids (h_t i)) /\ In j (ckids (h_t i))) by (intros o j Q; apply in_prod_iff, H6, Q).
      assert (HG : sblocks F i B G A).
      { exists cs. split; [reflexivity|]. split; [reflexivity|]. intros x o j Hx Hb. assert (Q : In (o, j) B) by (rewrite <- Hb; apply in_map, Hx). destruct (BK o j Q) as [Ho Hj].
        apply In_nth_error in Hx. destruct Hx as [n Hn]. unfold G, A.
        destruct (sub_found K parts i cs) with (o := o) (j := j) (k := n) (c := x) as [_ ->]; try assumption; try (rewrite <- H2; assumption); try reflexivity.
        rewrite <- H2, andb_diag. exact H4. }
      assert (Gin : forall o j, In (o, j) B -> In (G o j) cs /\ block_of (G o j) = (o, j)).
      { intros o j Q. destruct (sblocks_find F parts i H2 H3 H4 B H5 H6 G A o j HG Q) as (n & Q1 & Q2 & _). split; [eapply nth_error_In, Q1|exact Q2]. }
      (* the children *)
      assert (KW : forall k, In k (ckids (h_t i)) -> two_way k) .
      { intros k Hk. destruct HW as [ci xs W1 W2]. unfold ckids in Hk. cbn [ct_children] in Hk. destruct xs; [destruct Hk as [<-|[]]; constructor; [exact W1|exact W2]|apply W2, Hk]. }
      assert (CH : exists k, ckids (h_t i) = [k] \/ exists o, ckids (h_t i) = [k; o]).
      { destruct HW as [ci xs W1 W2]. destruct xs as [|k [|o [|x xs]]]; cbn [length] in W1.
        - unfold is_leaf in H4. cbn [ct_children] in H4. discriminate.
        - exists k. left. reflexivity.
        - exists k. right. exists o. reflexivity.
        - lia. }
      destruct CH as (k & [CH|(o & CH)]).
      + (* one child *)
        assert (Kk : In k (ckids (h_t i))) by (rewrite CH; left; reflexivity). pose proof (cheight_kid (h_t i) k H4 Kk) as Ck.
        pose proof (ckids_tiles parts (h_t i) H3) as TL. rewrite CH in TL. unfold interval in TL. cbn [map tiles] in TL.
        assert (Ek : c_off k = c_off (h_t i) /\ c_size k = c_size (h_t i)).
        { unfold c_off, c_size in *. lia. }
        destruct Ek as [Ek1 Ek2]. destruct (Gin k k (H8 k Kk)) as [Gk Bk]. assert (Tk : h_t (hv (G k k)) = k) by (unfold block_of in Bk; congruence).
        assert (EB : block k M = block (h_t i) M) by (unfold block; rewrite Ek1; reflexivity).
        destruct (IH u M (G k k) Hu (H9 _ k Gk Bk)) as (P' & T & E1 & [E2 _] & E3 & E4); rewrite ?Tk, ?Ek2, ?EB; try assumption; [apply KW, Kk|lia|].
        destruct (last_step i H2 H3 H4 B H5 H6 f u G A k P' true (ckids (h_t i)) HG (H8 k Kk) E1) as (H' & F1 & F2); [congruence|rewrite CH; intros x [<-|[]]; lia|].
        exists H', T. split; [|split; [|split]].
        * rewrite CH in F1 |- *. cbn [fold_b]. rewrite F1. reflexivity.
        * destruct F2 as (cs' & -> & _). split; [|split]; reflexivity.
        * destruct F2 as (cs' & -> & EB' & EG). assert (XX : forall x o j, In x cs' -> block_of x = (o, j) -> (o, j) = (k, k) /\ x = P').
          { intros x o j Hx Hb. assert (Q : In (o, j) B) by (rewrite <- EB', <- Hb; apply in_map, Hx). destruct (BK o j Q) as [Q1 Q2]. rewrite CH in Q1, Q2. destruct Q1 as [<-|[]]. destruct Q2 as [<-|[]]. split; [reflexivity|].
            rewrite (EG x k k Hx Hb). apply gset_same. }
          apply htri_node; rewrite ?EB'; try assumption.
          -- intros x k' Hx Hb. destruct (XX x k' k' Hx Hb) as [_ ->]. exact E3.
          -- intros x o j Hx Hb Hs. destruct (XX x o j Hx Hb) as [Q _]. injection Q as -> ->. exfalso. unfold strictly in Hs. destruct u; lia.
          -- intros o j a b Ho Hj Hs. rewrite CH in Ho, Hj. destruct Ho as [<-|[]]. destruct Hj as [<-|[]]. exfalso. unfold strictly in Hs. destruct u; lia.
        * rewrite Tk in E4. intros a b Ha Hb. unfold csum in *. rewrite <- Ek1, <- Ek2. apply E4; unfold inc in *; lia.
      + (* two children *)
        assert (Kk : In k (ckids (h_t i))) by (rewrite CH; left; reflexivity). assert (Ko : In o (ckids (h_t i))) by (rewrite CH; right; left; reflexivity).
        pose proof (cheight_kid (h_t i) k H4 Kk) as Ck. pose proof (cheight_kid (h_t i) o H4 Ko) as Co.
        pose proof (ct_size parts k (ckids_ct parts _ k H3 Kk)) as Sk. pose proof (ct_size parts o (ckids_ct parts _ o H3 Ko)) as So.
        pose proof (ckids_tiles parts (h_t i) H3) as TL. rewrite CH in TL. unfold interval in TL. cbn [map tiles] in TL.
        assert (Ek : c_off k = c_off (h_t i) /\ c_off o = (c_off k + c_size k)%nat /\ c_size (h_t i) = (c_size k + c_size o)%nat).
        { unfold c_off, c_size in *. lia. }
        destruct Ek as (Ek1 & Ek2 & Ek3). set (c := h_t i) in *.
        assert (Inc1 : forall a, inc k a -> inc c a) by (intros a Q; unfold inc in *; lia). assert (Inc2 : forall a, inc o a -> inc c a) by (intros a Q; unfold inc in *; lia).
        assert (IncE : forall a, inc c a -> inc k a \/ inc o a) by (intros a Q; unfold inc in *; lia). assert (IncN : forall a, inc k a -> ~ inc o a) by (intros a Q; unfold inc in *; lia).
        pose proof (block_herm c M HH) as HM'.
        destruct (Gin k k (H8 k Kk)) as [Gk Bk]. assert (Tk : h_t (hv (G k k)) = k) by (unfold block_of in Bk; congruence).
        destruct (Gin o o (H8 o Ko)) as [Go Bo]. assert (To : h_t (hv (G o o)) = o) by (unfold block_of in Bo; congruence).
        assert (StO : match u with UpU => strictly u k o | _ => strictly u o k end) by (unfold strictly; destruct u; lia).
        assert (KB : In (key u o k) B) by (unfold key; destruct u; [congruence| |]; cbn [is_L]; apply H10; assumption).
        destruct (IH u M (G k k) Hu (H9 _ k Gk Bk)) as (P' & T1 & E1 & [E2 _] & E3 & E4); rewrite ?Tk.
        { apply KW, Kk. }
        { intros a b Ha Hb. unfold block. rewrite Ek1. apply HH; lia. }
        { apply (posdef_ext F ppos (c_size k) (block c M)); [intros; unfold block; rewrite Ek1; reflexivity|]. apply (posdef_lead F ppos (c_size k) (c_size o)). rewrite <- Ek3. exact HP. }
        { lia. }
        rewrite Tk in E4.
        destruct (first_step i H2 H3 H4 B H5 H6 f u Hu G A k o P' true T1 M HG (H8 k Kk) (H8 o Ko) KB) as (A1 & X & S' & T21 & F1 & F2 & F3 & F4 & F5 & F6 & F7); try assumption; try lia.
        { congruence. }
        { destruct u; [congruence| |]; cbn [is_L key] in *; [destruct (Gin o k KB) as [Q1 Q2]; apply (H11 _ o k Q1 Q2 StO)|destruct (Gin k o KB) as [Q1 Q2]; apply (H11 _ k o Q1 Q2 StO)]. }
        { apply H7, Go. }
        { intros a b Ha Hb. apply HM'; auto. }
        set (G3 := gset F (gset F (gset F G k k P') (fst (key u o k)) (snd (key u o k)) X) o o S') in *.
        set (M' := fun a b => M a b - csum k (fun x => T21 a x * cconj K (T21 b x))).
        assert (HS' : hsym u M' S') by (exact (hsym_upd u M (G o o) (H9 _ o Go Bo) _ _ F7)).
        assert (TS : h_t (hv S') = o) by (unfold block_of in F5; congruence).
        (* the Schur complement *)
        set (T0 := fun a s => if inc_dec k a then T1 a s else T21 a s).
        assert (T0k : forall a s, inc k a -> T0 a s = T1 a s) by (intros a s Q; unfold T0; destruct (inc_dec k a); [reflexivity|contradiction]).
        assert (T0o : forall a s, inc o a -> T0 a s = T21 a s) by (intros a s Q; unfold T0; destruct (inc_dec k a) as [Q'|]; [exfalso; exact (IncN a Q' Q)|reflexivity]).
        assert (VM : forall a b, inc c a -> inc c b -> M a b = (if inc_dec k a then 0 else if inc_dec k b then 0 else M' a b) + csum k (fun s => T0 a s * cconj K (T0 b s))).
        { intros a b Ha Hb. destruct (inc_dec k a) as [Qa|Qa].
          - destruct (IncE b Hb) as [Qb|Qb].
            + rewrite (E4 a b Qa Qb). rewrite (csum_inc F k (fun s => T0 a s * cconj K (T0 b s)) (fun x => T1 a x * cconj K (T1 b x))) by (intros x _; rewrite !T0k by assumption; reflexivity). ring.
            + rewrite HM' by assumption. rewrite (F6 b a Qb Qa).
              transitivity (csum k (fun s => T0 a s * cconj K (T0 b s))); [|ring]. unfold csum. rewrite conj_sum. apply sum_ext. intros x _. rewrite cconj_mul, cconj_invol, T0k, T0o by assumption. ring.
          - destruct (IncE a Ha) as [Q|Qa']; [contradiction|]. destruct (inc_dec k b) as [Qb|Qb].
            + rewrite (F6 a b Qa' Qb). rewrite (csum_inc F k (fun s => T0 a s * cconj K (T0 b s)) (fun x => T21 a x * cconj K (T1 b x))) by (intros x _; rewrite (T0o a), (T0k b) by assumption; reflexivity). ring.
            + destruct (IncE b Hb) as [Q|Qb']; [contradiction|]. unfold M'.
              rewrite (csum_inc F k (fun s => T0 a s * cconj K (T0 b s)) (fun x => T21 a x * cconj K (T21 b x))) by (intros x _; rewrite !T0o by assumption; reflexivity). ring. }
        assert (Hh' : hermitian (F:=F) (c_size o) (block o M')).
        { intros a b Ha Hb. unfold block, M'. rewrite conj_sub. f_equal; [apply HM'; apply Inc2; unfold inc; lia|]. unfold csum. rewrite conj_sum. apply sum_ext. intros x _. rewrite cconj_mul, cconj_invol. ring. }
        assert (Hp' : posdef ppos (c_size o) (block o M')).
        { apply (posdef_ext F ppos (c_size o) (fun a b => (fun a b => M' (c_off c + a)%nat (c_off c + b)%nat) (c_size k + a)%nat (c_size k + b)%nat)).
          { intros a b Ha Hb. unfold block. f_equal; lia. }
          apply (posdef_schur F ppos (c_size k) (c_size o) (block c M) (fun a b => M' (c_off c + a)%nat (c_off c + b)%nat) (fun a s => T0 (c_off c + a)%nat (c_off c + s)%nat)).
          - intros a b Ha Hb. unfold block. rewrite (VM (c_off c + a)%nat (c_off c + b)%nat) by (unfold inc; lia). f_equal.
            + destruct (inc_dec k (c_off c + a)) as [Q|Q], (inc_dec k (c_off c + b)) as [Q'|Q'], (Nat.leb_spec (c_size k) a), (Nat.leb_spec (c_size k) b); unfold inc in *; cbn [andb]; try reflexivity; lia.
            + unfold csum. rewrite Ek1. reflexivity.
          - intros r. destruct (htri_surj_op u DgN (if is_L u then TrC else TrN) (lform u T1) P' E3 (fun s => r (s - c_off c)%nat)) as [y Hy].
            assert (TP : h_t (hv P') = k) by (unfold block_of in *; congruence). rewrite TP in Hy.
            exists (fun a => y (c_off c + a)%nat). intros s Hs. specialize (Hy (c_off c + s)%nat ltac:(unfold inc; lia)). replace (c_off c + s - c_off c)%nat with s in Hy by lia. rewrite <- Hy.
            rewrite csum_local, Ek1. apply sum_ext. intros a Ha. f_equal. rewrite T0k by (unfold inc; lia). destruct u; [congruence| |]; reflexivity.
          - rewrite <- Ek3. exact HP. }
        assert (G3o : G3 o o = S') by apply gset_same.
        assert (Nko : o <> k) by (intros ->; lia). assert (Nok : k <> o) by congruence.
        assert (G3k : G3 k k = P').
        { unfold G3. rewrite (gset_other F parts i H3) by (try assumption; congruence). rewrite (gset_other F parts i H3); try assumption; [apply gset_same| | |]; unfold key; destruct (is_L u); cbn [fst snd]; try assumption; congruence. }
        assert (G3x : G3 (fst (key u o k)) (snd (key u o k)) = X).
        { unfold G3. rewrite (gset_other F parts i H3); [apply gset_same| | | | |]; unfold key; destruct (is_L u); cbn [fst snd]; try assumption; congruence. }
        destruct (IH u M' S' Hu HS') as (P2 & T2 & I1 & [I2 _] & I3 & I4); rewrite ?TS; try assumption; [apply KW, Ko|lia|]. rewrite TS in I4.
        destruct (last_step i H2 H3 H4 B H5 H6 f u G3 A1 o P2 true (ckids c) F2 (H8 o Ko)) as (H' & L1 & L2); [rewrite G3o; exact I1|congruence|rewrite CH; intros x [<-|[<-|[]]]; lia|].
        set (G4 := gset F G3 o o P2) in *.
        set (T := fun a s => if inc_dec k s then T0 a s else if inc_dec o a then T2 a s else 0).
        assert (Tk1 : forall a s, inc k s -> T a s = T0 a s) by (intros a s Q; unfold T; destruct (inc_dec k s); [reflexivity|contradiction]).
        assert (Tk2 : forall a s, inc o s -> inc o a -> T a s = T2 a s).
        { intros a s Q Q'; unfold T. destruct (inc_dec k s) as [Z|_]; [exfalso; exact (IncN s Z Q)|]. destruct (inc_dec o a); [reflexivity|contradiction]. }
        assert (Tk3 : forall a s, inc o s -> inc k a -> T a s = 0).
        { intros a s Q Q'; unfold T. destruct (inc_dec k s) as [Z|_]; [exfalso; exact (IncN s Z Q)|]. destruct (inc_dec o a) as [Z|_]; [exfalso; exact (IncN a Q' Z)|reflexivity]. }
        exists H', T. split; [|split; [|split]].
        * rewrite CH in L1 |- *. cbn [fold_b]. rewrite F1, L1. reflexivity.
        * destruct L2 as (cs' & -> & _). split; [|split]; reflexivity.
        * destruct L2 as (cs' & -> & EB' & EG).
          assert (G4o : G4 o o = P2) by apply gset_same. assert (G4k : G4 k k = P') by (unfold G4; rewrite (gset_other F parts i H3); try assumption; congruence).
          assert (G4x : G4 (fst (key u o k)) (snd (key u o k)) = X) by (unfold G4; rewrite (gset_other F parts i H3); [exact G3x| | | | |]; unfold key; destruct (is_L u); cbn [fst snd]; try assumption; congruence).
          assert (TP : h_t (hv P') = k) by (unfold block_of in *; congruence). assert (TP2 : h_t (hv P2) = o) by (unfold block_of in *; congruence).
          apply htri_node; fold c; rewrite ?EB'; try assumption.
          -- intros x k' Hx Hb. rewrite (EG x k' k' Hx Hb). assert (Q : In (k', k') B) by (rewrite <- EB', <- Hb; apply in_map, Hx). destruct (BK k' k' Q) as [Q1 _]. rewrite CH in Q1. destruct Q1 as [<-|[<-|[]]].
             ++ rewrite G4k. eapply htri_ext; [exact E3|]. rewrite TP. intros a b Ha Hb'. apply (lform_ext u T1 T (fun a b => inc k a /\ inc k b)); [|destruct (is_L u); auto].
                intros a' b' [Q1 Q2]. rewrite Tk1, T0k by assumption. reflexivity.
             ++ rewrite G4o. eapply htri_ext; [exact I3|]. rewrite TP2. intros a b Ha Hb'. apply (lform_ext u T2 T (fun a b => inc o a /\ inc o b)); [|destruct (is_L u); auto].
                intros a' b' [Q1 Q2]. rewrite Tk2 by assumption. reflexivity.
          -- intros x p j Hx Hb Hs. assert (Q : In (p, j) B) by (rewrite <- EB', <- Hb; apply in_map, Hx). destruct (BK p j Q) as [Q1 Q2].
             assert (PK : (p, j) = key u o k).
             { rewrite CH in Q1, Q2. unfold strictly in Hs. unfold key. destruct Q1 as [<-|[<-|[]]]; destruct Q2 as [<-|[<-|[]]]; destruct u; cbn [is_L]; try congruence; lia. }
             assert (Ex : x = X). { rewrite (EG x p j Hx Hb). rewrite <- G4x, <- PK. reflexivity. }
             rewrite Ex. eapply hrep_ext; [exact F3|]. intros a b Ha Hb'. apply inc_iv in Ha, Hb'. apply (lform_ext u T21 T (fun a b => inc o a /\ inc k b)).
             ++ intros a' b' [Z1 Z2]. rewrite Tk1, T0o by assumption. reflexivity.
             ++ unfold key, block_of in F4. destruct (is_L u); injection F4 as Z1 Z2; rewrite Z1 in Ha; rewrite Z2 in Hb'; auto.
          -- intros p j a b Hp Hj Hs Ha Hb. rewrite CH in Hp, Hj. unfold strictly in Hs. unfold lform.
             destruct Hp as [<-|[<-|[]]]; destruct Hj as [<-|[<-|[]]]; destruct u; cbn [is_L]; try congruence; try lia; [apply Tk3; assumption|]. rewrite Tk3 by assumption. apply conj_0.
        * intros a b Ha Hb. rewrite (csum_kids K parts c _ H3), CH. cbn [lsum]. rewrite (VM a b Ha Hb).
          rewrite (csum_inc F k (fun x => T a x * cconj K (T b x)) (fun x => T0 a x * cconj K (T0 b x))) by (intros x Hx; rewrite !Tk1 by assumption; reflexivity).
          destruct (inc_dec k a) as [Qa|Qa].
          { rewrite (csum_0 F o); [ring|]. intros x Hx. rewrite (Tk3 a x) by assumption. ring. }
          destruct (inc_dec k b) as [Qb|Qb].
          { rewrite (csum_0 F o); [ring|]. intros x Hx. rewrite (Tk3 b x) by assumption. rewrite conj_0. ring. }
          assert (Oa : inc o a) by (destruct (IncE a Ha); [contradiction|assumption]). assert (Ob : inc o b) by (destruct (IncE b Hb); [contradiction|assumption]).
          rewrite (I4 a b Oa Ob). rewrite (csum_inc F o (fun x => T a x * cconj K (T b x)) (fun x => T2 a x * cconj K (T2 b x))) by (intros x Hx; rewrite !Tk2 by assumption; reflexivity). ring.
  Qed.
End Chol.

Section Solve.
  Variable F : Fld.
  Notation K := (fk F).
  Notation C := (car K).
  Notation hmat := (rtree (hinfo K)).
  Notation mat := (mat K).
  Notation hv := rt_val.
  Notation "1" := (c1 K).
  Notation "x * y" := (cmul K x y) (at level 40, left associativity).
  Variable parts : ctree -> list ctree.
  Variable star : trans.
  Hypothesis Hstar : star = TrC \/ (star = TrT /\ forall x, cconj K x = x).

  Lemma internal_cholesky_solve_ok : forall fuel u (M T : nat -> nat -> C) (A : hmat) q (X : mat),
    let c := h_t (hv A) in let n := c_size c in
    u <> UpN -> htri parts u DgN (lform F u T) A -> (forall a b, inc c a -> inc c b -> M a b = csum c (fun x => T a x * cconj K (T b x))) ->
    (cheight c <= fuel)%nat -> (1 <= q)%nat -> wf_mat X n q ->
    exists Y, internal_cholesky_solve F parts star fuel u A X = Some Y /\ wf_mat Y n q /\ is_solution SdL TrN (at_block F c c M) 1 n q (me X) (me Y).
  Proof.
    intros fuel u M T A q X c n Hu HT HM Hf Hq HX. unfold internal_cholesky_solve.
    assert (ST : forall f a b, op_fun star f a b = cconj K (f b a)) by (intros; apply (op_star F star Hstar)).
    assert (HE : forall i j, (i < n)%nat -> (j < n)%nat -> at_block F c c M i j = sum n (fun x => at_block F c c T i x * cconj K (at_block F c c T j x))).
    { intros i j Hi Hj. unfold at_block. rewrite HM by (unfold inc; lia). apply csum_local. }
    pose proof (solution_compose F SdL TrN (at_block F c c M) (at_block F c c T) (fun x j => cconj K (at_block F c c T j x)) 1 n q (me X)) as SC. cbn zeta in SC. cbn [is_N] in SC.
    destruct u; [congruence| |]; cbn [is_L].
    - destruct (matrix_solve_ok F parts fuel SdL UpL TrN DgN (lform F UpL T) A 1 X q HT Hf Hq HX) as (X1 & -> & W1 & S1).
      destruct (matrix_solve_ok F parts fuel SdL UpL star DgN (lform F UpL T) A 1 X1 q HT Hf Hq W1) as (Y & -> & W2 & S2).
      exists Y. split; [reflexivity|]. split; [exact W2|]. apply (SC (me X1) (me Y)); [exact HE|]. split; [exact S1|].
      intros i j Hi Hj. specialize (S2 i j Hi Hj). cbn beta iota in S2 |- *. rewrite <- S2. apply sum_ext. intros x _. rewrite ST. reflexivity.
    - destruct (matrix_solve_ok F parts fuel SdL UpU star DgN (lform F UpU T) A 1 X q HT Hf Hq HX) as (X1 & -> & W1 & S1).
      destruct (matrix_solve_ok F parts fuel SdL UpU TrN DgN (lform F UpU T) A 1 X1 q HT Hf Hq W1) as (Y & -> & W2 & S2).
      exists Y. split; [reflexivity|]. split; [exact W2|]. apply (SC (me X1) (me Y)); [exact HE|]. split; [|exact S2].
      intros i j Hi Hj. specialize (S1 i j Hi Hj). cbn beta iota in S1 |- *. rewrite <- S1. apply sum_ext. intros x _. rewrite ST. unfold at_block, lform. cbn [is_L]. rewrite cconj_invol. reflexivity.
  Qed.
End Solve.
