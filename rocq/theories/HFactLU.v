(** * LU factorisation of hierarchical matrices: proofs. *)

From Coq Require Import List Arith ZArith Bool Permutation Lia Ring.
From Verif Require Import ClusterModel ClusterSpec IOModel IOSpec BlockModel BlockSpec BlockSym Algebra BlasModel HMatModel HMatSpec HMatBuild HMatTop Field
  DenseModel DenseSpec DenseProofs DenseLU DistModel DistVec ArithModel ArithSpec ArithDense ArithLr ArithTree ArithHier ArithProd ArithDest
  HFactModel HFactSpec HFactSubst HFactSolve HFactHH HFactTri.
Import ListNotations.

Section Node.
  Variable F : Fld.
  Notation K := (fk F).
  Notation C := (car K).
  Notation hmat := (rtree (hinfo K)).
  Notation hv := rt_val.
  Variable parts : ctree -> list ctree.
  Notation ct := (cluster_tree parts).
  Variable i : hinfo K.
  Hypothesis Hi : h_t i = h_s i.
  Hypothesis Hct : ct (h_t i).
  Hypothesis Hleaf : is_leaf (h_t i) = false.
  Notation c := (h_t i).

  (** The node is given by its blocks. *)
  Definition blocks (G : ctree -> ctree -> hmat) (H : hmat) : Prop :=
    exists cs, H = RNode i cs /\ Permutation (map block_of cs) (list_prod (ckids c) (ckids c)) /\
      forall x o j, In x cs -> block_of x = (o, j) -> x = G o j.
  Definition gset (G : ctree -> ctree -> hmat) (o j : ctree) (x : hmat) (o' j' : ctree) : hmat :=
    if (c_off o' =? c_off o) && (c_off j' =? c_off j) then x else G o' j'.

  Lemma kid_off : forall p q, In p (ckids c) -> In q (ckids c) -> c_off p = c_off q -> p = q.
  Proof.
    intros p q Hp Hq E. apply (kid_unique parts c p q (c_off p)); try assumption; unfold inc.
    - pose proof (ct_size parts p (ckids_ct parts c p Hct Hp)). lia.
    - pose proof (ct_size parts q (ckids_ct parts c q Hct Hq)). lia.
  Qed.
  Lemma gset_same : forall G o j x, gset G o j x o j = x.
  Proof. intros. unfold gset. rewrite !Nat.eqb_refl. reflexivity. Qed.
  Lemma gset_other : forall G o j x o' j', In o (ckids c) -> In j (ckids c) -> In o' (ckids c) -> In j' (ckids c) -> (o', j') <> (o, j) -> gset G o j x o' j' = G o' j'.
  Proof.
    intros G o j x o' j' H1 H2 H3 H4 N. unfold gset. destruct (Nat.eqb_spec (c_off o') (c_off o)) as [E|_]; [|reflexivity].
    destruct (Nat.eqb_spec (c_off j') (c_off j)) as [E'|_]; [|reflexivity]. exfalso. apply N. f_equal; apply kid_off; assumption.
  Qed.

  Lemma blocks_find : forall G H o j, blocks G H -> In o (ckids c) -> In j (ckids c) ->
    exists k, nth_error (rt_children H) k = Some (G o j) /\ block_of (G o j) = (o, j) /\ sub_path K H o j = Some [k] /\ sub K H o j = Some (G o j).
  Proof.
    intros G H o j (cs & -> & HP & HG) Ho Hj. destruct (perm_child _ _ _ (o, j) HP) as (k & x & Hk & Hb); [apply in_prod; assumption|].
    assert (E : x = G o j) by (apply HG; [eapply nth_error_In, Hk|exact Hb]). subst x. exists k. cbn [rt_children]. split; [exact Hk|]. split; [exact Hb|].
    apply (sub_found K parts i cs) with (c := G o j); try assumption.
    - rewrite <- Hi. exact Hct.
    - rewrite <- Hi, andb_diag. exact Hleaf.
    - eapply Permutation_NoDup; [apply Permutation_sym, HP|]. apply prod_nodup with parts; assumption.
    - rewrite <- Hi. intros p Hp. eapply Permutation_in; eassumption.
    - rewrite <- Hi. exact Hj.
  Qed.
  Lemma blocks_sub : forall G H o j, blocks G H -> In o (ckids c) -> In j (ckids c) -> sub K H o j = Some (G o j) /\ block_of (G o j) = (o, j).
  Proof. intros G H o j HG Ho Hj. destruct (blocks_find G H o j HG Ho Hj) as (k & _ & E1 & _ & E2). auto. Qed.
  Lemma blocks_on : forall G H o j f x', blocks G H -> In o (ckids c) -> In j (ckids c) -> f (G o j) = Some x' -> block_of x' = (o, j) ->
    exists H', on_sub F H o j f = Some H' /\ blocks (gset G o j x') H'.
  Proof.
    intros G H o j f x' HG Ho Hj Hf Hb. destruct (blocks_find G H o j HG Ho Hj) as (k & Hk & E1 & E2 & _). destruct HG as (cs & -> & HP & HG). cbn [rt_children] in Hk.
    exists (RNode i (replace_nth k x' cs)). split.
    - unfold on_sub. rewrite E2. cbn [node_at rt_children replace_at rt_val]. rewrite Hk. cbn [node_at]. rewrite Hf. reflexivity.
    - exists (replace_nth k x' cs). split; [reflexivity|]. split.
      + rewrite (replace_blocks K cs k _ _ Hk); [exact HP|congruence].
      + intros x o' j' Hx Hbx. apply In_nth_error in Hx. destruct Hx as [n Hn].
        assert (Hlen : k < length cs) by (apply nth_error_Some; congruence). rewrite nth_replace in Hn by exact Hlen.
        destruct (Nat.eqb_spec n k) as [En|Nk].
        * injection Hn as <-. rewrite Hb in Hbx. injection Hbx as <- <-. rewrite gset_same. reflexivity.
        * assert (Hbk : In (o', j') (list_prod (ckids c) (ckids c))) by (eapply Permutation_in; [exact HP|]; rewrite <- Hbx; apply in_map; eapply nth_error_In, Hn).
          apply in_prod_iff in Hbk. destruct Hbk as [B1 B2]. rewrite gset_other; try assumption; [apply HG; [eapply nth_error_In, Hn|exact Hbx]|].
          intros E. apply Nk. apply (unique_index K cs n k x (G o j)); try assumption; [|congruence].
          eapply Permutation_NoDup; [apply Permutation_sym, HP|]. apply prod_nodup with parts; assumption.
  Qed.
End Node.

Section LU.
  Variable F : Fld.
  Notation K := (fk F).
  Notation C := (car K).
  Notation hmat := (rtree (hinfo K)).
  Notation hv := rt_val.
  Notation "0" := (c0 K).
  Notation "1" := (c1 K).
  Notation "x + y" := (cadd K x y) (at level 50, left associativity).
  Notation "x - y" := (csub K x y) (at level 50, left associativity).
  Notation "x * y" := (cmul K x y) (at level 40, left associativity).
  Add Ring Kring_hlu : (c_ring K).
  Variable parts : ctree -> list ctree.
  Notation ct := (cluster_tree parts).
  Notation hrep := (hrep parts).
  Notation htri := (htri parts).

  Lemma htri_ext : forall u d (T T' : nat -> nat -> C) (A : hmat), htri u d T A ->
    (forall a b, inc (h_t (hv A)) a -> inc (h_t (hv A)) b -> T a b = T' a b) -> htri u d T' A.
  Proof.
    intros u d T T' A H. induction H as [i D H1 H2 H3 H4 H5 H6 H7|i cs H1 H2 H3 H4 H5 H6 H7 H8 IH H9 H10 H11]; intros E; cbn [rt_val] in E.
    - apply htri_leaf with D; try assumption. intros a b Ha Hb. rewrite <- H7 by assumption. symmetry. apply E; unfold inc; lia.
    - assert (Q : forall o a, In o (ckids (h_t i)) -> inc o a -> inc (h_t i) a) by (intros o a Ho Ha; apply (kid_inc parts (h_t i) o); assumption).
      assert (BK : forall c o j, In c cs -> block_of c = (o, j) -> In o (ckids (h_t i)) /\ In j (ckids (h_t i))).
      { intros c o j Hc Hb. apply in_prod_iff. rewrite <- Hb. apply H6. apply in_map, Hc. }
      apply htri_node; try assumption.
      + intros c k Hc Hb. destruct (BK c k k Hc Hb) as [B1 _]. apply (IH c k Hc Hb). unfold block_of in Hb. injection Hb as Eb _. rewrite Eb. intros a b Ha Hb. apply E; apply (Q k); assumption.
      + intros c o j Hc Hb Hs. destruct (BK c o j Hc Hb) as [B1 B2]. eapply hrep_ext; [exact (H10 c o j Hc Hb Hs)|]. unfold block_of in Hb. injection Hb as E1 E2. rewrite E1, E2.
        intros a b Ha Hb. apply inc_iv in Ha, Hb. apply E; [apply (Q o)|apply (Q j)]; assumption.
      + intros o j a b Ho Hj Hs Ha Hb. rewrite <- E; [apply (H11 o j); assumption|apply (Q o)|apply (Q j)]; assumption.
  Qed.

  Lemma htri_surj : forall u d (T : nat -> nat -> C) (A : hmat), htri u d T A -> forall r : nat -> C,
    exists y, forall a, inc (h_t (hv A)) a -> csum (h_t (hv A)) (fun x => T a x * y x) = r a.
  Proof.
    intros u d T A H r. destruct (htri_block F parts u d T A H) as [_ Hc]. pose proof (ct_size parts _ Hc) as Hs.
    destruct (row_solve_ok F parts (cheight (h_t (hv A))) u TrN d T A H (Nat.le_refl _) 1 (of_fun K 1%nat (c_size (h_t (hv A))) (fun _ j => r (c_off (h_t (hv A)) + j)%nat)) 1%nat (Nat.le_refl _))
      as (X & _ & _ & E); [apply of_fun_wf|].
    exists (fun x => me X 0%nat (x - c_off (h_t (hv A)))%nat). intros a Ha. cbn [op_fun] in E. rewrite E by (try exact Ha; lia). unfold inc in Ha. rewrite of_fun_me by lia.
    replace (c_off (h_t (hv A)) + (a - c_off (h_t (hv A))))%nat with a by lia. ring.
  Qed.

  (** ** The Schur complement of a leading block *)
  Lemma schur_injective : forall n1 n2 (M0 M FL FU : nat -> nat -> C),
    (forall i j, (i < n1 + n2)%nat -> (j < n1 + n2)%nat ->
       M0 i j = (if ((n1 <=? i) && (n1 <=? j))%nat then M i j else 0) + sum n1 (fun s => FL i s * FU s j)) ->
    (forall r, exists y, forall i, (i < n1)%nat -> sum n1 (fun s => FU i s * y s) = r i) ->
    injective (F := F) (n1 + n2) M0 -> injective (F := F) n2 (fun i j => M (n1 + i)%nat (n1 + j)%nat).
  Proof.
    intros n1 n2 M0 M FL FU HE HS HI x Hx. destruct (HS (fun a => copp K (sum n2 (fun j => FU a (n1 + j)%nat * x j)))) as [y Hy].
    set (z := fun b => if (b <? n1)%nat then y b else x (b - n1)%nat).
    assert (Hz : forall k, (k < n1 + n2)%nat -> z k = 0).
    { apply HI. intros i Hi. rewrite sum_split.
      rewrite (sum_ext K n1 _ (fun j => sum n1 (fun s => FL i s * FU s j) * y j)).
      2:{ intros j Hj. rewrite HE by lia. unfold z. replace (n1 <=? j)%nat with false by (symmetry; apply Nat.leb_gt; exact Hj). rewrite andb_false_r.
          replace (j <? n1)%nat with true by (symmetry; apply Nat.ltb_lt; exact Hj). ring. }
      rewrite (sum_ext K n2 _ (fun j => (if (n1 <=? i)%nat then M i (n1 + j)%nat else 0) * x j + sum n1 (fun s => FL i s * FU s (n1 + j)%nat) * x j)).
      2:{ intros j Hj. rewrite HE by lia. unfold z. replace (n1 <=? n1 + j)%nat with true by (symmetry; apply Nat.leb_le; lia). rewrite andb_true_r.
          replace (n1 + j <? n1)%nat with false by (symmetry; apply Nat.ltb_ge; lia). replace (n1 + j - n1)%nat with j by lia. ring. }
      rewrite sum_add.
      rewrite <- (sum_assoc K n1 n1 (fun s => FL i s) (fun s j => FU s j) y).
      rewrite <- (sum_assoc K n1 n2 (fun s => FL i s) (fun s j => FU s (n1 + j)%nat) x).
      assert (Z1 : sum n2 (fun j => (if (n1 <=? i)%nat then M i (n1 + j)%nat else 0) * x j) = 0).
      { destruct (Nat.leb_spec n1 i) as [L|L].
        - specialize (Hx (i - n1)%nat ltac:(lia)). replace (n1 + (i - n1))%nat with i in Hx by lia. exact Hx.
        - apply sum_0. intros j _. ring. }
      rewrite Z1. rewrite (sum_ext K n1 (fun p => FL i p * sum n1 (fun l => FU p l * y l)) (fun p => FL i p * copp K (sum n2 (fun j => FU p (n1 + j)%nat * x j)))).
      2:{ intros p Hp. rewrite Hy by exact Hp. reflexivity. }
      transitivity (sum n1 (fun p => FL i p * copp K (sum n2 (fun j => FU p (n1 + j)%nat * x j))) + sum n1 (fun p => FL i p * sum n2 (fun l => FU p (n1 + l)%nat * x l))); [ring|].
      rewrite <- sum_add. apply sum_0. intros p Hp. ring. }
    intros k Hk. specialize (Hz (n1 + k)%nat ltac:(lia)). unfold z in Hz. replace (n1 + k <? n1)%nat with false in Hz by (symmetry; apply Nat.ltb_ge; lia).
    replace (n1 + k - n1)%nat with k in Hz by lia. exact Hz.
  Qed.

  (** Back substitution on the first clusters. *)
  Lemma prefix_surj : forall (FU : nat -> nat -> C) pre, NoDup pre -> (forall p q x, In p pre -> In q pre -> inc p x -> inc q x -> p = q) ->
    (forall l1 q l2, pre = l1 ++ q :: l2 -> forall p a x, In p l1 -> inc q a -> inc p x -> FU a x = 0) ->
    (forall q r, In q pre -> exists y, forall a, inc q a -> csum q (fun x => FU a x * y x) = r a) ->
    forall r, exists y, forall q a, In q pre -> inc q a -> lsum pre (fun p => csum p (fun x => FU a x * y x)) = r a.
  Proof.
    intros FU pre. induction pre as [|q pre IH] using rev_ind; intros HN HD HZ HS r; [exists (fun _ => 0); intros q a []|].
    destruct (HS q r) as [yq Hq]; [apply in_app_iff; right; left; reflexivity|].
    apply NoDup_remove in HN. rewrite app_nil_r in HN. destruct HN as [HN HQ].
    destruct (IH HN) with (r := fun a => r a - csum q (fun x => FU a x * yq x)) as [y Hy].
    { intros p p' x Hp Hp'. apply HD; apply in_app_iff; left; assumption. }
    { intros l1 p l2 E. apply (HZ l1 p (l2 ++ [q])). rewrite E, <- app_assoc. reflexivity. }
    { intros p r' Hp. apply HS. apply in_app_iff. left. exact Hp. }
    exists (fun x => if inc_dec q x then yq x else y x). intros p a Hp Ha. rewrite lsum_app. cbn [lsum].
    rewrite (csum_inc F q (fun x => FU a x * (if inc_dec q x then yq x else y x)) (fun x => FU a x * yq x)).
    2:{ intros x Hx. destruct (inc_dec q x) as [_|N]; [reflexivity|contradiction]. }
    assert (E : lsum pre (fun p => csum p (fun x => FU a x * (if inc_dec q x then yq x else y x))) = lsum pre (fun p => csum p (fun x => FU a x * y x))).
    { apply lsum_ext. intros p' Hp'. apply (csum_inc F). intros x Hx. destruct (inc_dec q x) as [Q|N]; [|reflexivity]. exfalso. apply HQ.
      assert (E : p' = q) by (apply (HD p' q x); try assumption; apply in_app_iff; [left; exact Hp'|right; left; reflexivity]). rewrite <- E. exact Hp'. }
    rewrite E. apply in_app_iff in Hp. destruct Hp as [Hp|[<-|[]]].
    - rewrite (Hy p a Hp Ha). ring.
    - rewrite Hq by exact Ha. rewrite (lsum_0 K); [ring|]. intros p' Hp'. apply (csum_0 F). intros x Hx. rewrite (HZ pre q [] eq_refl p' a x Hp' Ha Hx). ring.
  Qed.

  (** Functions on the rows of the clusters, put together. *)
  Lemma collect : forall (l : list ctree) (P : ctree -> (nat -> nat -> C) -> Prop), NoDup l -> (forall p q x, In p l -> In q l -> inc p x -> inc q x -> p = q) ->
    (forall o, In o l -> exists X, P o X) -> (forall o X X', In o l -> (forall a b, inc o a -> X a b = X' a b) -> P o X -> P o X') ->
    exists X, forall o, In o l -> P o X.
  Proof.
    induction l as [|o l IH]; intros P HN HD HE HX; [exists (fun _ _ => 0); intros o []|]. apply NoDup_cons_iff in HN. destruct HN as [HO HN].
    destruct (HE o (or_introl eq_refl)) as [Xo Ho]. destruct (IH P HN) as [X HX'].
    { intros p q x Hp Hq. apply HD; right; assumption. }
    { intros q Hq. apply HE. right. exact Hq. }
    { intros q X X' Hq. apply HX. right. exact Hq. }
    exists (fun a b => if inc_dec o a then Xo a b else X a b). intros q [<-|Hq].
    - apply (HX o Xo); [left; reflexivity| |exact Ho]. intros a b Ha. destruct (inc_dec o a) as [_|N]; [reflexivity|contradiction].
    - apply (HX q X); [right; exact Hq| |apply HX', Hq]. intros a b Ha. destruct (inc_dec o a) as [Q|_]; [|reflexivity].
      assert (E : o = q) by (apply (HD o q a); [left; reflexivity|right; exact Hq|exact Q|exact Ha]). subst q. contradiction.
  Qed.

  Lemma pairs_prod : forall l m, pairs_of l m = list_prod l m.
  Proof. intros l m. unfold pairs_of. induction l as [|x l IH]; [reflexivity|]. cbn [flat_map list_prod]. rewrite IH. reflexivity. Qed.

  Variable recompress : lrm K -> lrm K.
  Variable svd_factors : mat K -> lrm K.
  Hypothesis HR : exact_recompression recompress.
  Hypothesis HSv : exact_svd svd_factors.

  Section Step.
    Variable i : hinfo K.
    Hypothesis Hi : h_t i = h_s i.
    Hypothesis Hct : ct (h_t i).
    Hypothesis Hleaf : is_leaf (h_t i) = false.
    Notation c := (h_t i).
    Notation blocks := (blocks F i).
    Notation gset := (gset F).
    Variable k : ctree.
    Hypothesis Hk : In k (ckids c).
    Variable f : nat.
    Hypothesis Hf : (3 * cheight c <= S f)%nat.
    Variable M : nat -> nat -> C.

    Lemma kid_heights : forall o, In o (ckids c) -> (2 * cheight k + cheight o <= f)%nat.
    Proof. intros o Ho. pose proof (cheight_kid c k Hleaf Hk). pose proof (cheight_kid c o Hleaf Ho). lia. Qed.
    Lemma kids_above : forall o, In o (ckids c) -> above o = above k.
    Proof. intros o Ho. rewrite (above_kid parts c o Hct Ho), (above_kid parts c k Hct Hk). reflexivity. Qed.

    (** The solves. *)
    Definition row_done (TL : nat -> nat -> C) (o : ctree) (x : hmat) : Prop := exists X, hrep X x /\ solves (F:=F) SdL TrN TL 1 k o M X.
    Definition col_done (TU : nat -> nat -> C) (o : ctree) (x : hmat) : Prop := exists X, hrep X x /\ solves (F:=F) SdR TrN TU 1 k o M X.
    Lemma solves_phase : forall TL TU G1 H1, blocks G1 H1 -> htri UpL DgU TL (G1 k k) -> htri UpU DgN TU (G1 k k) ->
      (forall o, In o (ckids c) -> (c_off k < c_off o)%nat -> hrep M (G1 k o) /\ hrep M (G1 o k)) ->
      exists H2 G2, fold_o (fun o H =>
                if c_off k <? c_off o then
                  do P <- sub K H k k;
                  do H' <- on_sub F H k o (hh_solve F recompress svd_factors parts f SdL UpL TrN DgU 1 P);
                  on_sub F H' o k (hh_solve F recompress svd_factors parts f SdR UpU TrN DgN 1 P)
                else Some H) (ckids c) H1 = Some H2 /\ blocks G2 H2 /\
        (forall o, In o (ckids c) -> (c_off k < c_off o)%nat -> row_done TL o (G2 k o) /\ col_done TU o (G2 o k)) /\
        (forall o j, In o (ckids c) -> In j (ckids c) -> (o = k -> ~ (c_off k < c_off j)%nat) -> (j = k -> ~ (c_off k < c_off o)%nat) -> G2 o j = G1 o j).
    Proof.
      intros TL TU G1 H1 HB HL HU HM.
      destruct (fold_o_inv (fun o H =>
                if c_off k <? c_off o then
                  do P <- sub K H k k;
                  do H' <- on_sub F H k o (hh_solve F recompress svd_factors parts f SdL UpL TrN DgU 1 P);
                  on_sub F H' o k (hh_solve F recompress svd_factors parts f SdR UpU TrN DgN 1 P)
                else Some H)
        (fun pre H => exists G2, blocks G2 H /\
          (forall o, In o pre -> (c_off k < c_off o)%nat -> row_done TL o (G2 k o) /\ col_done TU o (G2 o k)) /\
          (forall o j, In o (ckids c) -> In j (ckids c) -> (o = k -> In j pre -> ~ (c_off k < c_off j)%nat) -> (j = k -> In o pre -> ~ (c_off k < c_off o)%nat) -> G2 o j = G1 o j))
        (ckids c)) with (b := H1) as (H2 & E & G2 & B2 & D2 & U2).
      - intros pre o post H El (G & B & D & U). assert (Ho : In o (ckids c)) by (rewrite El; apply in_app_iff; right; left; reflexivity).
        assert (HP : forall p, In p pre -> In p (ckids c)) by (intros p Hp; rewrite El; apply in_app_iff; left; exact Hp).
        assert (Nd : ~ In o pre). { pose proof (ckids_nodup parts c Hct) as N. rewrite El in N. apply NoDup_remove_2 in N. intros Q. apply N, in_app_iff. left. exact Q. }
        destruct (Nat.ltb_spec (c_off k) (c_off o)) as [Lo|Lo].
        + assert (Nk : o <> k) by (intros ->; lia).
          destruct (blocks_sub F parts i Hi Hct Hleaf G H k k B Hk Hk) as [S1 S2]. rewrite S1.
          assert (Ek : G k k = G1 k k) by (apply U; try assumption; intros; lia). rewrite Ek in *.
          assert (Tk : h_t (hv (G1 k k)) = k) by (unfold block_of in S2; congruence).
          destruct (HM o Ho Lo) as [M1 M2].
          destruct (blocks_sub F parts i Hi Hct Hleaf G H k o B Hk Ho) as [_ R2]. assert (Eko : G k o = G1 k o) by (apply U; try assumption; [intros _ Q; contradiction|intros; congruence]).
          destruct (hh_solve_ok F parts recompress svd_factors HR HSv f SdL UpL TrN DgU TL (G1 k k) M (G k o) 1 HL) as (x & X & F1 & F2 & F3 & F4).
          { rewrite Eko. exact M1. }
          { unfold tri_of, block_of in *. congruence. }
          { unfold oth_of, block_of in *. injection R2 as _ R2b. rewrite R2b, Tk. apply kids_above, Ho. }
          { unfold oth_of, block_of in *. injection R2 as _ R2b. rewrite R2b, Tk. apply kid_heights, Ho. }
          rewrite Tk in F4. unfold oth_of in F4. replace (h_s (hv (G k o))) with o in F4 by (unfold block_of in R2; congruence).
          destruct (blocks_on F parts i Hi Hct Hleaf G H k o _ x B Hk Ho F1) as (H' & E1 & B1); [congruence|]. rewrite E1.
          destruct (blocks_sub F parts i Hi Hct Hleaf _ H' o k B1 Ho Hk) as [_ R3].
          assert (Eok : gset G k o x o k = G1 o k).
          { rewrite (gset_other F parts i Hct) by (try assumption; intros Q; congruence). apply U; try assumption; [intros; congruence|intros _ Q; contradiction]. }
          destruct (hh_solve_ok F parts recompress svd_factors HR HSv f SdR UpU TrN DgN TU (G1 k k) M (gset G k o x o k) 1 HU) as (x' & X' & F1' & F2' & F3' & F4').
          { rewrite Eok. exact M2. }
          { unfold tri_of, block_of in *. congruence. }
          { unfold oth_of, block_of in *. injection R3 as R3a _. rewrite R3a, Tk. apply kids_above, Ho. }
          { unfold oth_of, block_of in *. injection R3 as R3a _. rewrite R3a, Tk. apply kid_heights, Ho. }
          rewrite Tk in F4'. unfold oth_of in F4'. replace (h_t (hv (gset G k o x o k))) with o in F4' by (unfold block_of in R3; congruence).
          destruct (blocks_on F parts i Hi Hct Hleaf _ H' o k _ x' B1 Ho Hk F1') as (H'' & E2 & B2); [congruence|]. rewrite E2.
          exists H''. split; [reflexivity|]. exists (gset (gset G k o x) o k x'). split; [exact B2|]. split.
          * intros p Hp Lp. apply in_app_iff in Hp. destruct Hp as [Hp|[<-|[]]].
            -- assert (Npo : p <> o) by (intros ->; contradiction). assert (Npk : p <> k) by (intros ->; lia). pose proof (HP p Hp) as Hp'.
               rewrite !(gset_other F parts i Hct) by (try assumption; intros Q; congruence). apply D; assumption.
            -- rewrite gset_same. rewrite (gset_other F parts i Hct) by (try assumption; intros Q; congruence). rewrite gset_same. split; [exists X; auto|exists X'; auto].
          * intros p j Hp Hj Q1 Q2. assert (N1 : (p, j) <> (k, o)). { intros Q. injection Q as -> ->. apply (Q1 eq_refl); [apply in_app_iff; right; left; reflexivity|exact Lo]. }
            assert (N2 : (p, j) <> (o, k)). { intros Q. injection Q as -> ->. apply (Q2 eq_refl); [apply in_app_iff; right; left; reflexivity|exact Lo]. }
            rewrite !(gset_other F parts i Hct) by assumption. apply U; try assumption; intros Q Hin; [apply (Q1 Q)|apply (Q2 Q)]; apply in_app_iff; left; exact Hin.
        + exists H. split; [reflexivity|]. exists G. split; [exact B|]. split.
          * intros p Hp Lp. apply in_app_iff in Hp. destruct Hp as [Hp|[<-|[]]]; [apply D; assumption|lia].
          * intros p j Hp Hj Q1 Q2. apply U; try assumption; intros Q Hin; [apply (Q1 Q)|apply (Q2 Q)]; apply in_app_iff; left; exact Hin.
      - exists G1. split; [exact HB|]. split; [intros o []|reflexivity].
      - exists H2, G2. split; [exact E|]. split; [exact B2|]. split; [exact D2|]. intros o j Ho Hj Q1 Q2. apply U2; auto.
    Qed.

    (** The update. *)
    Lemma update_phase : forall XL XU G2 H2, blocks G2 H2 ->
      (forall o, In o (ckids c) -> (c_off k < c_off o)%nat -> hrep XU (G2 k o) /\ hrep XL (G2 o k)) ->
      (forall o j, In o (ckids c) -> In j (ckids c) -> (c_off k < c_off o)%nat -> (c_off k < c_off j)%nat -> hrep M (G2 o j)) ->
      exists H3 G3, fold_o (fun oi H =>
                if (c_off k <? c_off (fst oi)) && (c_off k <? c_off (snd oi)) then
                  do U <- sub K H k (snd oi);
                  do L <- sub K H (fst oi) k;
                  on_sub F H (fst oi) (snd oi) (hh_h K recompress svd_factors parts f TrN TrN (copp K 1) L U 1)
                else Some H) (pairs_of (ckids c) (ckids c)) H2 = Some H3 /\ blocks G3 H3 /\
        (forall o j, In o (ckids c) -> In j (ckids c) -> (c_off k < c_off o)%nat -> (c_off k < c_off j)%nat ->
           hupd (fun a b v => v + copp K 1 * csum k (fun x => XL a x * XU x b)) (G2 o j) (G3 o j)) /\
        (forall o j, In o (ckids c) -> In j (ckids c) -> ~ ((c_off k < c_off o)%nat /\ (c_off k < c_off j)%nat) -> G3 o j = G2 o j).
    Proof.
      intros XL XU G2 H2 HB HX HM. rewrite pairs_prod.
      destruct (fold_o_inv (fun oi H =>
                if (c_off k <? c_off (fst oi)) && (c_off k <? c_off (snd oi)) then
                  do U <- sub K H k (snd oi);
                  do L <- sub K H (fst oi) k;
                  on_sub F H (fst oi) (snd oi) (hh_h K recompress svd_factors parts f TrN TrN (copp K 1) L U 1)
                else Some H)
        (fun pre H => exists G3, blocks G3 H /\
          (forall o j, In (o, j) pre -> (c_off k < c_off o)%nat -> (c_off k < c_off j)%nat ->
             hupd (fun a b v => v + copp K 1 * csum k (fun x => XL a x * XU x b)) (G2 o j) (G3 o j)) /\
          (forall o j, In o (ckids c) -> In j (ckids c) -> ~ (In (o, j) pre /\ (c_off k < c_off o)%nat /\ (c_off k < c_off j)%nat) -> G3 o j = G2 o j))
        (list_prod (ckids c) (ckids c))) with (b := H2) as (H3 & E & G3 & B3 & D3 & U3).
      - intros pre [o j] post H El (G & B & D & U). cbn [fst snd].
        assert (Hoj : In (o, j) (list_prod (ckids c) (ckids c))) by (rewrite El; apply in_app_iff; right; left; reflexivity). apply in_prod_iff in Hoj. destruct Hoj as [Ho Hj].
        assert (HP : forall p q, In (p, q) pre -> In p (ckids c) /\ In q (ckids c)) by (intros p q Hp; apply in_prod_iff; rewrite El; apply in_app_iff; left; exact Hp).
        assert (Nd : ~ In (o, j) pre).
        { pose proof (prod_nodup parts c c Hct Hct) as N. rewrite El in N. apply NoDup_remove_2 in N. intros Q. apply N, in_app_iff. left. exact Q. }
        destruct (Nat.ltb_spec (c_off k) (c_off o)) as [Lo|Lo]; [destruct (Nat.ltb_spec (c_off k) (c_off j)) as [Lj|Lj]|]; cbn [andb].
        + destruct (blocks_sub F parts i Hi Hct Hleaf G H k j B Hk Hj) as [S1 S2]. rewrite S1.
          destruct (blocks_sub F parts i Hi Hct Hleaf G H o k B Ho Hk) as [S3 S4]. rewrite S3.
          destruct (blocks_sub F parts i Hi Hct Hleaf G H o j B Ho Hj) as [_ S6].
          assert (E1 : G k j = G2 k j) by (apply U; try assumption; lia). assert (E2 : G o k = G2 o k) by (apply U; try assumption; lia).
          assert (E3 : G o j = G2 o j) by (apply U; try assumption; intros [Q _]; contradiction). rewrite E1, E2, E3 in *.
          destruct (HX o Ho Lo) as [_ X2]. destruct (HX j Hj Lj) as [X1 _]. pose proof (HM o j Ho Hj Lo Lj) as X3.
          assert (Oa : out_of K TrN (G2 o k) = o /\ mid_of K TrN (G2 o k) = k) by (unfold out_of, mid_of, block_of in *; cbn [is_N]; injection S4 as -> ->; auto). destruct Oa as [Oa Ma].
          assert (Ob : out_of K TrN (G2 k j) = k /\ mid_of K TrN (G2 k j) = j) by (unfold out_of, mid_of, block_of in *; cbn [is_N]; injection S2 as -> ->; auto). destruct Ob as [Ob Mb].
          destruct (hh_h_ok K parts recompress HR svd_factors HSv f TrN TrN (copp K 1) XL XU (G2 o k) (G2 k j) (G2 o j)) as (x & F1 & F2); try assumption; try congruence.
          { pose proof (hrep_height F parts XL (G2 o k) X2) as Q. unfold block_of in S4. injection S4 as Q1 Q2. rewrite Q1, Q2 in Q. pose proof (kid_heights o Ho). pose proof (cheight_pos k). lia. }
          { rewrite Oa, Ma. apply kids_above, Ho. }
          { rewrite Ma, Mb. apply kids_above, Hj. }
          { apply (hrep_hdest K parts M). exact X3. }
          rewrite <- E3 in F1.
          destruct (blocks_on F parts i Hi Hct Hleaf G H o j _ x B Ho Hj F1) as (H' & E4 & B4); [rewrite (hupd_block K _ _ _ F2); exact S6|].
          exists H'. split; [exact E4|]. exists (gset G o j x). split; [exact B4|]. split.
          * intros p q Hp L1 L2. apply in_app_iff in Hp. destruct Hp as [Hp|[Q|[]]].
            -- destruct (HP p q Hp) as [P1 P2]. rewrite (gset_other F parts i Hct) by (try assumption; intros Q; rewrite Q in Hp; contradiction). apply D; assumption.
            -- injection Q as <- <-. rewrite gset_same. rewrite Ma in F2. cbn [op_fun] in F2. exact F2.
          * intros p q Hp Hq Hn. rewrite (gset_other F parts i Hct); try assumption.
            -- apply U; try assumption. intros [Q1 Q2]. apply Hn. split; [apply in_app_iff; left; exact Q1|exact Q2].
            -- intros Q. apply Hn. injection Q as -> ->. split; [apply in_app_iff; right; left; reflexivity|split; assumption].
        + exists H. split; [reflexivity|]. exists G. split; [exact B|]. split.
          * intros p q Hp L1 L2. apply in_app_iff in Hp. destruct Hp as [Hp|[Q|[]]]; [apply D; assumption|injection Q as -> ->; lia].
          * intros p q Hp Hq Hn. apply U; try assumption. intros [Q1 Q2]. apply Hn. split; [apply in_app_iff; left; exact Q1|exact Q2].
        + exists H. split; [reflexivity|]. exists G. split; [exact B|]. split.
          * intros p q Hp L1 L2. apply in_app_iff in Hp. destruct Hp as [Hp|[Q|[]]]; [apply D; assumption|injection Q as -> ->; lia].
          * intros p q Hp Hq Hn. apply U; try assumption. intros [Q1 Q2]. apply Hn. split; [apply in_app_iff; left; exact Q1|exact Q2].
      - exists G2. split; [exact HB|]. split; [intros o j []|reflexivity].
      - exists H3, G3. split; [exact E|]. split; [exact B3|]. split.
        + intros o j Ho Hj. apply D3. apply in_prod; assumption.
        + intros o j Ho Hj Hn. apply U3; try assumption. intros [_ Q]. contradiction.
    Qed.
  End Step.

  Lemma factorable_upd : forall M first (A : hmat), factorable M first A -> forall g B, hupd g A B -> factorable M first B.
  Proof.
    intros M first A H. induction H as [i D H1 H2|i cs H1 H2 IH]; intros g B U; inversion U as [x x' S1 S2 S3|x xs xs' S1 S2]; subst.
    - destruct S1 as (E1 & E2 & _ & _ & _ & _ & E3). rewrite H1 in E3. destruct (h_data x') as [|D'|] eqn:ED; try contradiction.
      apply factorable_leaf with D'; [exact ED|]. rewrite <- E1. exact H2.
    - congruence.
    - destruct S1 as (_ & _ & _ & _ & _ & _ & E3). rewrite H1 in E3. unfold leaf_ok in S2. destruct (h_data x'); contradiction.
    - apply factorable_node; [exact H1|]. intros c' k Hc Hb. clear - IH S2 Hc Hb. revert IH. induction S2 as [|a b l l' U S2 IHl]; [destruct Hc|]. intros IH. destruct Hc as [<-|Hc].
      + apply (IH a k) with (g := g); [left; reflexivity|rewrite <- (hupd_block K _ _ _ U); exact Hb|exact U].
      + apply IHl; [exact Hc|]. intros c0 k0 Hc0. apply IH. right. exact Hc0.
  Qed.
  Lemma factorable_schur : forall M first (A : hmat), factorable M first A -> forall N M' first', hrep N A -> h_s (hv A) = h_t (hv A) ->
    (forall e, (c_off (h_t (hv A)) < e)%nat -> (e <= c_off (h_t (hv A)) + c_size (h_t (hv A)))%nat ->
       injective (F:=F) (e - first)%nat (fun a b => M (first + a)%nat (first + b)%nat) -> injective (F:=F) (e - first')%nat (fun a b => M' (first' + a)%nat (first' + b)%nat)) ->
    factorable M' first' A.
  Proof.
    intros M first A H. induction H as [i D H1 H2|i cs H1 H2 IH]; intros N M' first' HN HS HI; destruct (hrep_ct K parts N _ HN) as [Ht _]; pose proof (ct_size parts _ Ht) as Hs; cbn [rt_val] in *.
    - apply factorable_leaf with D; [exact H1|]. apply HI; [lia|lia|exact H2].
    - destruct (hrep_node_inv K parts N _ HN H1) as (L & HP & HC). cbn [rt_val rt_children] in *.
      apply factorable_node; [exact H1|]. intros c k Hc Hb.
      assert (Hbk : In (k, k) (list_prod (ckids (h_t i)) (ckids (h_s i)))) by (eapply Permutation_in; [exact HP|]; rewrite <- Hb; apply in_map, Hc).
      apply in_prod_iff in Hbk. destruct Hbk as [Hk _]. pose proof (ckids_in parts (h_t i) k Ht Hk) as Hin.
      unfold block_of in Hb. assert (E1 : h_t (hv c) = k) by congruence. assert (E2 : h_s (hv c) = k) by congruence.
      apply (IH c k Hc) with (N := N); [unfold block_of; congruence|apply HC, Hc|congruence|]. rewrite E1. intros e He1 He2. apply HI; lia.
  Qed.

  Variable piv : (nat -> C) -> nat -> nat -> nat.
  Hypothesis HPiv : pivot_rule piv.

  Section Loop.
    Variable i : hinfo K.
    Hypothesis Hi : h_t i = h_s i.
    Hypothesis Hct : ct (h_t i).
    Hypothesis Hleaf : is_leaf (h_t i) = false.
    Notation c := (h_t i).
    Notation blocks := (blocks F i).
    Variable M0 : nat -> nat -> C.

    (** The state after the elimination of the clusters in [pre]. *)
    Record state (pre : list ctree) (G : ctree -> ctree -> hmat) (M FL FU : nat -> nat -> C) : Prop := {
      st_diag : forall k, In k pre -> htri UpL DgU FL (G k k) /\ htri UpU DgN FU (G k k);
      st_low : forall o j, In o (ckids c) -> In j pre -> (c_off j < c_off o)%nat -> hrep FL (G o j);
      st_up : forall o j, In o pre -> In j (ckids c) -> (c_off o < c_off j)%nat -> hrep FU (G o j);
      st_rest : forall o j, In o (ckids c) -> In j (ckids c) -> ~ In o pre -> ~ In j pre -> hrep M (G o j) /\ (o = j -> factorable M0 (c_off c) (G o j));
      st_zl : forall o j a b, In o (ckids c) -> In j pre -> (c_off o < c_off j)%nat -> inc o a -> inc j b -> FL a b = 0;
      st_zu : forall o j a b, In o pre -> In j (ckids c) -> (c_off j < c_off o)%nat -> inc o a -> inc j b -> FU a b = 0;
      st_done : forall o j a b, In o (ckids c) -> In j (ckids c) -> In o pre \/ In j pre -> inc o a -> inc j b ->
        M0 a b = lsum pre (fun q => csum q (fun x => FL a x * FU x b));
      st_schur : forall o j a b, In o (ckids c) -> In j (ckids c) -> ~ In o pre -> ~ In j pre -> inc o a -> inc j b ->
        M0 a b = M a b + lsum pre (fun q => csum q (fun x => FL a x * FU x b))
    }.

    Lemma split_order : forall pre k post, ckids c = pre ++ k :: post ->
      (forall m, In m pre -> (c_off m < c_off k)%nat) /\ (forall m, In m post -> (c_off k < c_off m)%nat) /\ ~ In k pre /\ ~ In k post /\
      (forall m, In m pre -> ~ In m post) /\ In k (ckids c) /\ (forall m, In m (ckids c) <-> In m pre \/ m = k \/ In m post) /\
      (forall m, In m (ckids c) -> (In m pre <-> (c_off m < c_off k)%nat) /\ (In m post <-> (c_off k < c_off m)%nat)).
    Proof.
      intros pre k post E. destruct (order_split parts true c pre k post Hct E) as [S1 S2]. cbn iota in S1, S2.
      assert (MM : forall m, In m (ckids c) <-> In m pre \/ m = k \/ In m post).
      { intros m. rewrite E, in_app_iff. cbn [In]. intuition congruence. }
      split; [exact S1|]. split; [exact S2|]. split; [intros Q; specialize (S1 k Q); lia|]. split; [intros Q; specialize (S2 k Q); lia|].
      split; [intros m Q1 Q2; specialize (S1 m Q1); specialize (S2 m Q2); lia|]. split; [apply MM; auto|]. split; [exact MM|].
      intros m Hm. apply MM in Hm. split; split; auto; intros L; destruct Hm as [Hm|[->|Hm]]; auto; try lia; [specialize (S2 m Hm)|specialize (S1 m Hm)]; lia.
    Qed.

    (** The sum over the first clusters. *)
    Lemma prefix_sum : forall pre k post (g : nat -> C), ckids c = pre ++ k :: post ->
      lsum pre (fun q => csum q g) = sum (c_off k - c_off c) (fun x => g (c_off c + x)%nat).
    Proof.
      intros pre k post g E. pose proof (ckids_tiles parts c Hct) as T. rewrite E in T. rewrite map_app in T. cbn [map] in T.
      assert (T1 : tiles (c_off c) (c_off k) (map interval pre)).
      { revert T. generalize (c_off c) as lo. induction pre as [|p pre IH]; intros lo T; cbn [app map] in T |- *; unfold interval in T at 1; destruct T as [T1 T2].
        - cbn [tiles]. unfold c_off. symmetry. exact T1.
        - unfold interval at 1. split; [exact T1|]. clear IH. revert T2. generalize (ci_off (ct_info p) + ci_size (ct_info p))%nat as lo'. clear. induction pre as [|p pre IH]; intros lo' T2; cbn [app map] in T2 |- *;
            unfold interval in T2 at 1; destruct T2 as [T1 T2]; [cbn [tiles]; unfold c_off; symmetry; exact T1|]. unfold interval at 1. split; [exact T1|]. apply IH, T2. }
      rewrite (csum_tiles K pre _ _ g T1). reflexivity.
    Qed.

    (** The next pivot block can be factored. *)
    Lemma next_factorable : forall pre k post G M FL FU H, blocks G H -> ckids c = pre ++ k :: post -> state pre G M FL FU ->
      factorable M (c_off k) (G k k).
    Proof.
      intros pre k post G M FL FU H HB E HSt. destruct (split_order pre k post E) as (O1 & O2 & N1 & N2 & N3 & Hk & MM & OO).
      destruct (st_rest _ _ _ _ _ HSt k k Hk Hk N1 N1) as [R1 R2]. specialize (R2 eq_refl). destruct (blocks_sub F parts i Hi Hct Hleaf G H k k HB Hk Hk) as [_ Bk].
      unfold block_of in Bk. injection Bk as B1 B2. apply (factorable_schur M0 (c_off c) (G k k) R2 M M (c_off k) R1); [congruence|]. rewrite B1. intros e He1 He2 HInj.
      pose proof (ckids_in parts c k Hct Hk) as Hin.
      assert (HP : forall p, In p pre -> In p (ckids c)) by (intros p Hp; apply MM; auto).
      assert (En : (e - c_off c = (c_off k - c_off c) + (e - c_off k))%nat) by lia. rewrite En in HInj.
      assert (Q := schur_injective (c_off k - c_off c) (e - c_off k) (fun a b => M0 (c_off c + a)%nat (c_off c + b)%nat) (fun a b => M (c_off c + a)%nat (c_off c + b)%nat)
        (fun a b => FL (c_off c + a)%nat (c_off c + b)%nat) (fun a b => FU (c_off c + a)%nat (c_off c + b)%nat)).
      cbn beta in Q.
      assert (W : forall a, (a < c_off k - c_off c + (e - c_off k))%nat -> exists o, In o (ckids c) /\ inc o (c_off c + a)%nat /\
         (In o pre /\ (a < c_off k - c_off c)%nat \/ o = k /\ (c_off k - c_off c <= a)%nat)).
      { intros a Ha. destruct (inc_kid parts c (c_off c + a)%nat Hct) as (o & Ho & Hoa); [unfold inc; lia|]. exists o. split; [exact Ho|]. split; [exact Hoa|].
        destruct (Nat.lt_ge_cases a (c_off k - c_off c)) as [L|L].
        - left. split; [|exact L]. apply OO; [exact Ho|]. unfold inc in Hoa. lia.
        - right. split; [|exact L]. apply (kid_unique parts c o k (c_off c + a)%nat); try assumption. unfold inc. lia. }
      assert (Q1 : injective (F := F) (e - c_off k) (fun a b => M (c_off c + (c_off k - c_off c + a))%nat (c_off c + (c_off k - c_off c + b))%nat)).
      { apply Q; [| |exact HInj].
        - intros a b Ha Hb. destruct (W a Ha) as (o & Ho & Hoa & Ca). destruct (W b Hb) as (j & Hj & Hjb & Cb).
          rewrite <- (prefix_sum pre k post (fun x => FL (c_off c + a)%nat x * FU x (c_off c + b)%nat) E).
          destruct Ca as [[Ca La]|[-> La]].
          + replace (c_off k - c_off c <=? a)%nat with false by (symmetry; apply Nat.leb_gt; exact La). cbn [andb].
            rewrite (st_done _ _ _ _ _ HSt o j) by auto. ring.
          + destruct Cb as [[Cb Lb]|[-> Lb]].
            * replace (c_off k - c_off c <=? b)%nat with false by (symmetry; apply Nat.leb_gt; exact Lb). rewrite andb_false_r.
              rewrite (st_done _ _ _ _ _ HSt k j) by auto. ring.
            * replace (c_off k - c_off c <=? a)%nat with true by (symmetry; apply Nat.leb_le; exact La).
              replace (c_off k - c_off c <=? b)%nat with true by (symmetry; apply Nat.leb_le; exact Lb). cbn [andb]. apply (st_schur _ _ _ _ _ HSt k k); assumption.
        - intros r. destruct (prefix_surj FU pre) with (r := fun a => r (a - c_off c)%nat) as [y Hy].
          + pose proof (ckids_nodup parts c Hct) as N. rewrite E in N. apply NoDup_remove_1 in N. clear - N. induction pre as [|p pre IH]; [constructor|].
            cbn [app] in N. apply NoDup_cons_iff in N. destruct N as [Na Nb]. constructor; [intros Q; apply Na, in_app_iff; left; exact Q|apply IH, Nb].
          + intros p q x Hp Hq. apply (kid_unique parts c); auto.
          + intros l1 q l2 El p a x Hp Ha Hx. assert (Hq : In q pre) by (rewrite El; apply in_app_iff; right; left; reflexivity).
            assert (Hp' : In p pre) by (rewrite El; apply in_app_iff; left; exact Hp).
            apply (st_zu _ _ _ _ _ HSt q p a x); auto. rewrite El, <- app_assoc in E. cbn [app] in E. destruct (split_order l1 q (l2 ++ k :: post) E) as (Z & _). apply Z, Hp.
          + intros q r' Hq. destruct (st_diag _ _ _ _ _ HSt q Hq) as [_ HU]. destruct (blocks_sub F parts i Hi Hct Hleaf G H q q HB (HP q Hq) (HP q Hq)) as [_ Bq].
            destruct (htri_surj UpU DgN FU (G q q) HU r') as [y Hy]. unfold block_of in Bq. injection Bq as Bq _. rewrite Bq in Hy. exists y. exact Hy.
          + exists (fun a => y (c_off c + a)%nat). intros a Ha. destruct (W a) as (o & Ho & Hoa & [[Ca La]|[-> La]]); [lia| |lia].
            rewrite <- (prefix_sum pre k post (fun x => FU (c_off c + a)%nat x * y x) E). rewrite (Hy o _ Ca Hoa). f_equal. lia. }
      intros x Hx. apply Q1. intros a Ha. rewrite <- (Hx a Ha). apply sum_ext. intros b Hb. do 2 f_equal; lia.
    Qed.

    Variable f : nat.
    Hypothesis Hf : (3 * cheight c <= S f)%nat.
    Hypothesis IHlu : forall M1 A, hrep M1 A -> h_s (hv A) = h_t (hv A) -> factorable M1 (c_off (h_t (hv A))) A -> (3 * cheight (h_t (hv A)) <= f)%nat ->
      exists A' FL FU, lu F recompress svd_factors parts piv f A = Some A' /\ (block_of A' = block_of A /\ h_sym (hv A') = h_sym (hv A) /\ h_uplo (hv A') = h_uplo (hv A)) /\ htri UpL DgU FL A' /\ htri UpU DgN FU A' /\
        forall a b, inc (h_t (hv A)) a -> inc (h_t (hv A)) b -> M1 a b = csum (h_t (hv A)) (fun x => FL a x * FU x b).

    Definition step (k : ctree) (H : hmat) : option hmat :=
      do H1 <- on_sub F H k k (lu F recompress svd_factors parts piv f);
      do H2 <- fold_o (fun o H =>
        if c_off k <? c_off o then
          do P <- sub K H k k;
          do H' <- on_sub F H k o (hh_solve F recompress svd_factors parts f SdL UpL TrN DgU 1 P);
          on_sub F H' o k (hh_solve F recompress svd_factors parts f SdR UpU TrN DgN 1 P)
        else Some H) (ckids c) H1;
      fold_o (fun oi H =>
        if (c_off k <? c_off (fst oi)) && (c_off k <? c_off (snd oi)) then
          do U <- sub K H k (snd oi);
          do L <- sub K H (fst oi) k;
          on_sub F H (fst oi) (snd oi) (hh_h K recompress svd_factors parts f TrN TrN (copp K 1) L U 1)
        else Some H) (pairs_of (ckids c) (ckids c)) H2.

    Lemma step_ok : forall pre k post G M FL FU H, blocks G H -> ckids c = pre ++ k :: post -> state pre G M FL FU ->
      exists H' G' M' FL' FU', step k H = Some H' /\ blocks G' H' /\ state (pre ++ [k]) G' M' FL' FU'.
    Proof.
      intros pre k post G M FL FU H HB E HSt. destruct (split_order pre k post E) as (O1 & O2 & N1 & N2 & N3 & Hk & MM & OO).
      pose proof (next_factorable pre k post G M FL FU H HB E HSt) as HFk.
      destruct (blocks_sub F parts i Hi Hct Hleaf G H k k HB Hk Hk) as [_ Bk]. pose proof Bk as Bk'. unfold block_of in Bk'. injection Bk' as B1 B2.
      destruct (st_rest _ _ _ _ _ HSt k k Hk Hk N1 N1) as [R1 _].
      destruct (IHlu M (G k k) R1) as (P & FLk & FUk & E1 & [E2 _] & E3 & E4 & E5); [congruence|rewrite B1; exact HFk|rewrite B1; pose proof (cheight_kid c k Hleaf Hk); lia|]. rewrite B1 in E5.
      destruct (blocks_on F parts i Hi Hct Hleaf G H k k _ P HB Hk Hk E1) as (H1 & F1 & C1); [congruence|].
      assert (PN : forall o, In o (ckids c) -> (c_off k < c_off o)%nat -> In o post) by (intros o Ho L; apply OO; assumption).
      assert (PP : forall o, In o post -> ~ In o pre) by (intros o Ho Q; exact (N3 o Q Ho)).
      destruct (solves_phase i Hi Hct Hleaf k Hk f Hf M FLk FUk (gset F G k k P) H1 C1) as (H2 & G2 & F2 & C2 & D2 & U2).
      { rewrite gset_same. exact E3. }
      { rewrite gset_same. exact E4. }
      { intros o Ho L. assert (o <> k) by (intros ->; lia). rewrite !(gset_other F parts i Hct) by (try assumption; congruence).
        split; apply (st_rest _ _ _ _ _ HSt); auto. }
      assert (DJ : forall p q x, In p post -> In q post -> inc p x -> inc q x -> p = q) by (intros p q x Hp Hq; apply (kid_unique parts c); [exact Hct|apply MM; auto|apply MM; auto]).
      assert (NDp : NoDup post). { pose proof (ckids_nodup parts c Hct) as N. rewrite E in N. apply NoDup_remove_1 in N. clear - N. induction pre as [|p pre IH]; [exact N|]. cbn [app] in N. apply NoDup_cons_iff in N. apply IH, N. }
      destruct (collect post (fun o X => hrep (fun a b => X b a) (G2 k o) /\ solves (F:=F) SdL TrN FLk 1 k o M (fun a b => X b a)) NDp DJ) as [XUt HXU].
      { intros o Ho. destruct (D2 o) as [(X & X1 & X2) _]; [apply MM; auto|apply O2, Ho|]. exists (fun a b => X b a). split; assumption. }
      { intros o X X' Ho EX [X1 X2]. destruct (blocks_sub F parts i Hi Hct Hleaf G2 H2 k o C2 Hk) as [_ Bo]; [apply MM; auto|]. unfold block_of in Bo. injection Bo as Bo1 Bo2. split.
        - eapply hrep_ext; [exact X1|]. intros a b _ Hb. apply inc_iv in Hb. rewrite Bo2 in Hb. apply EX, Hb.
        - unfold solves in *. intros a b Ha Hb. rewrite <- (X2 a b Ha Hb). apply (csum_inc F). intros x Hx. rewrite (EX b x Hb). reflexivity. }
      destruct (collect post (fun o X => hrep X (G2 o k) /\ solves (F:=F) SdR TrN FUk 1 k o M X) NDp DJ) as [XL HXL].
      { intros o Ho. destruct (D2 o) as [_ (X & X1 & X2)]; [apply MM; auto|apply O2, Ho|]. exists X. split; assumption. }
      { intros o X X' Ho EX [X1 X2]. destruct (blocks_sub F parts i Hi Hct Hleaf G2 H2 o k C2) as [_ Bo]; [apply MM; auto|exact Hk|]. unfold block_of in Bo. injection Bo as Bo1 Bo2. split.
        - eapply hrep_ext; [exact X1|]. intros a b Ha _. apply inc_iv in Ha. rewrite Bo1 in Ha. apply EX, Ha.
        - unfold solves in *. intros a b Ha Hb. rewrite <- (X2 a b Ha Hb). apply (csum_inc F). intros x Hx. rewrite (EX a x Ha). reflexivity. }
      set (XU := fun a b => XUt b a) in *.
      destruct (update_phase i Hi Hct Hleaf k Hk f Hf M XL XU G2 H2 C2) as (H3 & G3 & F3 & C3 & D3 & U3).
      { intros o Ho L. split; [apply HXU|apply HXL]; apply PN; assumption. }
      { intros o j Ho Hj Lo Lj. assert (o <> k) by (intros ->; lia). assert (j <> k) by (intros ->; lia). rewrite U2 by (try assumption; congruence).
        rewrite (gset_other F parts i Hct) by (try assumption; congruence). apply (st_rest _ _ _ _ _ HSt); auto. }
      (* the new functions *)
      set (FL' := fun a b => if inc_dec k b then (if inc_dec k a then FLk a b else if (a <? c_off k)%nat then 0 else XL a b) else FL a b).
      set (FU' := fun a b => if inc_dec k a then (if inc_dec k b then FUk a b else if (b <? c_off k)%nat then 0 else XU a b) else FU a b).
      set (M' := fun a b => M a b + copp K 1 * csum k (fun x => XL a x * XU x b)).
      assert (Nin : forall o x, In o (ckids c) -> o <> k -> inc o x -> ~ inc k x) by (intros o x Ho Hn Hx Q; apply Hn; apply (kid_unique parts c o k x); assumption).
      assert (FLo : forall a b j, In j (ckids c) -> j <> k -> inc j b -> FL' a b = FL a b).
      { intros a b j Hj Hn Hb. unfold FL'. destruct (inc_dec k b) as [Q|_]; [exfalso; exact (Nin j b Hj Hn Hb Q)|reflexivity]. }
      assert (FUo : forall a b o, In o (ckids c) -> o <> k -> inc o a -> FU' a b = FU a b).
      { intros a b o Ho Hn Ha. unfold FU'. destruct (inc_dec k a) as [Q|_]; [exfalso; exact (Nin o a Ho Hn Ha Q)|reflexivity]. }
      assert (FLkk : forall a b, inc k a -> inc k b -> FL' a b = FLk a b).
      { intros a b Ha Hb. unfold FL'. destruct (inc_dec k b); [|contradiction]. destruct (inc_dec k a); [reflexivity|contradiction]. }
      assert (FUkk : forall a b, inc k a -> inc k b -> FU' a b = FUk a b).
      { intros a b Ha Hb. unfold FU'. destruct (inc_dec k a); [|contradiction]. destruct (inc_dec k b); [reflexivity|contradiction]. }
      assert (FLz : forall o a b, In o pre -> inc o a -> inc k b -> FL' a b = 0).
      { intros o a b Ho Ha Hb. assert (Hoc : In o (ckids c)) by (apply MM; auto). unfold FL'. destruct (inc_dec k b); [|contradiction]. destruct (inc_dec k a) as [Q|_].
        - exfalso. apply (Nin o a); try assumption. intros ->. contradiction.
        - replace (a <? c_off k)%nat with true; [reflexivity|]. symmetry. apply Nat.ltb_lt. apply (kid_lt parts c o k a (c_off k)); try assumption; [apply O1, Ho|].
          unfold inc. pose proof (ct_size parts k (ckids_ct parts c k Hct Hk)). lia. }
      assert (FUz : forall j a b, In j pre -> inc k a -> inc j b -> FU' a b = 0).
      { intros j a b Hj Ha Hb. assert (Hjc : In j (ckids c)) by (apply MM; auto). unfold FU'. destruct (inc_dec k a); [|contradiction]. destruct (inc_dec k b) as [Q|_].
        - exfalso. apply (Nin j b); try assumption. intros ->. contradiction.
        - replace (b <? c_off k)%nat with true; [reflexivity|]. symmetry. apply Nat.ltb_lt. apply (kid_lt parts c j k b (c_off k)); try assumption; [apply O1, Hj|].
          unfold inc. pose proof (ct_size parts k (ckids_ct parts c k Hct Hk)). lia. }
      assert (FLx : forall o a b, In o post -> inc o a -> inc k b -> FL' a b = XL a b).
      { intros o a b Ho Ha Hb. assert (Hoc : In o (ckids c)) by (apply MM; auto). unfold FL'. destruct (inc_dec k b); [|contradiction]. destruct (inc_dec k a) as [Q|_].
        - exfalso. apply (Nin o a); try assumption. intros ->. contradiction.
        - replace (a <? c_off k)%nat with false; [reflexivity|]. symmetry. apply Nat.ltb_ge. specialize (O2 o Ho). unfold inc in Ha. lia. }
      assert (FUx : forall j a b, In j post -> inc k a -> inc j b -> FU' a b = XU a b).
      { intros j a b Hj Ha Hb. assert (Hjc : In j (ckids c)) by (apply MM; auto). unfold FU'. destruct (inc_dec k a); [|contradiction]. destruct (inc_dec k b) as [Q|_].
        - exfalso. apply (Nin j b); try assumption. intros ->. contradiction.
        - replace (b <? c_off k)%nat with false; [reflexivity|]. symmetry. apply Nat.ltb_ge. specialize (O2 j Hj). unfold inc in Hb. lia. }
      assert (Pk : forall q, In q pre -> In q (ckids c) /\ q <> k) by (intros q Hq; split; [apply MM; auto|intros ->; contradiction]).
      assert (SUM : forall a b, lsum (pre ++ [k]) (fun q => csum q (fun x => FL' a x * FU' x b)) =
                     lsum pre (fun q => csum q (fun x => FL a x * FU x b)) + csum k (fun x => FL' a x * FU' x b)).
      { intros a b. rewrite lsum_app. cbn [lsum]. rewrite (lsum_ext K _ pre (fun q => csum q (fun x => FL' a x * FU' x b)) (fun q => csum q (fun x => FL a x * FU x b))).
        - ring.
        - intros q Hq. destruct (Pk q Hq) as [Q1 Q2]. apply (csum_inc F). intros x Hx. rewrite (FLo a x q), (FUo x b q) by assumption. reflexivity. }
      assert (Gpre : forall o j, In o (ckids c) -> In j (ckids c) -> In o pre \/ In j pre -> G3 o j = G o j).
      { intros o j Ho Hj Q. assert (NN : ~ ((c_off k < c_off o)%nat /\ (c_off k < c_off j)%nat)) by (intros [L1 L2]; destruct Q as [Q|Q]; specialize (O1 _ Q); lia).
        assert (QK : o = k -> In j pre). { intros ->. destruct Q; [contradiction|assumption]. } assert (QK' : j = k -> In o pre). { intros ->. destruct Q; [assumption|contradiction]. }
        rewrite U3 by assumption. rewrite U2; try assumption.
        - apply (gset_other F parts i Hct); try assumption. intros Z. injection Z as -> ->. apply N1, QK. reflexivity.
        - intros Z L. specialize (QK Z). specialize (O1 _ QK). lia.
        - intros Z L. specialize (QK' Z). specialize (O1 _ QK'). lia. }
      assert (Gkk : G3 k k = P). { rewrite U3 by (try assumption; lia). rewrite U2 by (try assumption; lia). apply gset_same. }
      exists H3, G3, M', FL', FU'. split; [|split; [exact C3|]].
      { unfold step. rewrite F1, F2. exact F3. }
      assert (DEC : forall m, In m (ckids c) -> In m pre \/ ~ In m pre).
      { intros m Hm. destruct (OO m Hm) as [Om _]. destruct (Nat.lt_ge_cases (c_off m) (c_off k)) as [L|L]; [left; apply Om, L|right; intros Q; apply Om in Q; lia]. }
      constructor.
      - (* diagonal *)
        intros q Hq. apply in_app_iff in Hq. destruct Hq as [Hq|[<-|[]]].
        + destruct (Pk q Hq) as [Q1 Q2]. rewrite Gpre by auto. destruct (st_diag _ _ _ _ _ HSt q Hq) as [X1 X2].
          destruct (blocks_sub F parts i Hi Hct Hleaf G H q q HB Q1 Q1) as [_ Bq]. unfold block_of in Bq. injection Bq as Bq _.
          split; (eapply htri_ext; [eassumption|]); rewrite Bq; intros a b Ha Hb; symmetry; [apply (FLo a b q)|apply (FUo a b q)]; assumption.
        + rewrite Gkk. assert (Bp : h_t (hv P) = k) by (unfold block_of in E2; congruence).
          split; (eapply htri_ext; [eassumption|]); rewrite Bp; intros a b Ha Hb; symmetry; [apply FLkk|apply FUkk]; assumption.
      - (* low *)
        intros o j Ho Hj L. apply in_app_iff in Hj. destruct Hj as [Hj|[<-|[]]].
        + destruct (Pk j Hj) as [Q1 Q2]. rewrite Gpre by auto. eapply hrep_ext; [exact (st_low _ _ _ _ _ HSt o j Ho Hj L)|].
          destruct (blocks_sub F parts i Hi Hct Hleaf G H o j HB Ho Q1) as [_ Bq]. unfold block_of in Bq. injection Bq as Bq1 Bq2. intros a b _ Hb. apply inc_iv in Hb. rewrite Bq2 in Hb.
          symmetry. apply (FLo a b j); assumption.
        + rewrite U3 by (try assumption; lia). pose proof (PN o Ho L) as Hop. destruct (HXL o Hop) as [X1 _]. eapply hrep_ext; [exact X1|].
          destruct (blocks_sub F parts i Hi Hct Hleaf G2 H2 o k C2 Ho Hk) as [_ Bq]. unfold block_of in Bq. injection Bq as Bq1 Bq2. rewrite Bq1, Bq2. intros a b Ha Hb. apply inc_iv in Ha, Hb.
          symmetry. apply (FLx o); assumption.
      - (* up *)
        intros o j Ho Hj L. apply in_app_iff in Ho. destruct Ho as [Ho|[<-|[]]].
        + destruct (Pk o Ho) as [Q1 Q2]. rewrite Gpre by auto. eapply hrep_ext; [exact (st_up _ _ _ _ _ HSt o j Ho Hj L)|].
          destruct (blocks_sub F parts i Hi Hct Hleaf G H o j HB Q1 Hj) as [_ Bq]. unfold block_of in Bq. injection Bq as Bq1 Bq2. intros a b Ha _. apply inc_iv in Ha. rewrite Bq1 in Ha.
          symmetry. apply (FUo a b o); assumption.
        + rewrite U3 by (try assumption; lia). pose proof (PN j Hj L) as Hjp. destruct (HXU j Hjp) as [X1 _]. eapply hrep_ext; [exact X1|].
          destruct (blocks_sub F parts i Hi Hct Hleaf G2 H2 k j C2 Hk Hj) as [_ Bq]. unfold block_of in Bq. injection Bq as Bq1 Bq2. rewrite Bq1, Bq2. intros a b Ha Hb. apply inc_iv in Ha, Hb.
          symmetry. apply (FUx j); assumption.
      - (* rest *)
        intros o j Ho Hj No Nj. rewrite in_app_iff in No, Nj.
        assert (Po : In o post). { apply MM in Ho. destruct Ho as [Q|[Q|Q]]; [tauto|exfalso; apply No; right; left; congruence|exact Q]. }
        assert (Pj : In j post). { apply MM in Hj. destruct Hj as [Q|[Q|Q]]; [tauto|exfalso; apply Nj; right; left; congruence|exact Q]. }
        assert (Lo := O2 o Po). assert (Lj := O2 j Pj). pose proof (D3 o j Ho Hj Lo Lj) as UU.
        assert (ne1 : o <> k) by (intros ->; contradiction). assert (ne2 : j <> k) by (intros ->; contradiction).
        assert (EG : G2 o j = G o j). { rewrite U2 by (try assumption; congruence). apply (gset_other F parts i Hct); try assumption. congruence. } rewrite EG in UU.
        destruct (st_rest _ _ _ _ _ HSt o j Ho Hj) as [X1 X2]; [tauto|tauto|]. split; [exact (hrep_upd K parts M _ X1 _ _ UU)|].
        intros Q. exact (factorable_upd M0 _ _ (X2 Q) _ _ UU).
      - (* zero, L *)
        intros o j a b Ho Hj L Ha Hb. apply in_app_iff in Hj. destruct Hj as [Hj|[<-|[]]].
        + destruct (Pk j Hj) as [Q1 Q2]. rewrite (FLo a b j) by assumption. exact (st_zl _ _ _ _ _ HSt o j a b Ho Hj L Ha Hb).
        + apply (FLz o); try assumption. apply OO; assumption.
      - (* zero, U *)
        intros o j a b Ho Hj L Ha Hb. apply in_app_iff in Ho. destruct Ho as [Ho|[<-|[]]].
        + destruct (Pk o Ho) as [Q1 Q2]. rewrite (FUo a b o) by assumption. exact (st_zu _ _ _ _ _ HSt o j a b Ho Hj L Ha Hb).
        + apply (FUz j); try assumption. apply OO; assumption.
      - (* finished *)
        intros o j a b Ho Hj Q Ha Hb. rewrite SUM. rewrite !in_app_iff in Q.
        destruct (DEC o Ho) as [Po|No]; [|destruct (DEC j Hj) as [Pj|Nj]].
        + rewrite (st_done _ _ _ _ _ HSt o j a b) by auto. rewrite (csum_0 F k); [ring|]. intros x Hx. rewrite (FLz o a x) by assumption. ring.
        + rewrite (st_done _ _ _ _ _ HSt o j a b) by auto. rewrite (csum_0 F k); [ring|]. intros x Hx. rewrite (FUz j x b) by assumption. ring.
        + rewrite (st_schur _ _ _ _ _ HSt o j a b Ho Hj No Nj Ha Hb). enough (EM : M a b = csum k (fun x => FL' a x * FU' x b)) by (rewrite EM; ring).
          assert (Co : o = k \/ In o post) by (apply MM in Ho; tauto). assert (Cj : j = k \/ In j post) by (apply MM in Hj; tauto).
          destruct Co as [->|Po]; [destruct Cj as [->|Pj]|].
          * rewrite (E5 a b Ha Hb). apply (csum_inc F). intros x Hx. rewrite FLkk, FUkk by assumption. reflexivity.
          * destruct (HXU j Pj) as [_ X2]. cbn [solves op_fun] in X2. transitivity (1 * M a b); [ring|]. rewrite <- (X2 a b Ha Hb). apply (csum_inc F). intros x Hx.
            rewrite FLkk by assumption. rewrite (FUx j) by assumption. reflexivity.
          * destruct Cj as [->|Pj]; [|exfalso; destruct Q as [[Q|[Q|[]]]|[Q|[Q|[]]]]; [contradiction|subst; contradiction|contradiction|subst; contradiction]].
            destruct (HXL o Po) as [_ X2]. cbn [solves op_fun] in X2. transitivity (1 * M a b); [ring|]. rewrite <- (X2 a b Ha Hb). apply (csum_inc F). intros x Hx.
            rewrite FUkk by assumption. rewrite (FLx o) by assumption. reflexivity.
      - (* Schur complement *)
        intros o j a b Ho Hj No Nj Ha Hb. rewrite SUM. rewrite in_app_iff in No, Nj.
        assert (Po : In o post). { apply MM in Ho. destruct Ho as [Q|[Q|Q]]; [tauto|exfalso; apply No; right; left; congruence|exact Q]. }
        assert (Pj : In j post). { apply MM in Hj. destruct Hj as [Q|[Q|Q]]; [tauto|exfalso; apply Nj; right; left; congruence|exact Q]. }
        rewrite (st_schur _ _ _ _ _ HSt o j a b Ho Hj) by tauto. unfold M'.
        rewrite (csum_inc F k (fun x => FL' a x * FU' x b) (fun x => XL a x * XU x b)); [ring|]. intros x Hx. rewrite (FLx o), (FUx j) by assumption. reflexivity.
    Qed.
  End Loop.

  Theorem lu_factorization_ok : forall fuel M0 (A : hmat), hrep M0 A -> h_s (hv A) = h_t (hv A) -> factorable M0 (c_off (h_t (hv A))) A -> (3 * cheight (h_t (hv A)) <= fuel)%nat ->
    exists A' FL FU, lu F recompress svd_factors parts piv fuel A = Some A' /\ (block_of A' = block_of A /\ h_sym (hv A') = h_sym (hv A) /\ h_uplo (hv A') = h_uplo (hv A)) /\ htri UpL DgU FL A' /\ htri UpU DgN FU A' /\
      forall a b, inc (h_t (hv A)) a -> inc (h_t (hv A)) b -> M0 a b = csum (h_t (hv A)) (fun x => FL a x * FU x b).
  Proof.
    induction fuel as [|f IH]; intros M0 A HM HS HF Hf; [pose proof (cheight_pos (h_t (hv A))); lia|].
    destruct (hrep_ct K parts M0 A HM) as [Hct _]. pose proof (ct_size parts _ Hct) as Hsz. cbn [lu]. destruct (h_data (hv A)) as [|D|L] eqn:ED.
    - (* hierarchical *)
      destruct (hrep_node_inv K parts M0 A HM ED) as (HL & HP & HC). rewrite HS, andb_diag in HL.
      assert (EK : kids parts (above (h_t (hv A)) || above (h_s (hv A))) (h_t (hv A)) = ckids (h_t (hv A))) by (apply kids_eq; [exact Hct|]; rewrite HS, orb_diag; reflexivity).
      rewrite EK. set (i := hv A) in *. assert (Hi : h_t i = h_s i) by congruence.
      set (G := fun o j => match sub K A o j with Some x => x | None => A end).
      assert (HG : blocks F i G A).
      { exists (rt_children A). split; [destruct A; reflexivity|]. split; [rewrite HS in HP; exact HP|]. intros x o j Hx Hb. unfold G.
        assert (Hbk : In (o, j) (list_prod (ckids (h_t i)) (ckids (h_s i)))) by (eapply Permutation_in; [exact HP|]; rewrite <- Hb; apply in_map, Hx).
        apply in_prod_iff in Hbk. destruct Hbk as [Ho Hj]. destruct (hrep_child K parts M0 A o j HM ED Ho Hj) as (n & y & Hn & Hby & _ & _ & -> & _).
        apply In_nth_error in Hx. destruct Hx as [m Hm]. assert (E : m = n).
        { apply (unique_index K (rt_children A) m n x y); try assumption; [|congruence]. eapply Permutation_NoDup; [apply Permutation_sym, HP|]. apply prod_nodup with parts; [|rewrite HS]; assumption. }
        congruence. }
      destruct (fold_o_inv (step i f) (fun pre H => exists G M FL FU, blocks F i G H /\ state i M0 pre G M FL FU) (ckids (h_t i))) with (b := A) as (A' & E & G' & M & FL & FU & B' & ST).
      + intros pre k post H El (G1 & M & FL & FU & B1 & ST). destruct (step_ok i Hi Hct HL M0 f Hf) with (pre := pre) (k := k) (post := post) (G := G1) (M := M) (FL := FL) (FU := FU) (H := H)
          as (H' & G' & M' & FL' & FU' & E1 & E2 & E3); try assumption.
        exists H'. split; [exact E1|]. exists G', M', FL', FU'. split; assumption.
      + exists G, M0, (fun _ _ => 0), (fun _ _ => 0). split; [exact HG|]. constructor; try (intros; contradiction); try (intros; reflexivity).
        * intros o j Ho Hj _ _. unfold G. destruct (hrep_child K parts M0 A o j HM ED Ho) as (n & y & Hn & Hby & Hy & _ & -> & _); [change (hv A) with i; rewrite <- Hi; exact Hj|].
          split; [exact Hy|]. intros ->. inversion HF as [i' D Q1 Q2|i' cs Q1 Q2]; subst; cbn [rt_val] in *; [exfalso; unfold i in ED; cbn [rt_val] in ED; congruence|]. apply (Q2 y j); [eapply nth_error_In, Hn|exact Hby].
        * intros o j a b _ _ [[]|[]].
        * intros. cbn [lsum]. ring.
      + exists A', FL, FU. split; [exact E|]. destruct B' as (cs & -> & HP' & HG'). split; [split; [|split]; reflexivity|].
        assert (Bs : forall o j, In o (ckids (h_t i)) -> In j (ckids (h_t i)) -> In (o, j) (map block_of cs)) by (intros o j Ho Hj; eapply Permutation_in; [apply Permutation_sym, HP'|]; apply in_prod; assumption).
        assert (BK : forall x o j, In x cs -> block_of x = (o, j) -> In o (ckids (h_t i)) /\ In j (ckids (h_t i))).
        { intros x o j Hx Hb. apply in_prod_iff. rewrite <- Hb. eapply Permutation_in; [exact HP'|]. apply in_map, Hx. }
        assert (ND : NoDup (map block_of cs)) by (eapply Permutation_NoDup; [apply Permutation_sym, HP'|]; apply prod_nodup with parts; assumption).
        split; [|split].
        * apply htri_node; try assumption; auto.
          -- intros p Hp. eapply Permutation_in; eassumption.
          -- intros x k Hx Hb. rewrite (HG' x k k Hx Hb). apply (st_diag _ _ _ _ _ _ _ ST). apply (BK x k k Hx Hb).
          -- intros x o j Hx Hb Hs. rewrite (HG' x o j Hx Hb). destruct (BK x o j Hx Hb) as [B1 B2]. apply (st_low _ _ _ _ _ _ _ ST); assumption.
          -- intros o j a b Ho Hj Hs. apply (st_zl _ _ _ _ _ _ _ ST); assumption.
        * apply htri_node; try assumption; auto.
          -- intros p Hp. eapply Permutation_in; eassumption.
          -- intros x k Hx Hb. rewrite (HG' x k k Hx Hb). apply (st_diag _ _ _ _ _ _ _ ST). apply (BK x k k Hx Hb).
          -- intros x o j Hx Hb Hs. rewrite (HG' x o j Hx Hb). destruct (BK x o j Hx Hb) as [B1 B2]. apply (st_up _ _ _ _ _ _ _ ST); assumption.
          -- intros o j a b Ho Hj Hs. apply (st_zu _ _ _ _ _ _ _ ST); assumption.
        * intros a b Ha Hb. destruct (inc_kid parts _ a Hct Ha) as (o & Ho & Hoa). destruct (inc_kid parts _ b Hct Hb) as (j & Hj & Hjb).
          rewrite (csum_kids K parts (h_t i) _ Hct). apply (st_done _ _ _ _ _ _ _ ST o j); auto.
    - (* a dense leaf *)
      destruct (hrep_leaf_inv K parts M0 A HM) as (Ech & WL & EV); [congruence|]. unfold leaf_ok in WL. rewrite ED, HS in WL. unfold stored in EV. rewrite ED, HS in EV.
      assert (HI : injective (F:=F) (c_size (h_t (hv A))) (me D)).
      { inversion HF as [i' D' Q1 Q2|i' cs Q1 Q2]; subst; cbn [rt_val] in *; [|congruence]. replace (c_off (h_t i') + c_size (h_t i') - c_off (h_t i'))%nat with (c_size (h_t i')) in Q2 by lia.
        intros x Hx. apply Q2. intros a Ha. rewrite <- (Hx a Ha). apply sum_ext. intros b Hb. rewrite EV by assumption. reflexivity. }
      destruct (lu_ok F piv HPiv (c_size (h_t (hv A))) D Hsz WL) as (B & E1 & E2 & E3 & E4). rewrite E1.
      pose proof (lu_diag F (c_size (h_t (hv A))) (me D) _ B HI E4) as DG.
      set (c := h_t (hv A)) in *.
      exists (with_hdata K A (DDense B)), (fun a b => factor UpL DgU B (a - c_off c)%nat (b - c_off c)%nat), (fun a b => factor UpU DgN B (a - c_off c)%nat (b - c_off c)%nat).
      split; [reflexivity|]. split; [split; [|split]; reflexivity|]. unfold with_hdata. rewrite Ech.
      split; [|split].
      + apply htri_leaf with B; cbn [set_data h_data h_t h_s]; auto; try congruence. intros a b Ha Hb. fold c. f_equal; lia.
      + apply htri_leaf with B; cbn [set_data h_data h_t h_s]; auto. intros a b Ha Hb. fold c. f_equal; lia.
      + intros a b Ha Hb. unfold inc in Ha, Hb. rewrite csum_local. replace a with (c_off c + (a - c_off c))%nat at 1 by lia. replace b with (c_off c + (b - c_off c))%nat at 1 by lia.
        rewrite <- EV by lia. rewrite E4 by lia. apply sum_ext. intros x Hx. replace (c_off c + x - c_off c)%nat with x by lia. reflexivity.
    - exfalso. inversion HF as [i' D' Q1 Q2|i' cs Q1 Q2]; subst; cbn [rt_val] in *; congruence.
  Qed.
End LU.
