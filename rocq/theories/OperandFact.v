(** * Built trees can be factored: proofs. *)

From Coq Require Import List Arith ZArith Bool Permutation Lia.
From Verif Require Import ClusterModel ClusterSpec ClusterProofs ClusterFinal IOModel IOSpec BlockModel BlockSpec BlockProofs BlockFinal BlockSym BlockLink
  Algebra Field BlasModel HMatModel HMatSpec HMatBuild ArithModel ArithSpec ArithTree ArithDest DenseSpec HFactModel HFactSpec HFactChol OperandSpec OperandProofs.
Import ListNotations.

Notation ctree_ok := ArithSpec.cluster_tree.

Lemma filter_prod : forall A D (f : A -> D -> bool) l l', concat (map (fun k => map (fun j => (k, j)) (filter (f k) l')) l) = filter (fun p => f (fst p) (snd p)) (list_prod l l').
Proof.
  intros A D f l l'. induction l as [|a l IH]; [reflexivity|]. cbn [map concat list_prod]. rewrite filter_app, IH. f_equal.
  clear. induction l' as [|b l' IH]; [reflexivity|]. cbn [map filter fst snd]. destruct (f a b); cbn [map]; rewrite IH; reflexivity.
Qed.

Section Fact.
  Variable F : Fld.
  Notation K := (fk F).
  Notation C := (car K).
  Variable sy : symc.
  Variable B : bbuild.
  Variable gen : nat -> nat -> C.
  Variable compress : ctree -> ctree -> lrm K.
  Variable parts : ctree -> list ctree.
  Notation hf := (hfill K sy B gen compress).
  Notation hl := (hleaf K sy B gen compress).
  Notation ct := (ctree_ok parts).
  Hypothesis Htp : bb_tpart B = None.
  Hypothesis Hcons : bb_cons B = true.
  Hypothesis Hco : compress_ok K compress.
  Hypothesis Hpos : positive_ranks compress.

  Lemma size_pos : forall t, ct t -> forall u, In u (ct_nodes t) -> 1 <= c_size u.
  Proof. intros t Ht u Hu. pose proof (ctree_node parts t Ht u Hu) as Q. inversion Q; subst. assumption. Qed.
  Lemma kids_tile : forall t, ct t -> is_leaf t = false -> tiles (c_off t) (c_off t + c_size t) (map interval (ct_children t)).
  Proof. intros t Ht L. inversion Ht as [i cs H1 H2 H3 H4 H5 H6]; subst. apply H2. intros ->. discriminate. Qed.
  Lemma node_range : forall t, ct t -> forall u, In u (ct_nodes t) -> c_off t <= c_off u /\ c_off u + c_size u <= c_off t + c_size t.
  Proof.
    induction t as [c ts IH] using ctree_ind'. intros Ht u Hu. destruct (In_nodes_inv _ _ _ Hu) as [->|(k & Hk & Hu')]; [lia|].
    pose proof (IH k Hk (ctree_kid parts _ k Ht Hk) u Hu') as Q.
    assert (L : is_leaf (CNode c ts) = false) by (unfold is_leaf; cbn; destruct ts; [destruct Hk|reflexivity]).
    pose proof (tiles_in _ _ _ k (kids_tile _ Ht L) Hk). lia.
  Qed.

  (** ** LU: the blocks of the diagonal are dense *)
  Lemma build_factorable : forall M first fuel t b, ct t -> plain B t t -> (forall u, In u (ct_nodes t) -> bb_adm B u u = false) ->
    (forall u, In u (ct_leaves t) -> injective (F := F) (c_off u + c_size u - first) (fun x y => M (first + x) (first + y))) ->
    build_block_tree B fuel t t = Some b -> factorable M first (hf b).
  Proof.
    intros M first. induction fuel as [|fuel IH]; intros t b Ht Hpl Had Hin HB; [discriminate|]. cbn [build_block_tree] in HB.
    destruct (branch B t t) as [k|l] eqn:Eb.
    - injection HB as <-. unfold branch, low_rank_task in Eb. rewrite (Had t (In_nodes_root t)) in Eb. cbn [andb] in Eb. rewrite Bool.andb_diag in Eb.
      destruct (is_leaf t) eqn:Et.
      + injection Eb as <-. cbn [hfill map]. eapply factorable_leaf; [reflexivity|]. cbn [h_t b_t]. apply Hin. apply filter_In. split; [apply In_nodes_root|exact Et].
      + rewrite Hcons in Eb. destruct ((c_rank t <? 0)%Z && (0 <=? c_rank t)%Z); discriminate.
    - destruct (branch_children B parts Htp Hcons t t l Ht Ht Hpl eq_refl Eb) as [HL El].
      destruct (omap (fun ts => build_block_tree B fuel (fst ts) (snd ts)) l) as [bs|] eqn:Eo; [|discriminate]. injection HB as <-. apply omap_all in Eo.
      cbn [hfill]. apply factorable_node; [reflexivity|]. intros c' k Hc' Hk. apply in_map_iff in Hc'. destruct Hc' as (c & <- & Hc). rewrite hf_block in Hk. injection Hk as K1 K2.
      assert (Q : exists p, In p l /\ build_block_tree B fuel (fst p) (snd p) = Some c).
      { clear - Eo Hc. induction Eo as [|p d l bs H1 H2 IH2]; [destruct Hc|]. destruct Hc as [<-|Hc]; [exists p; split; [left; reflexivity|exact H1]|].
        destruct (IH2 Hc) as (p' & P1 & P2). exists p'. split; [right; exact P1|exact P2]. }
      destruct Q as ([t' s'] & P1 & P2). cbn [fst snd] in P2. destruct (block_clusters B _ _ _ _ P2) as (E1 & E2 & _). rewrite K1 in E1. rewrite K2 in E2. subst t' s'.
      rewrite El in P1. apply in_prod_iff in P1. destruct P1 as [P1 _]. rewrite Bool.andb_diag in HL. rewrite (ckids_children t HL) in P1.
      assert (NK : forall u, In u (ct_nodes k) -> In u (ct_nodes t)) by (intros u Hu; eapply nodes_trans; [apply nodes_kid; exact P1|exact Hu]).
      apply (IH k c (ctree_kid parts t k Ht P1)); [intros u v Hu Hv; apply Hpl; apply NK; assumption|intros u Hu; apply Had, NK, Hu| |exact P2].
      intros u Hu. apply Hin. apply filter_In in Hu. apply filter_In. split; [apply NK, Hu|apply Hu].
  Qed.

  (** ** Cholesky: symmetric storage *)
  Lemma removed_side : forall t s, bb_qpart B = None -> bb_uplo B <> UpN ->
    removed B t s = match bb_uplo B with UpU => c_off s + c_size s <=? c_off t | _ => c_off t + c_size t <=? c_off s end.
  Proof. intros t s Hq Hu. unfold removed. rewrite Hq. destruct (bb_uplo B); [congruence| |]; apply andb_true_r. Qed.

  Lemma build_hsym : forall M fuel t b, bb_qpart B = None -> bb_uplo B <> UpN -> ct t -> (forall u, In u (ct_nodes t) -> bb_adm B u u = false) ->
    build_block_tree B fuel t t = Some b ->
    (forall x, In x (rleaves b) -> forall i j, i < c_size (b_t x) -> j < c_size (b_s x) -> stored (hl x) i j = M (c_off (b_t x) + i) (c_off (b_s x) + j)) ->
    hsym parts (bb_uplo B) M (hf b).
  Proof.
    intros M fuel t b Hq Hu. revert t b. induction fuel as [|fuel IH]; intros t b Ht Had HB HM; [discriminate|]. cbn [build_block_tree] in HB.
    assert (BR : branch B t t = if is_leaf t then inl TDense else inr (filter (fun p => negb (removed B (fst p) (snd p))) (list_prod (ckids t) (ckids t)))).
    { unfold branch, low_rank_task. rewrite (Had t (In_nodes_root t)). cbn [andb]. rewrite Bool.andb_diag. destruct (is_leaf t) eqn:Et; [reflexivity|]. rewrite Hcons.
      destruct (Z.ltb_spec (c_rank t) 0) as [Q1|Q1], (Z.leb_spec 0 (c_rank t)) as [Q2|Q2]; try lia; cbn [andb];
        (rewrite (ckids_children t Et), <- (filter_prod _ _ (fun k j => negb (removed B k j)) (ct_children t) (ct_children t)); unfold split_ts; do 2 f_equal; apply map_ext; intros k; f_equal; apply filter_ext; intros j; rewrite (all_t_ok B Htp); reflexivity). }
    rewrite BR in HB. clear BR. destruct (is_leaf t) eqn:Et.
    - injection HB as <-. specialize (HM _ (or_introl eq_refl)). cbn [b_t b_s] in HM. unfold stored, hleaf in HM. cbn [h_data] in HM. unfold block_data in HM. cbn [b_task b_t b_s] in HM.
      cbn [hfill map]. eapply hsym_leaf; [reflexivity| | | | |]; cbn [h_t h_s b_t b_s]; try reflexivity; [exact Ht|apply of_fun_wf|exact HM].
    - set (l := filter _ _) in HB. destruct (omap (fun ts => build_block_tree B fuel (fst ts) (snd ts)) l) as [bs|] eqn:Eo; [|discriminate]. injection HB as <-. apply omap_all in Eo.
      assert (CL : map (fun c => (b_t (rt_val c), b_s (rt_val c))) bs = l).
      { clear - Eo. induction Eo as [|p c l bs H1 H2 IH2]; [reflexivity|]. destruct (block_clusters B _ _ _ _ H1) as (E1 & E2 & _). cbn [map]. rewrite E1, E2, IH2. destruct p; reflexivity. }
      assert (BK : map block_of (map hf bs) = l).
      { rewrite map_map. rewrite (map_ext _ (fun c => (b_t (rt_val c), b_s (rt_val c)))) by (intros; apply hf_block). exact CL. }
      assert (IN : forall o j, In (o, j) l <-> In o (ct_children t) /\ In j (ct_children t) /\ removed B o j = false).
      { intros o j. unfold l. rewrite filter_In, in_prod_iff, (ckids_children t Et). cbn [fst snd]. rewrite negb_true_iff. tauto. }
      pose proof (kids_tile t Ht Et) as Tl.
      assert (NK : forall k u, In k (ct_children t) -> In u (ct_nodes k) -> In u (ct_nodes t)) by (intros k u Hk Hu'; eapply nodes_trans; [apply nodes_kid; exact Hk|exact Hu']).
      assert (SZ : forall k, In k (ct_children t) -> 1 <= c_size k) by (intros k Hk; apply (size_pos t Ht); apply nodes_kid; exact Hk).
      assert (CH : forall c, In c bs -> exists o j, In (o, j) l /\ build_block_tree B fuel o j = Some c).
      { clear - Eo. induction Eo as [|p d l bs H1 H2 IH2]; [intros c []|]. intros c [<-|Hc].
        - exists (fst p), (snd p). split; [left; destruct p; reflexivity|exact H1].
        - destruct (IH2 c Hc) as (o & j & P1 & P2). exists o, j. split; [right; exact P1|exact P2]. }
      assert (LV : forall c, In c bs -> forall x, In x (rleaves c) -> In x (rleaves (RNode (mkBinfo t t None (has_sym B t t)) bs))).
      { intros c Hc x Hx. rewrite rleaves_eq. apply in_or_app. right. apply in_concat. exists (rleaves c). split; [apply in_map; exact Hc|exact Hx]. }
      assert (DG : forall c k, In c bs -> In k (ct_children t) -> build_block_tree B fuel k k = Some c -> hsym parts (bb_uplo B) M (hf c)).
      { intros c k Hc Hk E. apply (IH k c (ctree_kid parts t k Ht Hk)); [intros u Hu'; apply Had; exact (NK k u Hk Hu')|exact E|]. intros x Hx. apply HM. exact (LV c Hc x Hx). }
      assert (OD : forall c o j, In c bs -> In o (ct_children t) -> In j (ct_children t) -> strictly (bb_uplo B) o j -> build_block_tree B fuel o j = Some c -> hrep parts M (hf c)).
      { intros c o j Hc Ho Hj St E. apply (build_hrep K sy B gen compress parts Htp Hcons Hco Hpos M fuel o j c (ctree_kid parts t o Ht Ho) (ctree_kid parts t j Ht Hj)); [| |exact E|intros x Hx; apply HM; exact (LV c Hc x Hx)].
        - intros u v Hu' Hv. pose proof (node_range o (ctree_kid parts t o Ht Ho) u Hu') as R1. pose proof (node_range j (ctree_kid parts t j Ht Hj) v Hv) as R2.
          pose proof (size_pos o (ctree_kid parts t o Ht Ho) u Hu') as Z1. pose proof (size_pos j (ctree_kid parts t j Ht Hj) v Hv) as Z2.
          assert (DJ : match bb_uplo B with UpU => c_off o + c_size o <= c_off j | _ => c_off j + c_size j <= c_off o end).
          { destruct (tiles_pair _ _ _ o j Tl Ho Hj) as [->|D]; unfold strictly in St; destruct (bb_uplo B); unfold disj in *; lia. }
          rewrite (removed_side u v Hq Hu). unfold has_sym. destruct (bb_uplo B); [congruence| |]; (split; [apply Nat.leb_gt; lia|]); apply andb_false_iff; left; apply Nat.eqb_neq; lia.
        - rewrite (ctree_kid_rank parts t o Ht Ho), (ctree_kid_rank parts t j Ht Hj). reflexivity. }
      assert (SD : forall o j, In (o, j) l -> o = j \/ strictly (bb_uplo B) o j).
      { intros o j H. apply IN in H. destruct H as (Ho & Hj & R). rewrite (removed_side o j Hq Hu) in R. destruct (tiles_pair _ _ _ o j Tl Ho Hj) as [->|D]; [left; reflexivity|right].
        pose proof (SZ o Ho). pose proof (SZ j Hj). unfold strictly, disj in *. destruct (bb_uplo B); [congruence| |]; apply Nat.leb_gt in R; lia. }
      cbn [hfill b_t b_s]. apply hsym_node; cbn [h_t h_s h_data b_t b_s]; try assumption; try reflexivity.
      + rewrite BK. apply NoDup_filter. apply (prod_nodup parts); assumption.
      + rewrite BK. intros p Hp. apply filter_In in Hp. apply Hp.
      + intros c' Hc'. apply in_map_iff in Hc'. destruct Hc' as (c & <- & Hc). destruct (CH c Hc) as (o & j & P1 & P2). pose proof (proj1 (IN o j) P1) as (Ho & Hj & _).
        destruct (SD o j P1) as [<-|St]; [exact (hsym_hdest F parts _ M _ (DG c o Hc Ho P2))|exact (hrep_hdest K parts M _ (OD c o j Hc Ho Hj St P2))].
      + intros k Hk. rewrite BK. rewrite (ckids_children t Et) in Hk. apply IN. split; [exact Hk|]. split; [exact Hk|]. rewrite (removed_side k k Hq Hu). pose proof (SZ k Hk). destruct (bb_uplo B); apply Nat.leb_gt; lia.
      + intros c' k Hc' Ek. apply in_map_iff in Hc'. destruct Hc' as (c & <- & Hc). destruct (CH c Hc) as (o & j & P1 & P2). pose proof (proj1 (IN o j) P1) as (Ho & Hj & _).
        rewrite hf_block in Ek. destruct (block_clusters B _ _ _ _ P2) as (E1 & E2 & _). rewrite E1, E2 in Ek. injection Ek as -> ->. exact (DG c k Hc Ho P2).
      + intros o j Ho Hj St. rewrite BK. rewrite (ckids_children t Et) in Ho, Hj. apply IN. split; [exact Ho|]. split; [exact Hj|]. rewrite (removed_side o j Hq Hu).
        pose proof (SZ o Ho). pose proof (SZ j Hj). unfold strictly in St. destruct (bb_uplo B); apply Nat.leb_gt; lia.
      + intros c' o' j' Hc' Ek St. apply in_map_iff in Hc'. destruct Hc' as (c & <- & Hc). destruct (CH c Hc) as (o & j & P1 & P2). pose proof (proj1 (IN o j) P1) as (Ho & Hj & _).
        rewrite hf_block in Ek. destruct (block_clusters B _ _ _ _ P2) as (E1 & E2 & _). rewrite E1, E2 in Ek. injection Ek as -> ->. exact (OD c o' j' Hc Ho Hj St P2).
  Qed.
End Fact.
