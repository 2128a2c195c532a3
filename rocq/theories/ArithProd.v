(** * Product of two hierarchical matrices into a low-rank matrix and into a hierarchical matrix. *)

From Coq Require Import List Arith ZArith Bool Lia Ring Permutation.
From Verif Require Import ClusterModel ClusterSpec ClusterProofs IOModel IOSpec IOProofs BlockModel BlockSpec BlockProofs BlockSym Algebra BlasModel BlasProofs
  HMatModel HMatSpec HMatProofs HMatProducts HMatBuild HMatTop DistModel DistVec ArithModel ArithSpec ArithDense ArithLr ArithTree ArithHier.
Import ListNotations.

Lemma pairs_of_prod : forall l1 l2, pairs_of l1 l2 = list_prod l1 l2.
Proof. induction l1 as [|a l IH]; intros l2; [reflexivity|]. cbn [list_prod]. rewrite <- IH. reflexivity. Qed.

Lemma map_o_ok : forall A B (f : A -> option B) (P : A -> B -> Prop) l, (forall a, In a l -> exists b, f a = Some b /\ P a b) ->
  exists bs, map_o f l = Some bs /\ Forall2 P l bs.
Proof.
  intros A B f P. induction l as [|a l IH]; intros H; [exists []; split; [reflexivity|constructor]|].
  destruct (H a (or_introl eq_refl)) as (b & E & Pb). destruct IH as (bs & E' & Pbs); [intros x Hx; apply H; right; exact Hx|].
  exists (b :: bs). split; [|constructor; assumption]. cbn [map_o]. rewrite E. change ((fix go (l0 : list A) : option (list B) :=
    match l0 with [] => Some [] | a0 :: l' => match f a0 with Some b0 => match go l' with Some bs0 => Some (b0 :: bs0) | None => None end | None => None end end) l) with (map_o f l).
  rewrite E'. reflexivity.
Qed.

Section P.
  Variable K : Coef.
  Notation C := (car K).
  Notation "0" := (c0 K).
  Notation "1" := (c1 K).
  Notation "x + y" := (cadd K x y).
  Notation "x * y" := (cmul K x y).
  Add Ring KringE : (c_ring K).
  Notation hmat := (rtree (hinfo K)).
  Notation hv := rt_val.
  Variable parts : ctree -> list ctree.
  Notation ct := (cluster_tree parts).
  Notation hrep := (hrep parts).
  Variable recompress : lrm K -> lrm K.
  Hypothesis HR : exact_recompression recompress.
  Variable svd_factors : mat K -> lrm K.
  Hypothesis HS : exact_svd svd_factors.

  (** The block of op(A) with the clusters o, m. *)
  Lemma op_child : forall t M A o m, hrep M A -> h_data (hv A) = DNone -> In o (ckids (out_of K t A)) -> In m (ckids (mid_of K t A)) ->
    exists c, (if is_N t then sub K A o m else sub K A m o) = Some c /\ (if is_N t then child_or_this K A o m else child_or_this K A m o) = Some c /\
      hrep M c /\ out_of K t c = o /\ mid_of K t c = m /\ (height K c < height K A)%nat.
  Proof.
    intros t M A o m H N Ho Hm. unfold out_of, mid_of in *. destruct (is_N t).
    - destruct (hrep_child K parts M A o m H N Ho Hm) as (k & c & Hk & Hb & Hc & _ & E1 & E2). exists c. injection Hb as B1 B2.
      split; [exact E1|]. split; [exact E2|]. split; [exact Hc|]. split; [exact B1|]. split; [exact B2|]. destruct A as [i cs]. apply height_child. eapply nth_error_In, Hk.
    - destruct (hrep_child K parts M A m o H N Hm Ho) as (k & c & Hk & Hb & Hc & _ & E1 & E2). exists c. injection Hb as B1 B2.
      split; [exact E1|]. split; [exact E2|]. split; [exact Hc|]. split; [exact B2|]. split; [exact B1|]. destruct A as [i cs]. apply height_child. eapply nth_error_In, Hk.
  Qed.
  Lemma nc_eq : forall ta tb (A B : hmat), mid_of K ta A = out_of K tb B -> above (out_of K ta A) = above (mid_of K ta A) ->
    above (mid_of K tb B) = above (mid_of K ta A) -> not_consistent K A B = above (mid_of K ta A).
  Proof.
    intros ta tb A B HM H1 H2. unfold not_consistent. rewrite HM in *. unfold out_of, mid_of in *.
    destruct (is_N ta), (is_N tb); rewrite ?HM, ?H1, ?H2 in *; try (rewrite H1 in *); try (rewrite H2 in *);
      repeat match goal with |- context [above ?x] => destruct (above x) eqn:?; cbn [orb] end; congruence.
  Qed.

  (** The product over the indices of some clusters. *)
  Definition gp (ta tb : trans) (MA MB : nat -> nat -> C) (ms : list ctree) (a b : nat) : C :=
    lsum ms (fun m => csum m (fun x => op_fun ta MA a x * op_fun tb MB x b)).

  (** A sum over blocks that contain the index exactly once. *)
  Lemma one_block : forall l m lo hi lo' hi' a b (v : C), tiles lo hi (map interval l) -> tiles lo' hi' (map interval m) ->
    (lo <= a < hi)%nat -> (lo' <= b < hi')%nat ->
    lsum (list_prod l m) (fun p => if in_iv a (interval (fst p)) && in_iv b (interval (snd p)) then v else 0) = v.
  Proof.
    intros l m lo hi lo' hi' a b v Hl Hm Ha Hb. rewrite lsum_filter.
    pose proof (sum_prod_in a b l m lo hi lo' hi' Hl Hm) as Q.
    assert (Q1 : (in_iv a (lo, (hi - lo)%nat) && in_iv b (lo', (hi' - lo')%nat)) = true).
    { unfold in_iv. cbn [fst snd]. rewrite !andb_true_iff, !Nat.leb_le, !Nat.ltb_lt. lia. }
    rewrite Q1 in Q. cbn [b2n] in Q.
    assert (Q2 : forall X (f : X -> bool) xs, length (filter f xs) = sumn (map (fun x => b2n (f x)) xs)).
    { clear. intros X f xs. unfold sumn. induction xs as [|x xs IH]; [reflexivity|]. cbn [filter map fold_right]. destruct (f x); cbn [length b2n]; rewrite IH; reflexivity. }
    rewrite Q2, Q. apply nmul_1.
  Qed.

  Theorem hh_lr_ok : forall fuel ta tb alpha MA MB A B L, (height K A < fuel)%nat -> hrep MA A -> hrep MB B ->
    mid_of K ta A = out_of K tb B -> above (out_of K ta A) = above (mid_of K ta A) -> above (mid_of K tb B) = above (mid_of K ta A) ->
    wf_lrm L (c_size (out_of K ta A)) (c_size (mid_of K tb B)) ->
    exists L', hh_lr K recompress svd_factors parts fuel ta tb alpha A B 1 L = Some L' /\
      lr_op TrN L' (c_size (out_of K ta A)) (c_size (mid_of K tb B))
        (fun i j => lr_entry L i j + alpha * csum (mid_of K ta A) (fun x =>
           op_fun ta MA (c_off (out_of K ta A) + i)%nat x * op_fun tb MB x (c_off (mid_of K tb B) + j)%nat)).
  Proof.
    induction fuel as [|fuel IH]; intros ta tb alpha MA MB A B L Hf HA HB HM Ao Ai HL; [lia|].
    cbn [hh_lr]. destruct (ceqb_spec K 1 1) as [_|N]; [|congruence].
    assert (LEAF : (h_data (hv A) <> DNone \/ h_data (hv B) <> DNone) -> exists L', match h_data (hv A), h_data (hv B) with
        | DNone, DNone => None
        | DDense a, DLow b => add_matrix_lrmat_product_lr K recompress ta tb alpha a b 1 L
        | DDense a, DDense b => add_matrix_matrix_product_lr K recompress svd_factors ta tb alpha a b 1 L
        | DDense a, DNone => add_matrix_hmatrix_product_lr K recompress svd_factors ta tb alpha a B 1 L
        | DLow a, DDense b => add_lrmat_matrix_product_lr K recompress ta tb alpha a b 1 L
        | DLow a, DLow b => add_lrmat_lrmat_product_lr K recompress ta tb alpha a b 1 L
        | DLow a, DNone => add_lrmat_hmatrix_product_lr K recompress ta tb alpha a B 1 L
        | DNone, DLow b => add_hmatrix_lrmat_product_lr K recompress ta tb alpha A b 1 L
        | DNone, DDense b => add_hmatrix_matrix_product_lr K recompress svd_factors ta tb alpha A b 1 L
        end = Some L' /\
      lr_op TrN L' (c_size (out_of K ta A)) (c_size (mid_of K tb B))
        (fun i j => lr_entry L i j + alpha * csum (mid_of K ta A) (fun x =>
           op_fun ta MA (c_off (out_of K ta A) + i)%nat x * op_fun tb MB x (c_off (mid_of K tb B) + j)%nat))).
    { intros Hd. destruct (leaf_case_lr K parts recompress HR svd_factors HS ta tb alpha 1 MA MB A B HA HB HM L) as (L' & E & W & R & V).
      - right. exact HL.
      - exact Hd.
      - exists L'. split; [exact E|]. split; [exact W|]. split; [exact R|]. intros i j Hi Hj. rewrite V by assumption. unfold csum, loc. f_equal. ring. }
    destruct (h_data (hv A)) eqn:EA; [destruct (h_data (hv B)) eqn:EB| |];
      try (destruct LEAF as (L' & E & V); [first [left; discriminate|right; discriminate]|]; exists L'; split; [exact E|exact V]).
    clear LEAF. pose proof (nc_eq ta tb A B HM Ao Ai) as NC.
    set (o := out_of K ta A) in *. set (m := mid_of K ta A) in *. change (in_of K tb B) with (mid_of K tb B). set (i := mid_of K tb B) in *.
    destruct (out_ct K parts ta MA A HA) as [Co Cm]. destruct (out_ct K parts tb MB B HB) as [_ Ci]. fold o m in Co, Cm. fold i in Ci.
    rewrite NC. rewrite !(kids_eq parts) by (try assumption; congruence). rewrite pairs_of_prod.
    set (gpm := gp ta tb MA MB).
    (* the inner loop *)
    assert (INNER : forall o' i', In o' (ckids o) -> In i' (ckids i) -> forall ms acc, incl ms (ckids m) -> wf_lrm acc (c_size o') (c_size i') ->
      exists acc', fold_o (fun m' acc =>
                do Ac <- (if is_N ta then sub K A o' m' else sub K A m' o');
                do Bc <- (if is_N tb then sub K B m' i' else sub K B i' m');
                hh_lr K recompress svd_factors parts fuel ta tb alpha Ac Bc 1 acc) ms acc = Some acc' /\
        wf_lrm acc' (c_size o') (c_size i') /\ (ms <> [] \/ 1 <= lrank acc -> 1 <= lrank acc')%nat /\
        forall a b, (a < c_size o')%nat -> (b < c_size i')%nat -> lr_entry acc' a b = lr_entry acc a b + alpha * gpm ms (c_off o' + a)%nat (c_off i' + b)%nat).
    { intros o' i' Ho' Hi'. induction ms as [|m' ms IHm]; intros acc Hms Hacc.
      - exists acc. split; [reflexivity|]. split; [exact Hacc|]. split; [intros [Q|Q]; [congruence|exact Q]|]. intros a b _ _. unfold gpm, gp. cbn [lsum]. ring.
      - assert (Hm' : In m' (ckids m)) by (apply Hms; left; reflexivity).
        destruct (op_child ta MA A o' m' HA EA Ho' Hm') as (Ac & E1 & _ & H1 & O1 & M1 & G1).
        destruct (op_child tb MB B m' i' HB EB) as (Bc & E2 & _ & H2 & O2 & M2 & _); [rewrite <- HM; exact Hm'|exact Hi'|].
        destruct (IH ta tb alpha MA MB Ac Bc acc) as (acc1 & E3 & W & R & V).
        + lia. + exact H1. + exact H2. + congruence.
        + rewrite O1, M1. rewrite (above_kid parts o o'), (above_kid parts m m'); auto.
        + rewrite M1, M2. rewrite (above_kid parts i i'), (above_kid parts m m'); auto.
        + rewrite O1, M2. exact Hacc.
        + rewrite O1, M1, M2 in *. cbn [fold_o]. rewrite E1, E2, E3.
          destruct (IHm acc1) as (acc' & E4 & W' & R' & V'); [intros x Hx; apply Hms; right; exact Hx|exact W|]. exists acc'. split; [exact E4|]. split; [exact W'|].
          split; [intros _; apply R'; right; exact R|].
          intros a b Ha Hb. rewrite V' by assumption. specialize (V a b Ha Hb). cbn [op_fun] in V. rewrite V. unfold gpm, gp. cbn [lsum]. ring. }
    destruct (map_o_ok _ _ (fun oi : ctree * ctree =>
              fold_o (fun m' acc =>
                do Ac <- (if is_N ta then sub K A (fst oi) m' else sub K A m' (fst oi));
                do Bc <- (if is_N tb then sub K B m' (snd oi) else sub K B (snd oi) m');
                hh_lr K recompress svd_factors parts fuel ta tb alpha Ac Bc 1 acc)
                (ckids m) (mkLrm (zeros K (c_size (fst oi)) 0) (zeros K 0 (c_size (snd oi)))))
       (fun oi X => wf_lrm X (c_size (fst oi)) (c_size (snd oi)) /\ (1 <= lrank X)%nat /\
          forall a b, in_iv a (interval (fst oi)) = true -> in_iv b (interval (snd oi)) = true -> lr_at K X (fst oi) (snd oi) a b = alpha * gpm (ckids m) a b)
       (list_prod (ckids o) (ckids i))) as (ls & E & F).
    { intros [o' i'] Hp. apply in_prod_iff in Hp. destruct Hp as [Ho' Hi']. cbn [fst snd].
      destruct (INNER o' i' Ho' Hi' (ckids m) (mkLrm (zeros K (c_size o') 0) (zeros K 0 (c_size i')))) as (X & E & W & R & V).
      - apply incl_refl.
      - repeat split; try reflexivity; cbn [lU lV]; apply zeros_wf.
      - exists X. split; [exact E|]. split; [exact W|]. split; [apply R; left; apply ckids_nonempty|].
        intros a b Ha Hb. apply in_ivb in Ha, Hb. unfold lr_at. rewrite V by lia. rewrite lr_entry_0 by reflexivity.
        replace (c_off o' + (a - c_off o'))%nat with a by lia. replace (c_off i' + (b - c_off i'))%nat with b by lia. ring. }
    rewrite E. clear E INNER IH.
    (* the additions *)
    assert (OUTER : forall blocks ls acc, Forall2 (fun oi X => wf_lrm X (c_size (fst oi)) (c_size (snd oi)) /\ (1 <= lrank X)%nat /\
          forall a b, in_iv a (interval (fst oi)) = true -> in_iv b (interval (snd oi)) = true -> lr_at K X (fst oi) (snd oi) a b = alpha * gpm (ckids m) a b) blocks ls ->
       incl blocks (list_prod (ckids o) (ckids i)) -> wf_lrm acc (c_size o) (c_size i) ->
       exists acc', fold_o (fun x L => add_lrmat_lrmat K recompress (snd x) (fst (fst x)) (snd (fst x)) L o i) (combine blocks ls) acc = Some acc' /\
         wf_lrm acc' (c_size o) (c_size i) /\ (blocks <> [] \/ 1 <= lrank acc -> 1 <= lrank acc')%nat /\
         forall a b, in_iv a (interval o) = true -> in_iv b (interval i) = true ->
           lr_at K acc' o i a b = lr_at K acc o i a b + lsum blocks (fun p => if in_iv a (interval (fst p)) && in_iv b (interval (snd p)) then alpha * gpm (ckids m) a b else 0)).
    { clear L HL ls F. intros blocks ls acc F. revert acc. induction F as [|[o' i'] X blocks ls (W & R & V) F IHf]; intros acc Hin Hacc.
      - exists acc. split; [reflexivity|]. split; [exact Hacc|]. split; [intros [Q|Q]; [congruence|exact Q]|]. intros. cbn [lsum]. ring.
      - assert (Hp : In (o', i') (list_prod (ckids o) (ckids i))) by (apply Hin; left; reflexivity). apply in_prod_iff in Hp. destruct Hp as [Ho' Hi'].
        pose proof (ckids_in parts o o' Co Ho') as Q1. pose proof (ckids_in parts i i' Ci Hi') as Q2. cbn [fst snd] in *.
        destruct (add_lrmat_lrmat_ok K recompress HR X o' i' acc o i) as (acc1 & E1 & W1 & R1 & R1' & V1); try assumption.
        + eapply ct_size, Co. + eapply ct_size, Ci.
        + left. rewrite !contains_iff. lia.
        + cbn [combine fold_o fst snd]. rewrite E1. destruct (IHf acc1) as (acc' & E2 & W2 & R2 & V2).
          * intros x Hx. apply Hin. right. exact Hx.
          * exact W1.
          * exists acc'. split; [exact E2|]. split; [exact W2|]. split; [intros _; apply R2; right; apply R1, R|].
            intros a b Ha Hb. rewrite V2, V1 by assumption. cbn [lsum fst snd]. unfold lr_in.
            destruct (in_iv a (interval o')) eqn:I1; destruct (in_iv b (interval i')) eqn:I2; cbn [andb]; try (rewrite V by assumption); ring. }
    destruct (OUTER _ ls L F (incl_refl _) HL) as (L' & E & W & R & V). exists L'. split; [exact E|]. split; [exact W|]. split.
    - apply R. left. intros Q. assert (In (nth 0 (ckids o) o, nth 0 (ckids i) i) (list_prod (ckids o) (ckids i))) as Q'.
      { apply in_prod; apply nth_In; [pose proof (ckids_nonempty o); destruct (ckids o)|pose proof (ckids_nonempty i); destruct (ckids i)]; cbn; try congruence; lia. }
      rewrite Q in Q'. contradiction.
    - intros a b Ha Hb. cbn [op_fun]. specialize (V (c_off o + a)%nat (c_off i + b)%nat). unfold lr_at in V.
      replace (c_off o + a - c_off o)%nat with a in V by lia. replace (c_off i + b - c_off i)%nat with b in V by lia.
      rewrite V by (apply in_ivb; lia). f_equal. rewrite (one_block _ _ _ _ _ _ _ _ _ (ckids_tiles parts o Co) (ckids_tiles parts i Ci)) by lia.
      f_equal. rewrite (csum_kids K parts m _ Cm). reflexivity.
  Qed.
End P.
