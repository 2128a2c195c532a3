(** * Triangular solves with a dense right-hand side: proofs. *)

From Coq Require Import List Arith ZArith Bool Permutation Lia Ring.
From Verif Require Import ClusterModel ClusterSpec IOModel IOSpec BlockModel BlockSpec BlockSym Algebra BlasModel HMatModel HMatSpec HMatBuild HMatTop Field
  DenseModel DenseSpec DenseProofs DistModel ArithModel ArithSpec ArithDense ArithTree HFactModel HFactSpec HFactSubst.
Import ListNotations.

Section P.
  Variable F : Fld.
  Notation K := (fk F).
  Notation C := (car K).
  Notation hmat := (rtree (hinfo K)).
  Notation hv := rt_val.
  Notation "0" := (c0 K).
  Notation "1" := (c1 K).
  Notation "x + y" := (cadd K x y) (at level 50, left associativity).
  Notation "x - y" := (csub K x y) (at level 50, left associativity).
  Notation "x * y" := (cmul K x y) (at level 40, left associativity).
  Add Ring Kring_hfv : (c_ring K).
  Variable parts : ctree -> list ctree.
  Notation ct := (cluster_tree parts).

  (** ** The order of the clusters *)
  Lemma tiles_order : forall pre o post lo hi, tiles lo hi (map interval (pre ++ o :: post)) ->
    (forall m, In m pre -> (c_off m + c_size m <= c_off o)%nat) /\ (forall m, In m post -> (c_off o + c_size o <= c_off m)%nat).
  Proof.
    induction pre as [|p pre IH]; intros o post lo hi H; cbn [app map] in H; unfold interval in H at 1; destruct H as [H1 H2].
    - split; [intros m []|]. intros m Hm. pose proof (tiles_in _ _ _ m H2 Hm). unfold c_off, c_size in *. lia.
    - destruct (IH o post _ _ H2) as [I1 I2]. split; [|exact I2]. intros m [<-|Hm]; [|apply I1, Hm].
      assert (Ho : In o (pre ++ o :: post)) by (apply in_app_iff; right; left; reflexivity). pose proof (tiles_in _ _ _ o H2 Ho). unfold c_off, c_size in *. lia.
  Qed.
  Lemma in_order_perm : forall fw l, Permutation (in_order fw l) l.
  Proof. intros [|] l; cbn [in_order]; [reflexivity|]. apply Permutation_sym, Permutation_rev. Qed.
  (** Offsets of the clusters before and after a cluster. *)
  Lemma order_split : forall fw c pre o post, ct c -> in_order fw (ckids c) = pre ++ o :: post ->
    (forall m, In m pre -> if fw then (c_off m < c_off o)%nat else (c_off o < c_off m)%nat) /\
    (forall m, In m post -> if fw then (c_off o < c_off m)%nat else (c_off m < c_off o)%nat).
  Proof.
    intros fw c pre o post Hc E. assert (Hall : forall m, In m (pre ++ o :: post) -> (1 <= c_size m)%nat).
    { intros m Hm. apply (ct_size parts), (ckids_ct parts c); [exact Hc|]. eapply Permutation_in; [apply (in_order_perm fw)|]. rewrite E. exact Hm. }
    assert (So : (1 <= c_size o)%nat) by (apply Hall, in_app_iff; right; left; reflexivity).
    pose proof (ckids_tiles parts c Hc) as T. destruct fw; cbn [in_order] in E.
    - rewrite E in T. destruct (tiles_order _ _ _ _ _ T) as [T1 T2]. split; intros m Hm; [specialize (T1 m Hm)|specialize (T2 m Hm)];
        assert (1 <= c_size m)%nat by (apply Hall, in_app_iff; cbn [In]; auto); lia.
    - assert (E' : ckids c = rev post ++ o :: rev pre).
      { rewrite <- (rev_involutive (ckids c)), E, rev_app_distr. cbn [rev]. rewrite <- app_assoc. reflexivity. }
      rewrite E' in T. destruct (tiles_order _ _ _ _ _ T) as [T1 T2]. split; intros m Hm; apply in_rev in Hm; [specialize (T2 m Hm)|specialize (T1 m Hm)];
        apply <- in_rev in Hm; assert (1 <= c_size m)%nat by (apply Hall, in_app_iff; cbn [In]; auto); lia.
  Qed.
  Lemma order_before : forall fw c, ct c -> forall pre o post, in_order fw (ckids c) = pre ++ o :: post ->
    (forall m, In m pre -> ceq o m = false /\ before fw m o = true) /\ (forall m, In m post -> ceq o m = false /\ before fw m o = false).
  Proof.
    intros fw c Hc pre o post E. destruct (order_split fw c pre o post Hc E) as [S1 S2].
    assert (NE : forall m, c_off m <> c_off o -> ceq o m = false).
    { intros m Hm. destruct (ceq o m) eqn:Q; [|reflexivity]. apply (ceq_off parts) in Q. destruct Q as [Q _]. congruence. }
    split; intros m Hm; [specialize (S1 m Hm)|specialize (S2 m Hm)]; (split; [apply NE; destruct fw; lia|]); unfold before; destruct fw;
      repeat match goal with |- context [(?a <? ?b)%nat] => destruct (Nat.ltb_spec a b) end; try reflexivity; lia.
  Qed.

  (** ** Triangular hierarchical matrices *)
  Lemma htri_block : forall u d T (A : hmat), htri parts u d T A -> h_s (hv A) = h_t (hv A) /\ ct (h_t (hv A)).
  Proof. intros u d T A H. destruct H; cbn [rt_val]; auto. Qed.
  Lemma htri_node_inv : forall u d (T : nat -> nat -> C) (A : hmat), htri parts u d T A -> h_data (hv A) = DNone ->
    is_leaf (h_t (hv A)) = false /\ rt_children A <> [] /\
    (forall k, In k (ckids (h_t (hv A))) -> exists c, sub K A k k = Some c /\ block_of c = (k, k) /\ htri parts u d T c) /\
    (forall o j, In o (ckids (h_t (hv A))) -> In j (ckids (h_t (hv A))) -> strictly u o j -> exists c, sub K A o j = Some c /\ block_of c = (o, j) /\ hrep parts T c) /\
    (forall o j a b, In o (ckids (h_t (hv A))) -> In j (ckids (h_t (hv A))) -> strictly u j o -> inc o a -> inc j b -> T a b = 0).
  Proof.
    intros u d T A H N. destruct H as [i D E1 E2 E3 E4 E5 E6 E7|i cs E1 E2 E3 E4 E5 E6 E7 E8 E9 E10 E11]; cbn [rt_val rt_children] in *; [congruence|].
    assert (HL : is_leaf (h_t i) && is_leaf (h_s i) = false) by (rewrite E4; reflexivity).
    assert (SF : forall o j, In o (ckids (h_t i)) -> In j (ckids (h_t i)) -> In (o, j) (map block_of cs) ->
      exists c, sub K (RNode i cs) o j = Some c /\ block_of c = (o, j) /\ In c cs).
    { intros o j Ho Hj Hin. apply in_map_iff in Hin. destruct Hin as (c & Hb & Hc). pose proof Hc as Hc'. apply In_nth_error in Hc'. destruct Hc' as [k Hk].
      exists c. split; [|split; [exact Hb|exact Hc]].
      refine (proj2 (sub_found K parts i cs _ _ _ _ _ o j _ _ k c Hk Hb)); try assumption; rewrite <- E2; assumption. }
    split; [exact E4|]. split.
    { intros ->. destruct (ckids (h_t i)) as [|k l] eqn:E; [exact (ckids_nonempty _ E)|]. exact (E7 k (or_introl eq_refl)). }
    split; [|split].
    - intros k Hk. destruct (SF k k Hk Hk (E7 k Hk)) as (c & S1 & S2 & S3). exists c. split; [exact S1|]. split; [exact S2|]. exact (E8 c k S3 S2).
    - intros o j Ho Hj Hs. destruct (SF o j Ho Hj (E9 o j Ho Hj Hs)) as (c & S1 & S2 & S3). exists c. split; [exact S1|]. split; [exact S2|]. exact (E10 c o j S3 S2 Hs).
    - exact E11.
  Qed.
  Lemma cheight_kid : forall c k, is_leaf c = false -> In k (ckids c) -> (cheight k < cheight c)%nat.
  Proof.
    intros [i cs] k L Hk. rewrite ckids_node in Hk by exact L. cbn [ct_children] in Hk. cbn [cheight]. apply le_n_S. clear L. induction cs as [|x cs IH]; [contradiction|].
    cbn [map fold_right]. destruct Hk as [->|Hk]; [lia|]. specialize (IH Hk). lia.
  Qed.

  (** The matrix of the substitution is lower triangular for the order of the loops. *)
  Definition Gs (s : side) (t : trans) (T : nat -> nat -> C) (a x : nat) : C := match s with SdL => op_fun t T a x | SdR => op_fun t T x a end.
  Definition fws (s : side) (t : trans) (u : uplo) : bool := match s with SdL => op_lower t u | SdR => negb (op_lower t u) end.
  Lemma order_zero : forall s u t (T : nat -> nat -> C) c, ct c ->
    (forall o j a b, In o (ckids c) -> In j (ckids c) -> strictly u j o -> inc o a -> inc j b -> T a b = 0) ->
    forall pre o post, in_order (fws s t u) (ckids c) = pre ++ o :: post -> forall p a x, In p pre -> inc p a -> inc o x -> Gs s t T a x = 0.
  Proof.
    intros s u t T c Hc HZ pre o post E p a x Hp Ha Hx. destruct (order_split _ c pre o post Hc E) as [S1 _]. specialize (S1 p Hp).
    assert (Ko : In o (ckids c)) by (eapply Permutation_in; [apply (in_order_perm (fws s t u))|]; rewrite E; apply in_app_iff; right; left; reflexivity).
    assert (Kp : In p (ckids c)) by (eapply Permutation_in; [apply (in_order_perm (fws s t u))|]; rewrite E; apply in_app_iff; left; exact Hp).
    unfold fws in S1. unfold Gs.
    destruct s, t, u; cbn [op_lower is_N negb op_fun] in *; first [eapply HZ; [exact Kp|exact Ko|exact S1|exact Ha|exact Hx] | eapply HZ; [exact Ko|exact Kp|exact S1|exact Hx|exact Ha]
      | rewrite (HZ p o a x Kp Ko S1 Ha Hx); apply conj_0 | rewrite (HZ o p x a Ko Kp S1 Hx Ha); apply conj_0].
  Qed.

  (** ** Columns of a matrix *)
  Lemma columns_ok : forall B mu n off k, wf_mat B mu n -> (off + k <= n)%nat ->
    exists X, columns F B off k = Some X /\ wf_mat X mu k /\ forall r j, (r < mu)%nat -> (j < k)%nat -> me X r j = me B r (off + j)%nat.
  Proof.
    intros B mu n off k (B1 & B2 & B3) H. unfold columns. destruct (copy_block_ok K B 0 off (mr B) k (zeros K (mr B) k) 0 0) as (X & E1 & E2 & E3); cbn [zeros mkMat mr mc]; try lia.
    cbn [zeros mkMat mr mc] in E2, E3. rewrite B1 in *. exists X. split; [exact E1|]. split; [exact E2|]. intros r j Hr Hj. rewrite E3 by assumption.
    destruct (Nat.leb_spec 0 r), (Nat.ltb_spec r (0 + mu)), (Nat.leb_spec 0 j), (Nat.ltb_spec j (0 + k)); cbn [andb]; try lia. f_equal; lia.
  Qed.
  Lemma set_columns_ok : forall B mu n off X k, wf_mat B mu n -> wf_mat X mu k -> (off + k <= n)%nat ->
    exists B', set_columns F B off X = Some B' /\ wf_mat B' mu n /\
      forall r j, (r < mu)%nat -> (j < n)%nat -> me B' r j = if ((off <=? j) && (j <? off + k))%nat then me X r (j - off)%nat else me B r j.
  Proof.
    intros B mu n off X k (B1 & B2 & B3) (X1 & X2 & X3) H. unfold set_columns. destruct (copy_block_ok K X 0 0 (mr X) (mc X) B 0 off) as (B' & E1 & E2 & E3); try lia.
    rewrite B1, B2 in E2. exists B'. split; [exact E1|]. split; [exact E2|]. intros r j Hr Hj. rewrite E3 by lia. rewrite X1, X2.
    destruct (Nat.leb_spec 0 r), (Nat.ltb_spec r (0 + mu)); cbn [andb]; try lia. destruct ((off <=? j) && (j <? off + k))%nat; [f_equal; lia|reflexivity].
  Qed.

  Lemma transpose_into_ok : forall X B r c, wf_mat X r c -> wf_mat B c r ->
    wf_mat (transpose_into K X B) c r /\ forall i j, (i < c)%nat -> (j < r)%nat -> me (transpose_into K X B) i j = me X j i.
  Proof.
    intros X B r c (X1 & X2 & X3) (B1 & B2 & B3). unfold transpose_into. destruct (transpose_wf K X r c X1 X2) as (T1 & T2 & T3).
    split; [split; [exact B1|split; [exact B2|exact T3]]|]. intros i j Hi Hj. unfold me at 1. cbn [with_data mr md]. rewrite B1, <- T1.
    fold (me (transpose K X) i j). apply transpose_me; lia.
  Qed.
  Lemma csum_local : forall c (f : nat -> C), csum c f = sum (c_size c) (fun k => f (c_off c + k)%nat).
  Proof. reflexivity. Qed.

  Lemma scale_1 : forall alpha B mu n, wf_mat B mu n ->
    exists B1, (if ceqb K alpha 1 then Some B else mat_scale K alpha B) = Some B1 /\ wf_mat B1 mu n /\
      forall i j, (i < mu)%nat -> (j < n)%nat -> me B1 i j = alpha * me B i j.
  Proof.
    intros alpha B mu n HW. destruct (ceqb_spec K alpha 1) as [E|E].
    - subst alpha. exists B. split; [reflexivity|]. split; [exact HW|]. intros. ring.
    - destruct (mat_scale_ok K alpha B mu n HW) as (B1 & E1 & E2 & E3). exists B1. auto.
  Qed.

  (** ** The row-major solve *)
  Theorem row_solve_ok : forall fuel u t d (T : nat -> nat -> C) (A : hmat), htri parts u d T A -> (cheight (h_t (hv A)) <= fuel)%nat ->
    forall alpha Bt mu, (1 <= mu)%nat -> wf_mat Bt mu (c_size (h_t (hv A))) ->
    exists X, row_solve F parts fuel u t d alpha A Bt = Some X /\ wf_mat X mu (c_size (h_t (hv A))) /\
      forall r a, (r < mu)%nat -> inc (h_t (hv A)) a ->
        csum (h_t (hv A)) (fun x => op_fun t T a x * me X r (x - c_off (h_t (hv A)))%nat) = alpha * me Bt r (a - c_off (h_t (hv A)))%nat.
  Proof.
    induction fuel as [|fuel IH]; intros u t d T A HT Hf alpha Bt mu Hmu HB.
    { exfalso. destruct (h_t (hv A)); cbn in Hf; lia. }
    destruct (htri_block _ _ _ _ HT) as [Bs Hct]. pose proof (ct_size parts _ Hct) as Hsz. cbn [row_solve].
    destruct (scale_1 alpha Bt mu _ HB) as (B1 & E1 & W1 & M1). rewrite E1. set (c := h_t (hv A)) in *.
    destruct (h_data (hv A)) as [|D|L] eqn:ED.
    - (* node *)
      destruct (htri_node_inv u d T A HT ED) as (HL & HNE & HD & HS & HZ). fold c in HL, HD, HS, HZ.
      destruct (rt_children A) as [|ch0 chs] eqn:ECh; [congruence|]. clear HNE.
      assert (Eo : out_of K t A = c /\ mid_of K t A = c) by (unfold out_of, mid_of; destruct (is_N t); split; auto). destruct Eo as [-> ->].
      assert (Ek : kids parts (above c || above (h_s (hv A))) c = ckids c) by (apply kids_eq; [exact Hct|]; rewrite Bs; fold c; apply orb_diag).
      rewrite Ek.
      destruct (loops_ok F parts (op_fun t T) c (in_order (op_lower t u) (ckids c)) Hct (in_order_perm _ _)
        (order_zero SdL u t T c Hct HZ) (op_lower t u) (order_before _ c Hct) (mat K)
        (fun b V => wf_mat b mu (c_size c) /\ forall r x, (r < mu)%nat -> inc c x -> V r x = me b r (x - c_off c)%nat)
        (fun o i B => do Ac <- (if is_N t then sub K A o i else sub K A i o);
                  do x <- columns F B (c_off i - c_off c) (c_size i);
                  do b <- columns F B (c_off o - c_off c) (c_size o);
                  do y <- add_hmatrix_matrix_product_row_major K t (copp K (c1 K)) Ac (md x) (c1 K) (md b) (mr x);
                  set_columns F B (c_off o - c_off c) (with_data K b y))
        (fun o i B => do Ac <- (if is_N t then sub K A o i else sub K A i o);
                  do b <- columns F B (c_off o - c_off c) (c_size o);
                  do b' <- row_solve F parts fuel u t d (c1 K) Ac b;
                  set_columns F B (c_off o - c_off c) b')
        (fun r => (r < mu)%nat)) with (b := B1) (V0 := fun r x => me B1 r (x - c_off c)%nat) as (X & V & EX & (WX & RX) & SX).
      + (* update *)
        intros b V p m (Wb & Rb) Hp Hm Hpm Hbe. apply (ord_in c _ (in_order_perm _ _)) in Hp, Hm.
        pose proof (ckids_in parts c p Hct Hp) as Ip. pose proof (ckids_in parts c m Hct Hm) as Im.
        assert (Hsub : exists Ac, (if is_N t then sub K A p m else sub K A m p) = Some Ac /\ block_of Ac = (if is_N t then (p, m) else (m, p)) /\ hrep parts T Ac).
        { unfold before in Hbe. destruct (is_N t) eqn:Et; apply HS; try assumption; unfold strictly; unfold op_lower in Hbe; rewrite Et in Hbe; destruct u; cbn [negb] in Hbe;
            apply Nat.ltb_lt in Hbe; exact Hbe. }
        destruct Hsub as (Ac & ES & Eb & HR). rewrite ES.
        destruct (columns_ok b mu _ (c_off m - c_off c) (c_size m) Wb) as (x & Ex & Wx & Mx); [lia|]. rewrite Ex.
        destruct (columns_ok b mu _ (c_off p - c_off c) (c_size p) Wb) as (b0 & E0 & W0 & M0); [lia|]. rewrite E0.
        assert (EO : out_cl K t (hv Ac) = p /\ in_cl K t (hv Ac) = m).
        { unfold out_cl, in_cl, block_of in *. destruct (is_N t); injection Eb as <- <-; auto. } destruct EO as [EO EI].
        destruct (hrep_holds K parts T Ac HR) as (Lv & HLv & HM).
        destruct Wx as (Wx1 & Wx2 & Wx3). destruct W0 as (W01 & W02 & W03).
        destruct (mat_ok K Ac Lv [] SyN T HLv HM) with (t := t) (mu := mr x) (alpha := copp K 1) (beta := 1) (x := md x) (y := md b0) as (y & EY & IY).
        { destruct HR; [left; reflexivity|right; assumption]. }
        { lia. }
        { destruct t; exact I. }
        { left. reflexivity. }
        { rewrite EI, Wx1, Wx3. lia. }
        { rewrite EO, Wx1, W03. lia. }
        rewrite EY. destruct IY as (Y1 & Y2 & Y3). rewrite Wx1 in *.
        assert (Wy : wf_mat (with_data K b0 y) mu (c_size p)) by (split; [exact W01|split; [exact W02|cbn [with_data md]; lia]]).
        destruct (set_columns_ok b mu _ (c_off p - c_off c) (with_data K b0 y) (c_size p) Wb Wy) as (b' & E' & W' & M'); [lia|]. rewrite E'.
        exists b', (fun r x => me b' r (x - c_off c)%nat). split; [reflexivity|]. split; [split; [exact W'|intros; reflexivity]|]. split.
        * intros r z Hr Hz Hn. rewrite M' by (unfold inc in *; lia). rewrite Rb by assumption.
          destruct (Nat.leb_spec (c_off p - c_off c) (z - c_off c)), (Nat.ltb_spec (z - c_off c) (c_off p - c_off c + c_size p)); cbn [andb]; try reflexivity.
          exfalso. apply Hn. split; [exact Hr|]. unfold inc in *. lia.
        * intros r a Hr Ha. assert (Hca : inc c a) by (apply (kid_inc parts c p); assumption). rewrite M' by (unfold inc in *; lia). rewrite Rb by assumption.
          destruct (Nat.leb_spec (c_off p - c_off c) (a - c_off c)), (Nat.ltb_spec (a - c_off c) (c_off p - c_off c + c_size p)); cbn [andb]; unfold inc in Ha, Hca; try lia.
          unfold me at 1. cbn [with_data mr md]. rewrite W01.
          change (if is_N t then h_t (hv Ac) else h_s (hv Ac)) with (out_cl K t (hv Ac)) in Y2. change (if is_N t then h_s (hv Ac) else h_t (hv Ac)) with (in_cl K t (hv Ac)) in Y2.
          rewrite EO, EI in Y2. replace (r + (a - c_off c - (c_off p - c_off c)) * mu)%nat with ((a - c_off p) * mu + r)%nat by nia.
          rewrite Y2 by lia. replace (c_off p + (a - c_off p))%nat with a by lia.
          assert (Eg : get (md b0) ((a - c_off p) * mu + r) = me b r (a - c_off c)%nat).
          { transitivity (me b0 r (a - c_off p)%nat); [unfold me; rewrite W01; f_equal; lia|]. rewrite M0 by lia. f_equal; lia. }
          rewrite Eg. unfold csum. rewrite (sum_ext K (c_size m) _ (fun j => op_fun t T a (c_off m + j)%nat * V r (c_off m + j)%nat)); [ring|].
          intros j Hj. f_equal. transitivity (me x r j); [unfold me; rewrite Wx1; f_equal; lia|]. rewrite Mx by assumption. rewrite Rb; [f_equal; lia|exact Hr|unfold inc; lia].
      + (* solve *)
        intros b V p (Wb & Rb) Hp. apply (ord_in c _ (in_order_perm _ _)) in Hp. pose proof (ckids_in parts c p Hct Hp) as Ip.
        destruct (HD p Hp) as (Ac & ES & Eb & HTc).
        assert (ES' : (if is_N t then sub K A p p else sub K A p p) = Some Ac) by (destruct (is_N t); exact ES). rewrite ES'.
        destruct (columns_ok b mu _ (c_off p - c_off c) (c_size p) Wb) as (b0 & E0 & W0 & M0); [lia|]. rewrite E0.
        assert (Ep : h_t (hv Ac) = p) by (unfold block_of in Eb; congruence).
        destruct (IH u t d T Ac HTc) with (alpha := 1) (Bt := b0) (mu := mu) as (x & EX & WX & SX); rewrite ?Ep; try assumption.
        { pose proof (cheight_kid c p HL Hp). lia. }
        rewrite Ep in *. rewrite EX.
        destruct (set_columns_ok b mu _ (c_off p - c_off c) x (c_size p) Wb WX) as (b' & E' & W' & M'); [lia|]. rewrite E'.
        exists b', (fun r x => me b' r (x - c_off c)%nat). split; [reflexivity|]. split; [split; [exact W'|intros; reflexivity]|]. split.
        * intros r z Hr Hz Hn. rewrite M' by (unfold inc in *; lia). rewrite Rb by assumption.
          destruct (Nat.leb_spec (c_off p - c_off c) (z - c_off c)), (Nat.ltb_spec (z - c_off c) (c_off p - c_off c + c_size p)); cbn [andb]; try reflexivity.
          exfalso. apply Hn. split; [exact Hr|]. unfold inc in *. lia.
        * intros r a Hr Ha. assert (Hca : inc c a) by (apply (kid_inc parts c p); assumption). rewrite (Rb r a Hr Hca).
          assert (EE : me b r (a - c_off c)%nat = 1 * me b0 r (a - c_off p)%nat).
          { rewrite M0; [|exact Hr|unfold inc in Ha; lia]. replace (c_off p - c_off c + (a - c_off p))%nat with (a - c_off c)%nat by (unfold inc in *; lia). ring. }
          rewrite EE. rewrite <- (SX r a Hr Ha). apply (csum_inc F). intros z Hz. f_equal. unfold inc in Hz. rewrite M' by lia.
          destruct (Nat.leb_spec (c_off p - c_off c) (z - c_off c)), (Nat.ltb_spec (z - c_off c) (c_off p - c_off c + c_size p)); cbn [andb]; try lia. f_equal; lia.
      + split; [exact W1|]. intros; reflexivity.
      + exists X. split; [exact EX|]. split; [exact WX|]. intros r a Hr Ha. rewrite <- (M1 r (a - c_off c)%nat Hr) by (unfold inc in Ha; lia).
        rewrite <- (SX r a Hr Ha). apply (csum_inc F). intros x Hx. f_equal. symmetry. apply RX; assumption.
    - (* leaf *)
      destruct HT as [i D' F1 F2 F3 F4 F5 F6 F7|i cs F1 F2 F3 F4 F5 F6 F7 F8 F9 F10 F11]; cbn [rt_val rt_children] in *; [|congruence].
      subst c. rewrite ED in F1. injection F1 as <-. destruct W1 as (V1 & V2 & V3).
      destruct (tri_solve_ok F SdL u t d 1 D (transpose K B1) (c_size (h_t i)) mu) as (X & EX & WX & _ & SX); try assumption.
      { apply transpose_wf; assumption. }
      rewrite EX. eexists. split; [reflexivity|]. destruct (transpose_into_ok X B1 (c_size (h_t i)) mu WX) as [T1 T2]; [split; [exact V1|split; assumption]|].
      split; [exact T1|]. intros r a Hr Ha. unfold inc in Ha. assert (La : (a - c_off (h_t i) < c_size (h_t i))%nat) by lia.
      rewrite <- (M1 r _ Hr La). specialize (SX (a - c_off (h_t i))%nat r La Hr). cbn beta iota in SX.
      rewrite transpose_me in SX by lia. replace (me B1 r (a - c_off (h_t i))%nat) with (1 * me B1 r (a - c_off (h_t i))%nat) by ring. rewrite <- SX.
      unfold csum. apply sum_ext. intros k Hk. rewrite T2 by lia. replace (c_off (h_t i) + k - c_off (h_t i))%nat with k by lia. f_equal.
      replace a with (c_off (h_t i) + (a - c_off (h_t i)))%nat at 1 by lia. destruct t; cbn [op_fun]; rewrite F7 by assumption; reflexivity.
    - (* low rank: excluded *)
      destruct HT as [i D' F1 F2 F3 F4 F5 F6 F7|i cs F1 F2 F3 F4 F5 F6 F7 F8 F9 F10 F11]; cbn [rt_val] in *; congruence.
  Qed.
End P.
