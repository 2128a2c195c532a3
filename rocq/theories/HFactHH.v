(** * Triangular solves with dense, low-rank and hierarchical right-hand sides: proofs. *)

From Coq Require Import List Arith ZArith Bool Permutation Lia Ring.
From Verif Require Import ClusterModel ClusterSpec IOModel IOSpec BlockModel BlockSpec BlockSym Algebra BlasModel HMatModel HMatSpec HMatBuild HMatTop Field
  DenseModel DenseSpec DenseProofs DistModel ArithModel ArithSpec ArithDense ArithLr ArithTree ArithHier ArithProd ArithDest HFactModel HFactSpec HFactSubst HFactSolve.
Import ListNotations.

Section P.
  Variable F : Fld.
  Notation K := (fk F).
  Notation C := (car K).
  Notation hmat := (rtree (hinfo K)).
  Notation hv := rt_val.
  Notation "0" := (c0 K).
  Notation "1" := (c1 K).
  Notation "x + y" := (cadd K x y) (at level 50, left associativity).
  Notation "x - y" := (csub K x y) (at level 50, left associativity).
  Notation "x * y" := (cmul K x y) (at level 40, left associativity).
  Add Ring Kring_hfh : (c_ring K).
  Variable parts : ctree -> list ctree.
  Notation ct := (cluster_tree parts).
  Notation hrep := (hrep parts).
  Notation htri := (htri parts).

  (** The local matrix of a block. *)
  Definition at_block (c o : ctree) (M : nat -> nat -> C) (i j : nat) : C := M (c_off c + i)%nat (c_off o + j)%nat.
  Lemma op_at : forall t c T i j, op_fun t (at_block c c T) i j = op_fun t T (c_off c + i)%nat (c_off c + j)%nat.
  Proof. intros [] c T i j; reflexivity. Qed.

  Theorem matrix_solve_ok : forall fuel s u t d (T : nat -> nat -> C) (A : hmat) alpha B q, htri u d T A -> (cheight (h_t (hv A)) <= fuel)%nat -> (1 <= q)%nat ->
    let n := c_size (h_t (hv A)) in
    let r := match s with SdL => n | SdR => q end in let k := match s with SdL => q | SdR => n end in
    wf_mat B r k ->
    exists X, matrix_solve F parts fuel s u t d alpha A B = Some X /\ wf_mat X r k /\
      is_solution s t (at_block (h_t (hv A)) (h_t (hv A)) T) alpha r k (me B) (me X).
  Proof.
    intros fuel s u t d T A alpha B q HT Hf Hq n r k HB. set (c := h_t (hv A)) in *. destruct s; cbn [matrix_solve].
    - subst r k. destruct (row_solve_ok F parts fuel u t d T A HT Hf alpha (transpose K B) q Hq) as (X & EX & WX & SX). { apply transpose_wf; apply HB. }
      fold c in WX, SX. fold n in WX. rewrite EX. eexists. split; [reflexivity|]. destruct (transpose_into_ok F X B q n WX HB) as [T1 T2]. split; [exact T1|].
      intros i j Hi Hj. cbn beta iota. specialize (SX j (c_off c + i)%nat Hj). rewrite csum_local in SX. replace (c_off c + i - c_off c)%nat with i in SX by lia.
      destruct HB as (B1 & B2 & _). rewrite transpose_me in SX by lia. rewrite <- SX by (unfold inc; lia). apply sum_ext. intros x Hx.
      rewrite T2 by assumption. rewrite op_at. replace (c_off c + x - c_off c)%nat with x by lia. reflexivity.
    - subst r k. destruct (conj_if_ok K (is_C t) B q n HB) as (B1 & E1 & W1 & M1). rewrite E1.
      destruct (row_solve_ok F parts fuel u (if is_N t then TrT else TrN) d T A HT Hf (if is_C t then cconj K alpha else alpha) B1 q Hq W1) as (X & EX & WX & SX).
      fold c in WX, SX. fold n in WX. rewrite EX.
      assert (WD : wf_mat (with_data K B (md X)) q n). { destruct HB as (B2 & B3 & _). destruct WX as (_ & _ & X3). repeat split; cbn [with_data mr mc md]; assumption. }
      destruct (conj_if_ok K (is_C t) (with_data K B (md X)) q n WD) as (X' & E2 & W2 & M2). rewrite E2. eexists. split; [reflexivity|]. split; [exact W2|].
      assert (MX : forall i j, me (with_data K B (md X)) i j = me X i j).
      { intros i j. unfold me. cbn [with_data mr md]. destruct HB as (-> & _). destruct WX as (-> & _). reflexivity. }
      intros i j Hi Hj. cbn beta iota. specialize (SX i (c_off c + j)%nat Hi). rewrite csum_local in SX. replace (c_off c + j - c_off c)%nat with j in SX by lia.
      rewrite M1 in SX by assumption. destruct t; cbn [is_N is_C] in *.
      + rewrite <- SX by (unfold inc; lia). apply sum_ext. intros x Hx. rewrite M2, MX by assumption. unfold at_block. cbn [op_fun].
        replace (c_off c + x - c_off c)%nat with x by lia. ring.
      + rewrite <- SX by (unfold inc; lia). apply sum_ext. intros x Hx. rewrite M2, MX by assumption. unfold at_block. cbn [op_fun].
        replace (c_off c + x - c_off c)%nat with x by lia. ring.
      + rewrite <- (cconj_invol K (alpha * me B i j)), cconj_mul. rewrite <- SX by (unfold inc; lia). rewrite conj_sum. apply sum_ext. intros x Hx.
        rewrite M2, MX by assumption. unfold at_block. cbn [op_fun]. rewrite cconj_mul. replace (c_off c + x - c_off c)%nat with x by lia. ring.
  Qed.

  (** ** Low-rank right-hand sides *)
  Lemma lr_solution_L : forall t (T : nat -> nat -> C) n q (U U' V : mat K), wf_mat U n (mc U) -> wf_mat U' n (mc U) ->
    is_solution SdL t T 1 n (mc U) (me U) (me U') -> is_solution SdL t T 1 n q (lr_entry (mkLrm U V)) (lr_entry (mkLrm U' V)).
  Proof.
    intros t T n q U U' V WU WU' H i j Hi Hj. cbn beta iota. unfold lr_entry, lrank. cbn [lU lV]. destruct WU' as (_ & -> & _).
    rewrite (sum_assoc K n (mc U) (fun x => op_fun t T i x) (fun x k => me U' x k) (fun k => me V k j)). rewrite <- sum_mul_l. apply sum_ext. intros k Hk.
    rewrite (H i k Hi Hk). ring.
  Qed.
  Lemma lr_solution_R : forall t (T : nat -> nat -> C) m n (U V V' : mat K), wf_mat V (mc U) n -> wf_mat V' (mc U) n ->
    is_solution SdR t T 1 (mc U) n (me V) (me V') -> is_solution SdR t T 1 m n (lr_entry (mkLrm U V)) (lr_entry (mkLrm U V')).
  Proof.
    intros t T m n U V V' WV WV' H i j Hi Hj. cbn beta iota. unfold lr_entry, lrank. cbn [lU lV].
    rewrite <- (sum_assoc K (mc U) n (fun k => me U i k) (fun k x => me V' k x) (fun x => op_fun t T x j)). rewrite <- sum_mul_l. apply sum_ext. intros k Hk.
    rewrite (H k j Hk Hj). ring.
  Qed.

  Lemma lr_solution_alpha : forall s t (T : nat -> nat -> C) alpha r k (B B1 X : nat -> nat -> C),
    (forall i j, (i < r)%nat -> (j < k)%nat -> B1 i j = alpha * B i j) -> is_solution s t T 1 r k B1 X -> is_solution s t T alpha r k B X.
  Proof. intros s t T alpha r k B B1 X H S i j Hi Hj. specialize (S i j Hi Hj). destruct s; cbn beta iota in *; rewrite S, H by assumption; ring. Qed.
  Theorem lrmat_solve_ok : forall fuel s u t d (T : nat -> nat -> C) (A : hmat) alpha L q, htri u d T A -> (cheight (h_t (hv A)) <= fuel)%nat -> (1 <= lrank L)%nat ->
    let n := c_size (h_t (hv A)) in
    let r := match s with SdL => n | SdR => q end in let k := match s with SdL => q | SdR => n end in
    wf_lrm L r k ->
    exists X, lrmat_solve F parts fuel s u t d alpha A L = Some X /\ wf_lrm X r k /\
      is_solution s t (at_block (h_t (hv A)) (h_t (hv A)) T) alpha r k (lr_entry L) (lr_entry X).
  Proof.
    intros fuel s u t d T A alpha L q HT Hf Hr n r k HL. unfold lrmat_solve.
    assert (Q : exists L1, (if ceqb K alpha 1 then Some L else lr_scale K alpha L) = Some L1 /\ wf_lrm L1 r k /\ (1 <= lrank L1)%nat /\
      forall i j, (i < r)%nat -> (j < k)%nat -> lr_entry L1 i j = alpha * lr_entry L i j).
    { destruct (ceqb_spec K alpha 1) as [->|N]; [exists L; repeat split; try apply HL; try exact Hr; intros; ring|].
      destruct (lr_scale_ok K alpha L r k HL) as (L1 & E1 & E2 & E3 & E4). exists L1. split; [exact E1|]. split; [exact E2|]. split; [lia|exact E4]. }
    destruct Q as (L1 & -> & [WU WV] & R1 & V1). subst r k. destruct s.
    - destruct (matrix_solve_ok fuel SdL u t d T A 1 (lU L1) (lrank L1) HT Hf R1 WU) as (U & E1 & W1 & S1). rewrite E1. eexists. split; [reflexivity|].
      split; [|eapply lr_solution_alpha; [exact V1|]; destruct L1 as [U0 V0]; apply lr_solution_L; assumption].
      unfold wf_lrm, lrank. cbn [lU lV]. destruct W1 as (Z1 & Z2 & Z3). rewrite Z2. split; [split; [exact Z1|split; [exact Z2|exact Z3]]|exact WV].
    - destruct (matrix_solve_ok fuel SdR u t d T A 1 (lV L1) (lrank L1) HT Hf R1 WV) as (V & E1 & W1 & S1). rewrite E1. eexists. split; [reflexivity|].
      split; [|eapply lr_solution_alpha; [exact V1|]; destruct L1 as [U0 V0]; apply lr_solution_R; assumption].
      unfold wf_lrm. change (lrank (mkLrm (lU L1) V)) with (lrank L1). cbn [lU lV]. split; assumption.
  Qed.

  (** ** Hierarchical right-hand sides *)
  Lemma copy_to_dense_hrep : forall M B, hrep M B ->
    exists d, copy_to_dense K B (repeat 0 (h_rows K B * h_cols K B)) = Some d /\ wf_mat (mkMat (h_rows K B) (h_cols K B) d) (h_rows K B) (h_cols K B) /\
      forall x y, (x < h_rows K B)%nat -> (y < h_cols K B)%nat ->
        me (mkMat (h_rows K B) (h_cols K B) d) x y = M (c_off (h_t (hv B)) + x)%nat (c_off (h_s (hv B)) + y)%nat.
  Proof.
    intros MB B HB. destruct (hrep_holds K parts MB B HB) as (L & HL & HMm).
    destruct (expanded_nosym K B L [] SyN MB HMm) with (tp := fun x : nat => x) (sp := fun x : nat => x) (b0 := repeat 0 (h_rows K B * h_cols K B)) as (d & E1 & E2 & E3 & E4); auto.
    - intros h Hh. destruct (wf_leaves _ _ _ _ _ (hm_wf _ _ _ _ _ _ HMm) h Hh) as [W Es].
      assert (Es' : h_sym h = SyN) by (destruct Es; assumption). unfold dense_ready. destruct (h_data h) as [|D|Lr] eqn:Ed; [exact I| |].
      + intros x y _ _. unfold leaf_entry. rewrite Ed, Es'. reflexivity.
      + assert (Q : In h (hl K B)).
        { destruct (hleaves_run_nosym K (length (preorder B)) [(B, negb (sym_is_N (h_sym (hv B))))] []) as (L' & F1 & F2).
          - intros p [<-|[]]. destruct (hrep_sym K parts MB B HB) as [-> _]. split; [reflexivity|]. exact (hrep_nosym K parts MB B HB).
          - cbn. rewrite app_nil_r. lia.
          - unfold hleaves in HL. rewrite HL in F1. injection F1 as <-. cbn [app map concat fst] in F2. rewrite app_nil_r in F2. eapply Permutation_in; eassumption. }
        destruct (hrep_hl K parts MB B HB h Q) as (_ & _ & _ & Wl & _). unfold leaf_ok in Wl. rewrite Ed in Wl. lia.
    - rewrite repeat_length. unfold h_rows, h_cols. lia.
    - unfold copy_to_dense. rewrite HL. rewrite E1. exists d. split; [reflexivity|]. rewrite repeat_length in E2. unfold h_rows, h_cols in *.
      split; [repeat split; cbn [mkMat mr mc md]; exact E2|]. intros x y Hx Hy. rewrite <- E3; [|apply in_ivb; lia|apply in_ivb; lia].
      unfold me. cbn [mkMat md mr]. f_equal. f_equal; [lia|f_equal; lia].
  Qed.

  (** Height of a hierarchical matrix. *)
  Lemma cheight_pos : forall c, (1 <= cheight c)%nat.
  Proof. intros [i cs]. cbn. lia. Qed.
  Lemma cheight_kid_le : forall c k, In k (ckids c) -> (cheight k <= cheight c)%nat.
  Proof.
    intros c k Hk. destruct (is_leaf c) eqn:L; [rewrite ckids_leaf in Hk by exact L; destruct Hk as [<-|[]]; lia|]. pose proof (cheight_kid c k L Hk). lia.
  Qed.
  Lemma hrep_height : forall M (A : hmat), hrep M A -> (height K A + 1 <= cheight (h_t (hv A)) + cheight (h_s (hv A)))%nat.
  Proof.
    intros M A H. induction H as [i H1 H2 H3 H4 H5 H6|i cs H1 H2 H3 H4 H5 H6 H7 H8 IH]; cbn [rt_val].
    - cbn. pose proof (cheight_pos (h_t i)). pose proof (cheight_pos (h_s i)). lia.
    - cbn [height]. enough (fold_right Nat.max 0%nat (map (height K) cs) + 2 <= cheight (h_t i) + cheight (h_s i))%nat by lia.
      assert (Q : forall c, In c cs -> (height K c + 2 <= cheight (h_t i) + cheight (h_s i))%nat).
      { intros c Hc. specialize (IH c Hc). assert (Hb : In (block_of c) (list_prod (ckids (h_t i)) (ckids (h_s i)))) by (eapply Permutation_in; [exact H7|apply in_map, Hc]).
        unfold block_of in Hb. apply in_prod_iff in Hb. destruct Hb as [Q1 Q2]. pose proof (cheight_kid_le _ _ Q1). pose proof (cheight_kid_le _ _ Q2).
        apply andb_false_iff in H6. destruct H6 as [L|L]; [pose proof (cheight_kid _ _ L Q1)|pose proof (cheight_kid _ _ L Q2)]; lia. }
      pose proof (cheight_pos (h_t i)). pose proof (cheight_pos (h_s i)). clear - Q H H0. induction cs as [|x cs IHc]; [cbn; lia|]. cbn [map fold_right].
      assert (X : (height K x + 2 <= cheight (h_t i) + cheight (h_s i))%nat) by (apply Q; left; reflexivity).
      assert (Y : (fold_right Nat.max 0%nat (map (height K) cs) + 2 <= cheight (h_t i) + cheight (h_s i))%nat) by (apply IHc; intros c Hc; apply Q; right; exact Hc). lia.
  Qed.

  (** The entries of a block replaced. *)
  Definition over (o j : ctree) (M2 M : nat -> nat -> C) (a b : nat) : C :=
    if in_iv a (interval o) && in_iv b (interval j) then M2 a b else M a b.
  Lemma over_in : forall o j M2 M a b, inc o a -> inc j b -> over o j M2 M a b = M2 a b.
  Proof. intros o j M2 M a b Ha Hb. unfold over. apply inc_iv in Ha, Hb. rewrite Ha, Hb. reflexivity. Qed.
  Lemma over_out : forall o j M2 M a b, ~ (inc o a /\ inc j b) -> over o j M2 M a b = M a b.
  Proof.
    intros o j M2 M a b H. unfold over. destruct (in_iv a (interval o)) eqn:E1; [|reflexivity]. destruct (in_iv b (interval j)) eqn:E2; [|reflexivity].
    exfalso. apply H. split; apply inc_iv; assumption.
  Qed.

  Lemma replace_hrep : forall M i cs k (x x' : hmat) M2, hrep M (RNode i cs) -> nth_error cs k = Some x -> block_of x' = block_of x -> hrep M2 x' ->
    hrep (over (h_t (hv x)) (h_s (hv x)) M2 M) (RNode i (replace_nth k x' cs)).
  Proof.
    intros M i cs k x x' M2 H Hk Hb H2. inversion H as [i0 H1 H3 H4 H5 H6 H7|i0 cs0 H1 H3 H4 H5 H6 H7 H8 H9]; subst; [destruct k; discriminate|].
    assert (Hlen : (k < length cs)%nat) by (apply nth_error_Some; congruence).
    assert (Bx : In (block_of x) (list_prod (ckids (h_t i)) (ckids (h_s i)))) by (eapply Permutation_in; [exact H8|apply in_map; eapply nth_error_In, Hk]).
    unfold block_of in Bx, Hb. apply in_prod_iff in Bx. destruct Bx as [Bx1 Bx2]. injection Hb as Hb1 Hb2.
    apply hrep_node; try assumption.
    - rewrite (replace_blocks K cs k x x' Hk); [exact H8|unfold block_of; congruence].
    - intros c Hc. apply In_nth_error in Hc. destruct Hc as [n Hn]. rewrite nth_replace in Hn by exact Hlen. destruct (Nat.eqb_spec n k) as [En|Nk].
      + subst n. injection Hn as <-. eapply hrep_ext; [exact H2|]. intros a b Ha Hb. apply inc_iv in Ha, Hb. symmetry. apply over_in; congruence.
      + assert (Hcs : In c cs) by (eapply nth_error_In, Hn). eapply hrep_ext; [apply H9, Hcs|]. intros a b Ha Hb. apply inc_iv in Ha, Hb. symmetry. apply over_out.
        intros [Qa Qb]. apply Nk. assert (Bc : In (block_of c) (list_prod (ckids (h_t i)) (ckids (h_s i)))) by (eapply Permutation_in; [exact H8|apply in_map, Hcs]).
        unfold block_of in Bc. apply in_prod_iff in Bc. destruct Bc as [Bc1 Bc2].
        assert (E1 : h_t (hv c) = h_t (hv x)) by (apply (kid_unique parts (h_t i) _ _ a); assumption).
        assert (E2 : h_s (hv c) = h_s (hv x)) by (apply (kid_unique parts (h_s i) _ _ b); assumption).
        apply (unique_index K cs n k c x); try assumption; [|unfold block_of; congruence].
        eapply Permutation_NoDup; [apply Permutation_sym, H8|apply prod_nodup with parts; assumption].
  Qed.

  Lemma on_sub_hrep : forall M B o j f (P : (nat -> nat -> C) -> Prop), hrep M B -> h_data (hv B) = DNone ->
    In o (ckids (h_t (hv B))) -> In j (ckids (h_s (hv B))) ->
    (forall X, hrep M X -> block_of X = (o, j) -> exists X' M2, f X = Some X' /\ block_of X' = (o, j) /\ hrep M2 X' /\ P M2) ->
    exists B' M2, on_sub F B o j f = Some B' /\ hrep (over o j M2 M) B' /\ block_of B' = block_of B /\ h_data (hv B') = DNone /\ P M2.
  Proof.
    intros M B o j f P HB N Ho Hj Hf. destruct (hrep_child K parts M B o j HB N Ho Hj) as (k & x & Hk & Hb & Hx & Hp & _ & _).
    destruct (Hf x Hx Hb) as (x' & M2 & E1 & E2 & E3 & E4). destruct B as [i cs]. cbn [rt_val rt_children] in *.
    exists (RNode i (replace_nth k x' cs)), M2. split; [|split; [|split; [reflexivity|split; [exact N|exact E4]]]].
    - unfold on_sub. rewrite Hp. cbn [node_at rt_children replace_at rt_val]. rewrite Hk. cbn [node_at]. rewrite E1. cbn [replace_at rt_children]. reflexivity.
    - replace o with (h_t (hv x)) by (unfold block_of in Hb; congruence). replace j with (h_s (hv x)) by (unfold block_of in Hb; congruence).
      apply replace_hrep; [exact HB|exact Hk|congruence|exact E3].
  Qed.

  (** A new leaf. *)
  Lemma new_leaf : forall M B d, hrep M B -> leaf_ok (set_data K (hv B) d) ->
    hrep (fun a b => stored (set_data K (hv B) d) (a - c_off (h_t (hv B)))%nat (b - c_off (h_s (hv B)))%nat) (RNode (set_data K (hv B) d) []).
  Proof.
    intros M B d HB HL. destruct (hrep_ct K parts M B HB) as [C1 C2]. destruct (hrep_sym K parts M B HB) as [S1 S2].
    apply hrep_leaf; cbn [set_data h_t h_s h_sym h_lsym]; try assumption. intros a b Ha Hb. f_equal; lia.
  Qed.

  Lemma solves_local : forall s t T alpha c o (M X : nat -> nat -> C),
    is_solution s t (at_block c c T) alpha (match s with SdL => c_size c | SdR => c_size o end) (match s with SdL => c_size o | SdR => c_size c end)
      (match s with SdL => at_block c o M | SdR => at_block o c M end) (match s with SdL => at_block c o X | SdR => at_block o c X end) ->
    solves (F:=F) s t T alpha c o M X.
  Proof.
    intros s t T alpha c o M X H. destruct s; cbn [solves]; intros a b Ha Hb; unfold inc in Ha, Hb.
    - specialize (H (a - c_off c)%nat (b - c_off o)%nat ltac:(lia) ltac:(lia)). cbn beta iota in H. unfold at_block in H at 3.
      replace (c_off c + (a - c_off c))%nat with a in H by lia. replace (c_off o + (b - c_off o))%nat with b in H by lia. rewrite <- H.
      unfold csum. apply sum_ext. intros k Hk. rewrite op_at. unfold at_block. do 2 f_equal; lia.
    - specialize (H (a - c_off o)%nat (b - c_off c)%nat ltac:(lia) ltac:(lia)). cbn beta iota in H. unfold at_block in H at 3.
      replace (c_off o + (a - c_off o))%nat with a in H by lia. replace (c_off c + (b - c_off c))%nat with b in H by lia. rewrite <- H.
      unfold csum. apply sum_ext. intros k Hk. rewrite op_at. unfold at_block. do 2 f_equal; lia.
  Qed.
  (** The same for data of a leaf. *)
  Lemma solves_stored : forall s t T c o (M : nat -> nat -> C) (B B' : nat -> nat -> C) rt rs,
    rt = match s with SdL => c | SdR => o end -> rs = match s with SdL => o | SdR => c end ->
    (forall a b, (a < c_size rt)%nat -> (b < c_size rs)%nat -> B a b = M (c_off rt + a)%nat (c_off rs + b)%nat) ->
    is_solution s t (at_block c c T) 1 (c_size rt) (c_size rs) B B' ->
    solves (F:=F) s t T 1 c o M (fun a b => B' (a - c_off rt)%nat (b - c_off rs)%nat).
  Proof.
    intros s t T c o M B B' rt rs -> -> HB H. apply solves_local. destruct s; (eapply is_solution_ext; [| | |exact H]).
    all: intros; try reflexivity; unfold at_block; try (rewrite HB by assumption; reflexivity); f_equal; lia.
  Qed.

  Variable recompress : lrm K -> lrm K.
  Variable svd_factors : mat K -> lrm K.
  Hypothesis HR : exact_recompression recompress.
  Hypothesis HSv : exact_svd svd_factors.

  Definition tri_of (s : side) (B : hmat) : ctree := match s with SdL => h_t (hv B) | SdR => h_s (hv B) end.
  Definition oth_of (s : side) (B : hmat) : ctree := match s with SdL => h_s (hv B) | SdR => h_t (hv B) end.
  Definition ent (s : side) (M : nat -> nat -> C) (x r : nat) : C := match s with SdL => M x r | SdR => M r x end.

  Lemma h_scale_1 : forall alpha M B, hrep M B ->
    exists B1, (if ceqb K alpha 1 then Some B else h_scale K alpha B) = Some B1 /\ hrep (fun i j => alpha * M i j) B1 /\ block_of B1 = block_of B.
  Proof.
    intros alpha M B HB. destruct (ceqb_spec K alpha 1) as [->|N].
    - exists B. split; [reflexivity|]. split; [|reflexivity]. eapply hrep_ext; [exact HB|]. intros. ring.
    - destruct (hrep_ct K parts M B HB) as [C1 C2]. destruct (h_scale_ok K parts alpha B (hrep_hdest K parts M B HB) C1 C2) as (B1 & E1 & U1).
      exists B1. split; [exact E1|]. split; [exact (hrep_upd K parts M B HB _ _ U1)|exact (hupd_block K _ _ _ U1)].
  Qed.

  Theorem hh_solve_ok : forall fuel s u t d T (A : hmat) M B alpha, htri u d T A -> hrep M B ->
    tri_of s B = h_t (hv A) -> above (oth_of s B) = above (h_t (hv A)) -> (2 * cheight (h_t (hv A)) + cheight (oth_of s B) <= fuel)%nat ->
    exists B' X, hh_solve F recompress svd_factors parts fuel s u t d alpha A B = Some B' /\ hrep X B' /\ block_of B' = block_of B /\
      solves (F:=F) s t T alpha (h_t (hv A)) (oth_of s B) M X.
  Proof.
    induction fuel as [|fuel IH]; intros s u t d T A M0 B0 alpha HT HB0 HC0 HA0 Hf.
    { pose proof (cheight_pos (h_t (hv A))). lia. }
    destruct (htri_block F parts u d T A HT) as [Bs Hct]. pose proof (ct_size parts _ Hct) as Hsz. set (c := h_t (hv A)) in *. pose proof (cheight_pos c) as Hch.
    cbn [hh_solve]. destruct (h_scale_1 alpha M0 B0 HB0) as (B & EB & HB & Bk). rewrite EB. clear EB.
    set (M := fun i j => alpha * M0 i j) in *. assert (Bk' : h_t (hv B) = h_t (hv B0) /\ h_s (hv B) = h_s (hv B0)) by (unfold block_of in Bk; injection Bk; auto).
    destruct Bk' as [Bk1 Bk2]. set (o := oth_of s B0) in *.
    assert (HC : tri_of s B = c) by (unfold tri_of in *; destruct s; congruence). assert (HO : oth_of s B = o) by (unfold oth_of, o in *; destruct s; cbn [oth_of]; congruence).
    assert (Ho : ct o). { unfold o. destruct (hrep_ct K parts M0 B0 HB0). destruct s; assumption. } pose proof (ct_size parts _ Ho) as Hso.
    pose proof (cheight_pos o) as Hoh.
    assert (Rt : h_t (hv B) = match s with SdL => c | SdR => o end) by (destruct s; cbn [tri_of oth_of] in *; congruence).
    assert (Rs : h_s (hv B) = match s with SdL => o | SdR => c end) by (destruct s; cbn [tri_of oth_of] in *; congruence).
    (* it is enough to solve with M *)
    enough (G : exists B' X, match h_data (hv A), h_data (hv B) with
      | DNone, DNone =>
            let nc := not_consistent K A B in
            let fw := match s with SdL => op_lower t u | SdR => negb (op_lower t u) end in
            let ps := in_order fw (kids parts nc (match s with SdL => out_of K t A | SdR => mid_of K t A end)) in
            let ms := in_order fw (kids parts nc (match s with SdL => mid_of K t A | SdR => out_of K t A end)) in
            let qs := in_order fw (kids parts nc (match s with SdL => h_s (hv B) | SdR => h_t (hv B) end)) in
            let in_B := fun (p q : ctree) => match s with SdL => (p, q) | SdR => (q, p) end in
            let A_child := fun (p m : ctree) => match s, is_N t with
                                                | SdL, true | SdR, false => sub K A p m
                                                | _, _ => sub K A m p
                                                end in
            fold_o (fun p B =>
              fold_o (fun q B =>
                fold_o (fun m B =>
                  if ceq p m then
                    do Ac <- A_child p m;
                    on_sub F B (fst (in_B p q)) (snd (in_B p q)) (hh_solve F recompress svd_factors parts fuel s u t d (c1 K) Ac)
                  else if before fw m p then
                    do Ac <- A_child p m;
                    do Bc <- sub K B (fst (in_B m q)) (snd (in_B m q));
                    on_sub F B (fst (in_B p q)) (snd (in_B p q)) (fun X =>
                      match s with
                      | SdL => hh_h K recompress svd_factors parts fuel t TrN (copp K (c1 K)) Ac Bc (c1 K) X
                      | SdR => hh_h K recompress svd_factors parts fuel TrN t (copp K (c1 K)) Bc Ac (c1 K) X
                      end)
                  else Some B) ms B) qs B) ps B
        | DDense D, DDense X =>
            do X' <- triangular_matrix_matrix_solve F s u t d (c1 K) D X; Some (with_hdata K B (DDense X'))
        | DDense D, DLow L =>
            match s with
            | SdL => do U <- triangular_matrix_matrix_solve F SdL u t d (c1 K) D (lU L); Some (with_hdata K B (DLow (mkLrm U (lV L))))
            | SdR => do V <- triangular_matrix_matrix_solve F SdR u t d (c1 K) D (lV L); Some (with_hdata K B (DLow (mkLrm (lU L) V)))
            end
        | DDense D, DNone =>
            do b <- copy_to_dense K B (repeat (c0 K) (h_rows K B * h_cols K B));
            do X' <- triangular_matrix_matrix_solve F s u t d (c1 K) D (mkMat (h_rows K B) (h_cols K B) b);
            Some (set_dense F B X')
        | DLow _, _ => Some B
        | DNone, DLow L => do L' <- lrmat_solve F parts fuel s u t d (c1 K) A L; Some (with_hdata K B (DLow L'))
        | DNone, DDense X => do X' <- matrix_solve F parts fuel s u t d (c1 K) A X; Some (with_hdata K B (DDense X'))
        end = Some B' /\ hrep X B' /\ block_of B' = block_of B /\ solves (F:=F) s t T 1 c o M X).
    { destruct G as (B' & X & E1 & E2 & E3 & E4). exists B', X. split; [exact E1|]. split; [exact E2|]. split; [congruence|].
      unfold solves in *. destruct s; intros a b Ha Hb; rewrite (E4 a b Ha Hb); unfold M; ring. }
    destruct (h_data (hv A)) as [|D|L] eqn:EA; [destruct (h_data (hv B)) as [|X|L] eqn:ED| |].
    - (* two hierarchical matrices *)
      destruct (htri_node_inv F parts u d T A HT EA) as (HL & HNE & HD & HS & HZ). fold c in HL, HD, HS, HZ. clear HNE. cbv zeta.
      assert (Eo : out_of K t A = c /\ mid_of K t A = c) by (unfold out_of, mid_of; destruct (is_N t); split; auto). destruct Eo as [-> ->].
      assert (NC : not_consistent K A B = above c).
      { unfold not_consistent. rewrite Rt, Rs, Bs. fold c. destruct s; rewrite HA0; destruct (above c); reflexivity. }
      assert (Ek : kids parts (not_consistent K A B) c = ckids c) by (apply kids_eq; [exact Hct|exact NC]).
      assert (Eko : kids parts (not_consistent K A B) o = ckids o) by (apply kids_eq; [exact Ho|congruence]).
      replace (match s with SdL => h_s (hv B) | SdR => h_t (hv B) end) with o by (destruct s; congruence).
      replace (match s with SdL => c | SdR => c end) with c by (destruct s; reflexivity). rewrite Ek, Eko.
      change (match s with SdL => op_lower t u | SdR => negb (op_lower t u) end) with (fws s t u).
      set (fw := fws s t u).
      set (in_B := fun (p q : ctree) => match s with SdL => (p, q) | SdR => (q, p) end).
      assert (IB : forall p q, In p (ckids c) -> In q (ckids o) -> forall Bx : hmat, block_of Bx = block_of B ->
         In (fst (in_B p q)) (ckids (h_t (hv Bx))) /\ In (snd (in_B p q)) (ckids (h_s (hv Bx)))).
      { intros p q Hp Hq Bx E. unfold block_of in E. injection E as E1 E2. rewrite E1, E2, Rt, Rs. unfold in_B. destruct s; cbn [fst snd]; auto. }
      assert (OV : forall p q M2 M1 x r, inc p x -> inc q r -> ent s (over (fst (in_B p q)) (snd (in_B p q)) M2 M1) x r = ent s M2 x r).
      { intros p q M2 M1 x r Hx Hr. unfold ent, in_B. destruct s; cbn [fst snd]; apply over_in; assumption. }
      assert (ON : forall p q M2 M1 x r, ~ (inc q r /\ inc p x) -> ent s (over (fst (in_B p q)) (snd (in_B p q)) M2 M1) x r = ent s M1 x r).
      { intros p q M2 M1 x r Hx. unfold ent, in_B. destruct s; cbn [fst snd]; apply over_out; tauto. }
      destruct (loops3_ok F parts (Gs F s t T) c (in_order fw (ckids c)) Hct (in_order_perm _ _) (order_zero F parts s u t T c Hct HZ) fw (order_before parts fw c Hct)
        o (in_order fw (ckids o)) Ho (in_order_perm _ _) hmat
        (fun b V => exists M1, hrep M1 b /\ h_data (hv b) = DNone /\ block_of b = block_of B /\ forall r x, V r x = ent s M1 x r)
        (fun q p m Bx => do Ac <- match s, is_N t with SdL, true | SdR, false => sub K A p m | _, _ => sub K A m p end;
                    do Bc <- sub K Bx (fst (in_B m q)) (snd (in_B m q));
                    on_sub F Bx (fst (in_B p q)) (snd (in_B p q)) (fun X =>
                      match s with
                      | SdL => hh_h K recompress svd_factors parts fuel t TrN (copp K (c1 K)) Ac Bc (c1 K) X
                      | SdR => hh_h K recompress svd_factors parts fuel TrN t (copp K (c1 K)) Bc Ac (c1 K) X
                      end))
        (fun q p m Bx => do Ac <- match s, is_N t with SdL, true | SdR, false => sub K A p m | _, _ => sub K A m p end;
                    on_sub F Bx (fst (in_B p q)) (snd (in_B p q)) (hh_solve F recompress svd_factors parts fuel s u t d (c1 K) Ac)))
        with (b := B) (V0 := fun r x => ent s M x r) as (B' & V' & E' & (MX & H1 & H2 & H3 & H4) & SV).
      + (* update *)
        intros q b V p m Hq (M1 & Hb & Nb & Kb & EV) Hp Hm Hpm Hbe. apply (ord_in c _ (in_order_perm _ _)) in Hp, Hm. apply (ord_in o _ (in_order_perm _ _)) in Hq.
        assert (Hsub : exists Ac, match s, is_N t with SdL, true | SdR, false => sub K A p m | _, _ => sub K A m p end = Some Ac /\
           block_of Ac = match s, is_N t with SdL, true | SdR, false => (p, m) | _, _ => (m, p) end /\ hrep T Ac).
        { unfold before, fw, fws in Hbe. destruct s, t, u; cbn [is_N op_lower negb] in *; apply Nat.ltb_lt in Hbe; apply HS; assumption. }
        destruct Hsub as (Ac & ES & EBl & HRc). rewrite ES.
        destruct (IB m q Hm Hq b Kb) as [I1 I2]. destruct (hrep_child K parts M1 b _ _ Hb Nb I1 I2) as (km & Bc & _ & Kc & HBc & _ & Esb & _). rewrite Esb.
        destruct (IB p q Hp Hq b Kb) as [J1 J2].
        assert (HHc : (height K Ac + 3 <= 2 * cheight c)%nat).
        { pose proof (hrep_height T Ac HRc) as Q. pose proof (cheight_kid c p HL Hp). pose proof (cheight_kid c m HL Hm). unfold block_of in EBl.
          destruct s, (is_N t); injection EBl as X1 X2; rewrite X1, X2 in Q; lia. }
        assert (HHb : (height K Bc + 2 <= cheight c + cheight o)%nat).
        { pose proof (hrep_height M1 Bc HBc) as Q. pose proof (cheight_kid c m HL Hm). pose proof (cheight_kid_le o q Hq). unfold block_of, in_B in Kc.
          destruct s; cbn [fst snd] in Kc; injection Kc as X1 X2; rewrite X1, X2 in Q; lia. }
        assert (Ap : above p = false) by (apply (above_kid parts c); assumption). assert (Am : above m = false) by (apply (above_kid parts c); assumption).
        assert (Aq : above q = false) by (apply (above_kid parts o); assumption).
        destruct (on_sub_hrep M1 b (fst (in_B p q)) (snd (in_B p q)) (fun X =>
                      match s with
                      | SdL => hh_h K recompress svd_factors parts fuel t TrN (copp K (c1 K)) Ac Bc (c1 K) X
                      | SdR => hh_h K recompress svd_factors parts fuel TrN t (copp K (c1 K)) Bc Ac (c1 K) X
                      end) (fun M2 => forall x r, inc p x -> inc q r -> ent s M2 x r = ent s M1 x r - csum m (fun y => Gs F s t T x y * ent s M1 y r)) Hb Nb J1 J2)
          as (b' & M2 & E1 & E2 & E3 & E4 & E5).
        { intros X HX KX. destruct s; cbn [in_B fst snd] in *.
          - assert (Oa : out_of K t Ac = p /\ mid_of K t Ac = m) by (unfold out_of, mid_of, block_of in *; destruct (is_N t); injection EBl as <- <-; auto). destruct Oa as [Oa Ma].
            assert (Ob : out_of K TrN Bc = m /\ mid_of K TrN Bc = q) by (unfold out_of, mid_of, block_of in *; cbn [is_N]; injection Kc as <- <-; auto). destruct Ob as [Ob Mb].
            destruct (hh_h_ok K parts recompress HR svd_factors HSv fuel t TrN (copp K 1) T M1 Ac Bc X) as (X' & F1 & F2); try assumption; try congruence; try lia.
            { apply (hrep_hdest K parts M1 X HX). }
            exists X'. eexists. split; [exact F1|]. split; [rewrite (hupd_block K _ _ _ F2); exact KX|]. split; [exact (hrep_upd K parts M1 X HX _ _ F2)|].
            intros x r Hx Hr. cbn [ent Gs]. rewrite Ma. cbn [op_fun]. ring.
          - assert (Oa : out_of K t Ac = m /\ mid_of K t Ac = p) by (unfold out_of, mid_of, block_of in *; destruct (is_N t); injection EBl as <- <-; auto). destruct Oa as [Oa Ma].
            assert (Ob : out_of K TrN Bc = q /\ mid_of K TrN Bc = m) by (unfold out_of, mid_of, block_of in *; cbn [is_N]; injection Kc as <- <-; auto). destruct Ob as [Ob Mb].
            destruct (hh_h_ok K parts recompress HR svd_factors HSv fuel TrN t (copp K 1) M1 T Bc Ac X) as (X' & F1 & F2); try assumption; try congruence; try lia.
            { apply (hrep_hdest K parts M1 X HX). }
            exists X'. eexists. split; [exact F1|]. split; [rewrite (hupd_block K _ _ _ F2); exact KX|]. split; [exact (hrep_upd K parts M1 X HX _ _ F2)|].
            intros x r Hx Hr. cbn [ent Gs]. rewrite Mb. cbn [op_fun].
            rewrite (csum_inc F m (fun y => M1 r y * op_fun t T y x) (fun y => op_fun t T y x * M1 r y)) by (intros; ring). ring. }
        rewrite E1. exists b'. eexists (fun r x => ent s (over (fst (in_B p q)) (snd (in_B p q)) M2 M1) x r). split; [reflexivity|]. split.
        { eexists. split; [exact E2|]. split; [exact E4|]. split; [congruence|]. reflexivity. }
        split.
        * intros r x Hr Hx Hn. rewrite ON by exact Hn. rewrite EV. reflexivity.
        * intros r a Hr Ha. rewrite OV by assumption. rewrite E5 by assumption. rewrite EV. f_equal. apply (csum_inc F). intros y Hy. rewrite EV. reflexivity.
      + (* solve *)
        intros q b V p Hq (M1 & Hb & Nb & Kb & EV) Hp. apply (ord_in c _ (in_order_perm _ _)) in Hp. apply (ord_in o _ (in_order_perm _ _)) in Hq.
        destruct (HD p Hp) as (Ac & ES & EBl & HTc). destruct (IB p q Hp Hq b Kb) as [J1 J2].
        assert (ES' : match s, is_N t with SdL, true | SdR, false => sub K A p p | _, _ => sub K A p p end = Some Ac) by (destruct s, (is_N t); exact ES). rewrite ES'.
        assert (Ep : h_t (hv Ac) = p) by (unfold block_of in EBl; congruence).
        destruct (on_sub_hrep M1 b (fst (in_B p q)) (snd (in_B p q)) (hh_solve F recompress svd_factors parts fuel s u t d (c1 K) Ac)
          (fun M2 => forall x r, inc p x -> inc q r -> csum p (fun y => Gs F s t T x y * ent s M2 y r) = ent s M1 x r) Hb Nb J1 J2) as (b' & M2 & E1 & E2 & E3 & E4 & E5).
        { intros X HX KX. assert (TO : tri_of s X = p /\ oth_of s X = q) by (unfold tri_of, oth_of, in_B, block_of in *; destruct s; cbn [fst snd] in KX; injection KX as <- <-; auto).
          destruct TO as [TX OX].
          destruct (IH s u t d T Ac M1 X 1 HTc HX) as (X' & M2 & F1 & F2 & F3 & F4).
          { congruence. }
          { rewrite OX, Ep. rewrite (above_kid parts c p Hct Hp), (above_kid parts o q Ho Hq). reflexivity. }
          { rewrite OX, Ep. pose proof (cheight_kid c p HL Hp). pose proof (cheight_kid_le o q Hq). lia. }
          exists X', M2. split; [exact F1|]. split; [congruence|]. split; [exact F2|]. rewrite OX, Ep in F4. unfold solves in F4. intros x r Hx Hr. destruct s; cbn [ent Gs].
          - rewrite (F4 x r Hx Hr). ring.
          - rewrite (csum_inc F p _ (fun y => M2 r y * op_fun t T y x)) by (intros; ring). rewrite (F4 r x Hr Hx). ring. }
        rewrite E1. exists b'. eexists (fun r x => ent s (over (fst (in_B p q)) (snd (in_B p q)) M2 M1) x r). split; [reflexivity|]. split.
        { eexists. split; [exact E2|]. split; [exact E4|]. split; [congruence|]. reflexivity. }
        split.
        * intros r x Hr Hx Hn. rewrite ON by exact Hn. rewrite EV. reflexivity.
        * intros r a Hr Ha. rewrite EV. rewrite <- (E5 a r Ha Hr). apply (csum_inc F). intros y Hy. rewrite OV by assumption. reflexivity.
      + exists M. split; [exact HB|]. split; [exact ED|]. split; [reflexivity|]. reflexivity.
      + exists B', MX. split; [exact E'|]. split; [exact H1|]. split; [exact H3|]. unfold solves. destruct s; intros a b Ha Hb.
        * specialize (SV b a Hb Ha). cbn [ent Gs] in SV. transitivity (M a b); [|ring]. rewrite <- SV. apply (csum_inc F). intros x Hx. rewrite H4. reflexivity.
        * specialize (SV a b Ha Hb). cbn [ent Gs] in SV. transitivity (M a b); [|ring]. rewrite <- SV. apply (csum_inc F). intros x Hx. rewrite H4. cbn [ent]. ring.
    - (* A hierarchical, B dense *)
      destruct (hrep_leaf_inv K parts M B HB) as (Ech & WL & EV); [congruence|]. unfold leaf_ok in WL. rewrite ED in WL. unfold stored in EV. rewrite ED in EV.
      assert (WX : wf_mat X (match s with SdL => c_size c | SdR => c_size o end) (match s with SdL => c_size o | SdR => c_size c end)) by (rewrite Rt, Rs in WL; destruct s; exact WL).
      destruct (matrix_solve_ok fuel s u t d T A 1 X (c_size o) HT) as (X' & E1 & W1 & S1); try assumption; try (fold c; lia). fold c in S1, W1. rewrite E1.
      assert (LK : leaf_ok (set_data K (hv B) (DDense X'))) by (unfold leaf_ok; cbn [set_data h_data h_t h_s]; rewrite Rt, Rs; destruct s; exact W1).
      exists (with_hdata K B (DDense X')). eexists. split; [reflexivity|]. unfold with_hdata. rewrite Ech. split; [apply (new_leaf M B _ HB LK)|]. split; [reflexivity|].
      unfold stored. cbn [set_data h_data]. rewrite Rt, Rs in *. apply (solves_stored s t T c o M (me X) (me X') _ _ eq_refl eq_refl EV). destruct s; exact S1.
    - (* A hierarchical, B low rank *)
      destruct (hrep_leaf_inv K parts M B HB) as (Ech & WL & EV); [congruence|]. unfold leaf_ok in WL. rewrite ED in WL. unfold stored in EV. rewrite ED in EV.
      rewrite Rt, Rs in *. destruct WL as ((WU & WV) & Rk). unfold lrmat_solve. destruct (ceqb_spec K 1 1) as [_|Q]; [|congruence]. destruct s.
      + destruct (matrix_solve_ok fuel SdL u t d T A 1 (lU L) (lrank L) HT) as (U & E1 & W1 & S1); try assumption; try (fold c; lia). fold c in S1, W1. rewrite E1.
        assert (LK : leaf_ok (set_data K (hv B) (DLow (mkLrm U (lV L))))).
        { unfold leaf_ok. cbn [set_data h_data h_t h_s]. rewrite Rt, Rs. unfold wf_lrm, lrank. cbn [lU lV]. destruct W1 as (Z1 & Z2 & Z3). rewrite Z2.
          split; [split; [split; [exact Z1|split; [exact Z2|exact Z3]]|exact WV]|exact Rk]. }
        eexists. eexists. split; [reflexivity|]. unfold with_hdata. rewrite Ech. split; [apply (new_leaf M B _ HB LK)|]. split; [reflexivity|].
        unfold stored. cbn [set_data h_data]. rewrite Rt, Rs. apply (solves_stored SdL t T c o M (lr_entry L) _ _ _ eq_refl eq_refl EV).
        destruct L as [U0 V0]. apply lr_solution_L; assumption.
      + destruct (matrix_solve_ok fuel SdR u t d T A 1 (lV L) (lrank L) HT) as (V & E1 & W1 & S1); try assumption; try (fold c; lia). fold c in S1, W1. rewrite E1.
        assert (LK : leaf_ok (set_data K (hv B) (DLow (mkLrm (lU L) V)))).
        { unfold leaf_ok. cbn [set_data h_data h_t h_s]. rewrite Rt, Rs. unfold wf_lrm. change (lrank (mkLrm (lU L) V)) with (lrank L). cbn [lU lV].
          split; [split; [exact WU|exact W1]|exact Rk]. }
        eexists. eexists. split; [reflexivity|]. unfold with_hdata. rewrite Ech. split; [apply (new_leaf M B _ HB LK)|]. split; [reflexivity|].
        unfold stored. cbn [set_data h_data]. rewrite Rt, Rs. apply (solves_stored SdR t T c o M (lr_entry L) _ _ _ eq_refl eq_refl EV).
        destruct L as [U0 V0]. apply lr_solution_R; assumption.
    - (* A dense *)
      destruct HT as [i D' F1 F2 F3 F4 F5 F6 F7|i cs F1 F2 F3 F4 F5 F6 F7 F8 F9 F10 F11]; cbn [rt_val] in *; [|congruence].
      rewrite EA in F1. injection F1 as <-. subst c. set (c := h_t i) in *.
      assert (TE : forall s' m n Bm X, (match s' with SdL => m | SdR => n end) = c_size c -> is_solution s' t (factor u d D) 1 m n Bm X -> is_solution (F:=F) s' t (at_block c c T) 1 m n Bm X).
      { intros s' m n Bm X Hm H. eapply is_solution_ext; [| | |exact H]; try (intros; reflexivity). intros a b. cbv zeta. rewrite Hm. intros Ha Hb. unfold at_block. symmetry. apply F7; assumption. }
      destruct (h_data (hv B)) as [|X|L] eqn:ED.
      + (* hierarchical *)
        destruct (copy_to_dense_hrep M B HB) as (b & E1 & W1 & V1). rewrite E1. unfold h_rows, h_cols in *. rewrite Rt, Rs in *.
        destruct (tri_solve_ok F s u t d 1 D (mkMat (c_size (match s with SdL => c | SdR => o end)) (c_size (match s with SdL => o | SdR => c end)) b)
          (c_size (match s with SdL => c | SdR => o end)) (c_size (match s with SdL => o | SdR => c end))) as (X & EX & WX & _ & SX).
        { destruct s; assumption. }
        { destruct s; assumption. }
        { destruct s; exact F4. }
        { exact W1. }
        { destruct s; exact F5. }
        { destruct s; exact F6. }
        rewrite EX.
        assert (LK : leaf_ok (set_data K (hv B) (DDense X))) by (unfold leaf_ok; cbn [set_data h_data h_t h_s]; rewrite Rt, Rs; exact WX).
        exists (set_dense F B X). eexists. split; [reflexivity|]. split; [apply (new_leaf M B _ HB LK)|]. split; [reflexivity|].
        unfold stored. cbn [set_data h_data]. rewrite Rt, Rs. apply (solves_stored s t T c o M _ (me X) _ _ eq_refl eq_refl V1). apply TE; [destruct s; reflexivity|exact SX].
      + destruct (hrep_leaf_inv K parts M B HB) as (Ech & WL & EV); [congruence|]. unfold leaf_ok in WL. rewrite ED in WL. unfold stored in EV. rewrite ED in EV. rewrite Rt, Rs in *.
        destruct (tri_solve_ok F s u t d 1 D X
          (c_size (match s with SdL => c | SdR => o end)) (c_size (match s with SdL => o | SdR => c end))) as (X' & EX & WX & _ & SX).
        { destruct s; assumption. }
        { destruct s; assumption. }
        { destruct s; exact F4. }
        { exact WL. }
        { destruct s; exact F5. }
        { destruct s; exact F6. }
        rewrite EX.
        assert (LK : leaf_ok (set_data K (hv B) (DDense X'))) by (unfold leaf_ok; cbn [set_data h_data h_t h_s]; rewrite Rt, Rs; exact WX).
        exists (with_hdata K B (DDense X')). eexists. split; [reflexivity|]. unfold with_hdata. rewrite Ech. split; [apply (new_leaf M B _ HB LK)|]. split; [reflexivity|].
        unfold stored. cbn [set_data h_data]. rewrite Rt, Rs. apply (solves_stored s t T c o M _ (me X') _ _ eq_refl eq_refl EV). apply TE; [destruct s; reflexivity|exact SX].
      + destruct (hrep_leaf_inv K parts M B HB) as (Ech & WL & EV); [congruence|]. unfold leaf_ok in WL. rewrite ED in WL. unfold stored in EV. rewrite ED in EV. rewrite Rt, Rs in *.
        destruct WL as ((WU & WV) & Rk). destruct s.
        * destruct (tri_solve_ok F SdL u t d 1 D (lU L) (c_size c) (lrank L)) as (U & EX & W1 & _ & SX); try assumption. rewrite EX.
          assert (LK : leaf_ok (set_data K (hv B) (DLow (mkLrm U (lV L))))).
          { unfold leaf_ok. cbn [set_data h_data h_t h_s]. rewrite Rt, Rs. unfold wf_lrm, lrank. cbn [lU lV]. destruct W1 as (Z1 & Z2 & Z3). rewrite Z2.
            split; [split; [split; [exact Z1|split; [exact Z2|exact Z3]]|exact WV]|exact Rk]. }
          eexists. eexists. split; [reflexivity|]. unfold with_hdata. rewrite Ech. split; [apply (new_leaf M B _ HB LK)|]. split; [reflexivity|].
          unfold stored. cbn [set_data h_data]. rewrite Rt, Rs. apply (solves_stored SdL t T c o M (lr_entry L) _ _ _ eq_refl eq_refl EV).
          destruct L as [U0 V0]. apply lr_solution_L; try assumption. apply TE; [reflexivity|exact SX].
        * destruct (tri_solve_ok F SdR u t d 1 D (lV L) (lrank L) (c_size c)) as (V & EX & W1 & _ & SX); try assumption. rewrite EX.
          assert (LK : leaf_ok (set_data K (hv B) (DLow (mkLrm (lU L) V)))).
          { unfold leaf_ok. cbn [set_data h_data h_t h_s]. rewrite Rt, Rs. unfold wf_lrm. change (lrank (mkLrm (lU L) V)) with (lrank L). cbn [lU lV].
            split; [split; [exact WU|exact W1]|exact Rk]. }
          eexists. eexists. split; [reflexivity|]. unfold with_hdata. rewrite Ech. split; [apply (new_leaf M B _ HB LK)|]. split; [reflexivity|].
          unfold stored. cbn [set_data h_data]. rewrite Rt, Rs. apply (solves_stored SdR t T c o M (lr_entry L) _ _ _ eq_refl eq_refl EV).
          destruct L as [U0 V0]. apply lr_solution_R; try assumption. apply TE; [reflexivity|exact SX].
    - destruct HT as [i D' F1 F2 F3 F4 F5 F6 F7|i cs F1 F2 F3 F4 F5 F6 F7 F8 F9 F10 F11]; cbn [rt_val] in *; congruence.
  Qed.
End P.
