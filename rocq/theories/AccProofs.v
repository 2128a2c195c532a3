(** * Proofs about the accuracy of a hierarchical matrix. *)

From Coq Require Import List Arith ZArith Bool Lia Ring Reals Lra.
From Verif Require Import ClusterModel ClusterSpec IOModel BlockModel BlockSpec Algebra BlasModel HMatModel HMatSpec HMatBuild RealNum CompReal CompSpec GeomSpec GeomProofs AccSpec.
Import ListNotations.
Local Open Scope R_scope.

Notation rlsum l f := (@lsum Rc _ l f).

Section Sums.
  Lemma rsum_le : forall n f g, (forall i, (i < n)%nat -> f i <= g i) -> rsum n f <= rsum n g.
  Proof. unfold rsum. induction n as [|n IH]; intros f g H; cbn; [lra|]. specialize (IH f g (fun i Hi => H i ltac:(lia))). specialize (H n ltac:(lia)). lra. Qed.
  Lemma rlsum_le : forall A (l : list A) f g, (forall a, In a l -> f a <= g a) -> rlsum l f <= rlsum l g.
  Proof. intros A l f g H. induction l as [|a l IH]; cbn; [lra|]. specialize (IH (fun b Hb => H b (or_intror Hb))). specialize (H a (or_introl eq_refl)). lra. Qed.
  Lemma rsum_scal : forall n a f, rsum n (fun i => a * f i) = a * rsum n f.
  Proof. intros. exact (sum_mul_l Rc n a f). Qed.
  Lemma rsum_plus : forall n f g, rsum n (fun i => f i + g i) = rsum n f + rsum n g.
  Proof. intros. exact (sum_add Rc n f g). Qed.
  Lemma rsum_const : forall n a, rsum n (fun _ => a) = INR n * a.
  Proof. unfold rsum. induction n as [|n IH]; intros a; [cbn; lra|]. rewrite S_INR. cbn [sum]. rewrite IH. cbn. lra. Qed.
  Lemma sqrt_sum_le : forall a b x y, 0 <= a -> 0 <= b -> 0 <= x -> 0 <= y -> sqrt (a * a * x + b * b * y) <= a * sqrt x + b * sqrt y.
  Proof.
    intros a b x y Ha Hb Hx Hy. pose proof (sqrt_pos x). pose proof (sqrt_pos y).
    replace (a * a * x + b * b * y) with ((a * sqrt x) * (a * sqrt x) + (b * sqrt y) * (b * sqrt y)).
    2:{ pose proof (sqrt_sqrt x Hx). pose proof (sqrt_sqrt y Hy). transitivity (a * a * (sqrt x * sqrt x) + b * b * (sqrt y * sqrt y)); [ring|congruence]. }
    assert (0 <= a * sqrt x) by (apply Rmult_le_pos; assumption). assert (0 <= b * sqrt y) by (apply Rmult_le_pos; assumption).
    rewrite <- (sqrt_square (a * sqrt x + b * sqrt y)) by lra. apply sqrt_le_1; nra.
  Qed.
End Sums.

Section Tiling.
  Variable K : Coef.
  Notation hinfo := (hinfo K).
  (** Sum of [f] over a block, over its mirror image. *)
  Definition bsum (t s : ctree) (f : nat -> nat -> R) : R := rsum (c_size t) (fun i => rsum (c_size s) (fun j => f (c_off t + i)%nat (c_off s + j)%nat)).

  Lemma window : forall (t : ctree) o n (f : nat -> R), (o <= c_off t)%nat -> (c_off t + c_size t <= o + n)%nat ->
    rsum n (fun i => if in_iv (o + i) (interval t) then f (o + i)%nat else 0) = rsum (c_size t) (fun i => f (c_off t + i)%nat).
  Proof.
    intros t o n f H1 H2. unfold rsum. pose proof (sum_window Rc n (c_off t - o) (c_size t) (fun i => f (o + i)%nat) ltac:(lia)) as W.
    etransitivity; [|etransitivity; [exact W|]].
    - apply (sum_ext Rc). intros i Hi. unfold in_iv, interval. cbn [fst snd]. fold (c_off t) (c_size t).
      destruct (Nat.leb_spec (c_off t) (o + i)); destruct (Nat.leb_spec (c_off t - o) i); destruct (Nat.ltb_spec (o + i) (c_off t + c_size t)); destruct (Nat.ltb_spec i (c_off t - o + c_size t)); try reflexivity; lia.
    - apply (sum_ext Rc). intros i Hi. f_equal. lia.
  Qed.
  Lemma window2 : forall (t s P Q : ctree) f, contains P t = true -> contains Q s = true ->
    bsum P Q (fun i j => if in_iv i (interval t) && in_iv j (interval s) then f i j else 0) = bsum t s f.
  Proof.
    intros t s P Q f H1 H2. unfold contains in H1, H2. apply andb_true_iff in H1, H2. destruct H1 as [A1 A2]. destruct H2 as [B1 B2]. apply Nat.leb_le in A1, A2, B1, B2.
    unfold bsum. rewrite <- (window t (c_off P) (c_size P) (fun i => rsum (c_size s) (fun j => f i (c_off s + j)%nat))) by lia.
    apply rsum_ext. intros i Hi. destruct (in_iv (c_off P + i) (interval t)); cbn [andb].
    - apply (window s (c_off Q) (c_size Q) (fun j => f (c_off P + i)%nat j)); lia.
    - etransitivity; [|apply (rsum_0 (c_size Q))]. apply rsum_ext. intros; reflexivity.
  Qed.
  Lemma bsum_lsum : forall A (l : list A) P Q (F : A -> nat -> nat -> R), bsum P Q (fun i j => rlsum l (fun a => F a i j)) = rlsum l (fun a => bsum P Q (F a)).
  Proof.
    intros A l P Q F. unfold bsum, rsum. symmetry. rewrite (lsum_sum Rc). apply (sum_ext Rc). intros i Hi. rewrite (lsum_sum Rc). reflexivity.
  Qed.
  Lemma bsum_ext : forall P Q f g, (forall i j, in_iv i (interval P) = true -> in_iv j (interval Q) = true -> f i j = g i j) -> bsum P Q f = bsum P Q g.
  Proof. intros P Q f g H. apply rsum_ext. intros i Hi. apply rsum_ext. intros j Hj. apply H; apply in_ivb; lia. Qed.
  Lemma bsum_plus : forall P Q f g, bsum P Q (fun i j => f i j + g i j) = bsum P Q f + bsum P Q g.
  Proof. intros. unfold bsum. rewrite <- rsum_plus. apply rsum_ext. intros. apply rsum_plus. Qed.
  Lemma bsum_scal : forall P Q a f, bsum P Q (fun i j => a * f i j) = a * bsum P Q f.
  Proof. intros. unfold bsum. rewrite <- rsum_scal. apply rsum_ext. intros. apply rsum_scal. Qed.
  Lemma bsum_le : forall P Q f g, (forall i j, in_iv i (interval P) = true -> in_iv j (interval Q) = true -> f i j <= g i j) -> bsum P Q f <= bsum P Q g.
  Proof. intros P Q f g H. apply rsum_le. intros i Hi. apply rsum_le. intros j Hj. apply H; apply in_ivb; lia. Qed.
  Lemma bsum_swap : forall P Q f, bsum P Q f = bsum Q P (fun j i => f i j).
  Proof. intros. unfold bsum, rsum. apply (sum_swap Rc). Qed.

  (** The leaves and the mirror images of the leaves for symmetry cover the root once. *)
  Lemma tiling_sum : forall (r : hinfo) L Y sy f, well_formed r L Y sy ->
    bsum (h_t r) (h_s r) f = rlsum L (fun h => bsum (h_t h) (h_s h) f) + rlsum Y (fun h => bsum (h_t h) (h_s h) (fun i j => f j i)).
  Proof.
    intros r L Y sy f W.
    transitivity (bsum (h_t r) (h_s r) (fun i j => rlsum L (fun h => if hcovers i j h then f i j else 0) + rlsum Y (fun h => if hcovers j i h then f i j else 0))).
    { apply bsum_ext. intros i j Hi Hj. pose proof (wf_once _ _ _ _ _ W i j Hi Hj) as O.
      pose proof (lsum_filter Rc _ L (hcovers i j) (f i j)) as E1. pose proof (lsum_filter Rc _ Y (hcovers j i) (f i j)) as E2.
      change (c0 Rc) with 0 in E1, E2. etransitivity; [symmetry; apply (nmul_1 Rc)|]. rewrite <- O. unfold count. rewrite (nmul_add Rc). rewrite <- E1, <- E2. reflexivity. }
    rewrite bsum_plus. f_equal.
    - rewrite bsum_lsum. apply (lsum_ext Rc). intros h Hh. destruct (wf_in _ _ _ _ _ W h Hh) as [C1 C2].
      exact (window2 (h_t h) (h_s h) (h_t r) (h_s r) f C1 C2).
    - rewrite bsum_lsum. apply (lsum_ext Rc). intros h Hh. destruct (wf_sub _ _ _ _ _ W h Hh) as (_ & C1 & C2).
      rewrite bsum_swap. etransitivity; [|exact (window2 (h_t h) (h_s h) (h_s r) (h_t r) (fun i j => f j i) C2 C1)]. reflexivity.
  Qed.
End Tiling.

Section Acc.
  Variable K : Coef.
  Variable md : car K -> R.
  Hypothesis MD : modulus K md.
  Notation C := (car K).
  Notation hinfo := (hinfo K).
  Add Ring KrA : (c_ring K).
  Lemma md_opp : forall x, md (copp K x) = md x.
  Proof.
    intros x. assert (E : md (copp K (c1 K)) * md (copp K (c1 K)) = md (c1 K)) by (rewrite <- (md_mul _ _ MD); f_equal; ring).
    assert (E1 : md (c1 K) * md (c1 K) = md (c1 K)) by (rewrite <- (md_mul _ _ MD); f_equal; ring).
    replace (copp K x) with (cmul K (copp K (c1 K)) x) by ring. replace x with (cmul K (c1 K) x) at 2 by ring. rewrite !(md_mul _ _ MD).
    f_equal. pose proof (md_pos _ _ MD (copp K (c1 K))). pose proof (md_pos _ _ MD (c1 K)). nra.
  Qed.
  Lemma md_sum : forall n f, md (sum n f) <= rsum n (fun i => md (f i)).
  Proof.
    induction n as [|n IH]; intros f; [cbn; rewrite (md_0 _ _ MD); lra|]. unfold rsum. cbn. eapply Rle_trans; [apply (md_add _ _ MD)|]. specialize (IH f). unfold rsum in IH. lra.
  Qed.
  Lemma md_flip : forall sy x, md (flip sy x) = md x.
  Proof. intros [] x; cbn; try reflexivity. apply (md_conj _ _ MD). Qed.

  Notation m2 x := (md x * md x).
  Lemma m2_nonneg : forall x, 0 <= m2 x.
  Proof. intros x. pose proof (md_pos _ _ MD x). nra. Qed.
  Lemma frob_nonneg : forall M N f, 0 <= rsum M (fun i => rsum N (fun j => m2 (f i j))).
  Proof. intros. apply rsum_nonneg. intros. apply rsum_nonneg. intros. apply m2_nonneg. Qed.

  (** Sum of the blockwise bounds. *)
  Lemma whole : forall (r : hinfo) L Y sy (G : nat -> nat -> C) e d, 0 <= e -> 0 <= d -> well_formed r L Y sy -> (sy = SyN \/ forall i j, G j i = flip sy (G i j)) ->
    (forall h, In h L -> bsum (h_t h) (h_s h) (fun i j => m2 (csub K (leaf_entry h (i - c_off (h_t h)) (j - c_off (h_s h))) (G i j))) <=
       e * bsum (h_t h) (h_s h) (fun i j => m2 (G i j)) + bsum (h_t h) (h_s h) (fun _ _ => d)) ->
    bsum (h_t r) (h_s r) (fun i j => m2 (csub K (value L Y sy i j) (G i j))) <=
      e * bsum (h_t r) (h_s r) (fun i j => m2 (G i j)) + bsum (h_t r) (h_s r) (fun _ _ => d).
  Proof.
    intros r L Y sy G e d He Hd W HG HL.
    pose proof (value_holds K _ _ _ _ W) as H.
    assert (VL : forall h, In h L -> forall i j, in_iv i (interval (h_t h)) = true -> in_iv j (interval (h_s h)) = true ->
      value L Y sy i j = leaf_entry h (i - c_off (h_t h)) (j - c_off (h_s h))).
    { intros h Hh i j Hi Hj. apply in_ivb in Hi, Hj. rewrite (hm_entries _ _ _ _ _ _ H h Hh) by lia. f_equal; lia. }
    assert (BL : forall h, In h L -> bsum (h_t h) (h_s h) (fun i j => m2 (csub K (value L Y sy i j) (G i j))) <=
       e * bsum (h_t h) (h_s h) (fun i j => m2 (G i j)) + bsum (h_t h) (h_s h) (fun _ _ => d)).
    { intros h Hh. eapply Rle_trans; [|exact (HL h Hh)]. right. apply bsum_ext. intros i j Hi Hj. rewrite (VL h Hh i j Hi Hj). reflexivity. }
    rewrite !(tiling_sum K r L Y sy _ W).
    assert (B1 : rlsum L (fun h => bsum (h_t h) (h_s h) (fun i j => m2 (csub K (value L Y sy i j) (G i j)))) <=
      e * rlsum L (fun h => bsum (h_t h) (h_s h) (fun i j => m2 (G i j))) + rlsum L (fun h => bsum (h_t h) (h_s h) (fun _ _ => d))).
    { eapply Rle_trans; [apply rlsum_le; exact BL|]. right. etransitivity; [apply (lsum_add Rc)|]. apply f_equal2; [apply (lsum_mul_l Rc)|reflexivity]. }
    assert (B2 : rlsum Y (fun h => bsum (h_t h) (h_s h) (fun i j => m2 (csub K (value L Y sy j i) (G j i)))) <=
      e * rlsum Y (fun h => bsum (h_t h) (h_s h) (fun i j => m2 (G j i))) + rlsum Y (fun h => bsum (h_t h) (h_s h) (fun _ _ => d))).
    { eapply Rle_trans; [apply rlsum_le with (g := fun h => e * bsum (h_t h) (h_s h) (fun i j => m2 (G j i)) + bsum (h_t h) (h_s h) (fun _ _ => d))|].
      - intros h Hh. destruct (wf_sub _ _ _ _ _ W h Hh) as (Hh' & _). assert (NE : Y <> []) by (intros ->; contradiction).
        destruct (wf_lsym _ _ _ _ _ W NE) as [_ Ns]. destruct HG as [HG|HG]; [contradiction|].
        replace (bsum (h_t h) (h_s h) (fun i j => m2 (G j i))) with (bsum (h_t h) (h_s h) (fun i j => m2 (G i j))).
        2:{ apply bsum_ext. intros i j _ _. rewrite (HG i j), md_flip. reflexivity. }
        eapply Rle_trans; [|exact (BL h Hh')]. right. apply bsum_ext. intros i j Hi Hj.
        rewrite (hm_sym _ _ _ _ _ _ H h Hh i j Hi Hj), (HG i j). 
        assert (E : md (csub K (flip sy (value L Y sy i j)) (flip sy (G i j))) = md (csub K (value L Y sy i j) (G i j))).
        { rewrite <- (md_flip sy (csub K (value L Y sy i j) (G i j))). destruct sy; try reflexivity. cbn [flip]. rewrite (conj_sub K). reflexivity. }
        rewrite E. reflexivity.
      - right. etransitivity; [apply (lsum_add Rc)|]. apply f_equal2; [apply (lsum_mul_l Rc)|reflexivity]. }
    lra.
  Qed.

  (** A leaf filled by the builder: the dense entries, or the factors. *)
  Lemma leaf_cases : forall sy B gen compress x, (b_sym x = true -> forall i j, gen j i = flip sy (gen i j)) ->
    b_task x <> None -> (b_sym x = true -> c_off (b_t x) = c_off (b_s x) /\ c_size (b_t x) = c_size (b_s x)) ->
    (forall i j, (i < c_size (b_t x))%nat -> (j < c_size (b_s x))%nat ->
       leaf_entry (hleaf K sy B gen compress x) i j = gen (c_off (b_t x) + i)%nat (c_off (b_s x) + j)%nat) \/
    (mr (lU (compress (b_t x) (b_s x))) = c_size (b_t x) /\ mc (lV (compress (b_t x) (b_s x))) = c_size (b_s x) /\
     forall i j, leaf_entry (hleaf K sy B gen compress x) i j = lr_entry (compress (b_t x) (b_s x)) i j).
  Proof.
    intros sy B gen compress x Hsy Htk Hsq. unfold leaf_entry, hleaf. cbn [h_data h_sym h_uplo]. unfold block_data.
    assert (D : forall i j, (i < c_size (b_t x))%nat -> (j < c_size (b_s x))%nat -> match (if b_sym x then sy else SyN) with
                | SyS => from_triangle K (if b_sym x then bb_uplo B else UpN) (fun x => x) (dense_data K gen (b_t x) (b_s x)) i j
                | SyH => from_triangle K (if b_sym x then bb_uplo B else UpN) (cconj K) (dense_data K gen (b_t x) (b_s x)) i j
                | _ => me (dense_data K gen (b_t x) (b_s x)) i j
                end = gen (c_off (b_t x) + i)%nat (c_off (b_s x) + j)%nat).
    { intros i j Hi Hj.
      assert (D0 : me (dense_data K gen (b_t x) (b_s x)) i j = gen (c_off (b_t x) + i)%nat (c_off (b_s x) + j)%nat) by (unfold dense_data; rewrite of_fun_me by lia; reflexivity).
      destruct (b_sym x); [|exact D0]. specialize (Hsy eq_refl). destruct (Hsq eq_refl) as [Q1 Q2].
      assert (D1 : me (dense_data K gen (b_t x) (b_s x)) j i = gen (c_off (b_t x) + j)%nat (c_off (b_s x) + i)%nat) by (unfold dense_data; rewrite of_fun_me by lia; reflexivity).
      destruct sy; try exact D0; unfold from_triangle; destruct (in_triangle _ i j); try exact D0; rewrite D1, Q1; symmetry; apply Hsy. }
    destruct (b_task x) as [[|]|]; [|left; exact D|congruence].
    destruct (_ && _)%bool eqn:E; [right|left; exact D]. apply andb_true_iff in E. destruct E as [E1 E2]. apply Nat.eqb_eq in E1, E2.
    split; [exact E1|]. split; [exact E2|]. reflexivity.
  Qed.

  Lemma bsum_const : forall P Q a, bsum P Q (fun _ _ => a) = INR (c_size P * c_size Q) * a.
  Proof. intros P Q a. unfold bsum. rewrite (rsum_ext _ _ (fun _ => INR (c_size Q) * a)) by (intros; apply rsum_const). rewrite rsum_const, mult_INR. ring. Qed.
  Lemma bsum_frob : forall P Q f, bsum P Q (fun i j => m2 (f i j)) = fnorm md (c_size P) (c_size Q) (block_at f P Q) * fnorm md (c_size P) (c_size Q) (block_at f P Q).
  Proof. intros P Q f. unfold fnorm. rewrite sqrt_sqrt by apply frob_nonneg. reflexivity. Qed.
  Lemma fnorm_pos : forall M N f, 0 <= fnorm md M N f.
  Proof. intros. apply sqrt_pos. Qed.

  Lemma leaf_bound : forall sy B gen compress x eps tol, 0 <= eps -> 0 <= tol -> accurate md eps tol gen compress ->
    (1 <= c_size (b_t x))%nat -> (1 <= c_size (b_s x))%nat ->
    (b_sym x = true -> forall i j, gen j i = flip sy (gen i j)) ->
    b_task x <> None -> (b_sym x = true -> c_off (b_t x) = c_off (b_s x) /\ c_size (b_t x) = c_size (b_s x)) ->
    let h := hleaf K sy B gen compress x in
    bsum (h_t h) (h_s h) (fun i j => m2 (csub K (leaf_entry h (i - c_off (h_t h)) (j - c_off (h_s h))) (gen i j))) <=
       eps * eps * bsum (h_t h) (h_s h) (fun i j => m2 (gen i j)) + bsum (h_t h) (h_s h) (fun _ _ => tol * tol).
  Proof.
    intros sy B gen compress x eps tol He Ht Hac S1 S2 Hsy Htk Hsq h. change (h_t h) with (b_t x). change (h_s h) with (b_s x).
    assert (N1 : 0 <= eps * eps * bsum (b_t x) (b_s x) (fun i j => m2 (gen i j))).
    { apply Rmult_le_pos; [nra|]. rewrite bsum_frob. pose proof (fnorm_pos (c_size (b_t x)) (c_size (b_s x)) (block_at gen (b_t x) (b_s x))). nra. }
    assert (N2 : 0 <= bsum (b_t x) (b_s x) (fun _ _ => tol * tol)).
    { rewrite bsum_const. apply Rmult_le_pos; [apply pos_INR|nra]. }
    destruct (leaf_cases sy B gen compress x Hsy Htk Hsq) as [D|(E1 & E2 & D)].
    - apply Rle_trans with (bsum (b_t x) (b_s x) (fun _ _ => 0)).
      + right. apply bsum_ext. intros i j Hi Hj. apply in_ivb in Hi, Hj. fold h in D. rewrite D by lia.
        replace (csub K _ _) with (c0 K); [rewrite (md_0 _ _ MD); lra|]. rewrite <- (Nat.add_comm (i - _)), <- (Nat.add_comm (j - _)), !Nat.sub_add by lia. ring.
      + rewrite bsum_const. lra.
    - set (Lr := compress (b_t x) (b_s x)) in *.
      assert (E : bsum (b_t x) (b_s x) (fun i j => m2 (csub K (leaf_entry h (i - c_off (b_t x)) (j - c_off (b_s x))) (gen i j))) =
        rsum (c_size (b_t x)) (fun i => rsum (c_size (b_s x)) (fun j => m2 (error_of Lr (block_at gen (b_t x) (b_s x)) i j)))).
      { apply rsum_ext. intros i Hi. apply rsum_ext. intros j Hj. fold h in D. rewrite D. rewrite !(Nat.add_comm (c_off _)), !Nat.add_sub, <- !(Nat.add_comm (c_off _)).
        unfold error_of, block_at. rewrite <- md_opp. replace (copp K _) with (csub K (gen (c_off (b_t x) + i)%nat (c_off (b_s x) + j)%nat) (lr_entry Lr i j)) by ring. reflexivity. }
      rewrite E. destruct (Hac (b_t x) (b_s x) S1 S2 E1 E2) as [A|A]; fold Lr in A.
      + apply Rle_trans with (eps * eps * bsum (b_t x) (b_s x) (fun i j => m2 (gen i j))); [|lra]. rewrite bsum_frob.
        set (nE := fnorm md _ _ (error_of Lr _)) in A. set (nG := fnorm md (c_size (b_t x)) (c_size (b_s x)) (block_at gen (b_t x) (b_s x))) in *.
        assert (0 <= nE) by apply fnorm_pos. assert (0 <= nG) by apply fnorm_pos.
        assert (EE : rsum (c_size (b_t x)) (fun i => rsum (c_size (b_s x)) (fun j => m2 (error_of Lr (block_at gen (b_t x) (b_s x)) i j))) = nE * nE).
        { unfold nE, fnorm. rewrite sqrt_sqrt by apply frob_nonneg. reflexivity. }
        rewrite EE. replace (eps * eps * (nG * nG)) with ((eps * nG) * (eps * nG)) by ring. apply Rmult_le_compat; assumption.
      + apply Rle_trans with (bsum (b_t x) (b_s x) (fun _ _ => tol * tol)); [|lra]. apply rsum_le. intros i Hi. apply rsum_le. intros j Hj. specialize (A i j Hi Hj).
        pose proof (md_pos _ _ MD (error_of Lr (block_at gen (b_t x) (b_s x)) i j)). nra.
  Qed.

  (** The matrix. *)
  Lemma matrix_bound : forall (r : hinfo) L Y sy gen eps tol, 0 <= eps -> 0 <= tol -> well_formed r L Y sy -> (sy = SyN \/ forall i j, gen j i = flip sy (gen i j)) ->
    (forall h, In h L -> bsum (h_t h) (h_s h) (fun i j => m2 (csub K (leaf_entry h (i - c_off (h_t h)) (j - c_off (h_s h))) (gen i j))) <=
       eps * eps * bsum (h_t h) (h_s h) (fun i j => m2 (gen i j)) + bsum (h_t h) (h_s h) (fun _ _ => tol * tol)) ->
    fnorm md (c_size (h_t r)) (c_size (h_s r)) (block_at (fun i j => csub K (value L Y sy i j) (gen i j)) (h_t r) (h_s r)) <=
      allowed md eps tol (c_size (h_t r)) (c_size (h_s r)) (block_at gen (h_t r) (h_s r)).
  Proof.
    intros r L Y sy gen eps tol He Ht W Hg HL.
    pose proof (whole r L Y sy gen (eps * eps) (tol * tol) ltac:(nra) ltac:(nra) W Hg HL) as H.
    rewrite bsum_const in H. unfold allowed. set (m := fnorm md _ _ (block_at gen _ _)) in *. set (n := INR _) in *.
    assert (0 <= n) by apply pos_INR. assert (0 <= m) by apply fnorm_pos.
    apply Rle_trans with (sqrt (eps * eps * (m * m) + tol * tol * n)).
    - unfold fnorm at 1. apply sqrt_le_1; [apply frob_nonneg|nra|]. 
      change (bsum (h_t r) (h_s r) (fun i j => m2 (csub K (value L Y sy i j) (gen i j))) <= eps * eps * (m * m) + tol * tol * n).
      eapply Rle_trans; [exact H|]. rewrite bsum_frob. fold m. lra.
    - eapply Rle_trans; [apply sqrt_sum_le; nra|]. rewrite sqrt_square by assumption. lra.
  Qed.

  Lemma rs_rsum : forall n f, rs n f = rsum n f.
  Proof. unfold rsum. induction n as [|n IH]; intros f; [reflexivity|]. cbn. rewrite IH. reflexivity. Qed.
  (** Cauchy-Schwarz: the product by a matrix. *)
  Lemma product_bound : forall M N (E : nat -> nat -> C) (x : nat -> C),
    vnorm md M (fun i => sum N (fun j => cmul K (E i j) (x j))) <= fnorm md M N E * vnorm md N x.
  Proof.
    intros M N E x. unfold vnorm, fnorm. rewrite <- sqrt_mult; [|apply frob_nonneg|apply rsum_nonneg; intros; apply m2_nonneg].
    assert (S0 : forall i, m2 (sum N (fun j => cmul K (E i j) (x j))) <= rsum N (fun j => m2 (E i j)) * rsum N (fun j => m2 (x j))).
    { intros i. pose proof (md_sum N (fun j => cmul K (E i j) (x j))) as S1.
      rewrite (rsum_ext N _ (fun j => md (E i j) * md (x j))) in S1 by (intros; apply (md_mul _ _ MD)).
      pose proof (cauchy_schwarz N (fun j => md (E i j)) (fun j => md (x j))) as S2. rewrite !rs_rsum in S2.
      pose proof (md_pos _ _ MD (sum N (fun j => cmul K (E i j) (x j)))) as S3. eapply Rle_trans; [|exact S2]. apply Rmult_le_compat; assumption. }
    apply sqrt_le_1.
    - apply rsum_nonneg. intros. apply m2_nonneg.
    - apply Rmult_le_pos; [apply frob_nonneg|apply rsum_nonneg; intros; apply m2_nonneg].
    - rewrite (Rmult_comm (rsum M _)), <- rsum_scal. apply rsum_le. intros i Hi. rewrite (Rmult_comm (rsum N (fun i0 => m2 (x i0)))). apply S0.
  Qed.
  Lemma fnorm_ext : forall M N f g, (forall i j, (i < M)%nat -> (j < N)%nat -> md (f i j) = md (g i j)) -> fnorm md M N f = fnorm md M N g.
  Proof. intros M N f g H. unfold fnorm. f_equal. apply rsum_ext. intros i Hi. apply rsum_ext. intros j Hj. rewrite H by assumption. reflexivity. Qed.
  Lemma fnorm_swap : forall M N f, fnorm md M N f = fnorm md N M (fun i j => f j i).
  Proof. intros. unfold fnorm, rsum. f_equal. apply (sum_swap Rc). Qed.
End Acc.
