(** * Positive definite matrices: the dense Cholesky factorisation succeeds. *)

From Coq Require Import List Arith Bool Lia Ring.
From Verif Require Import BlockModel Algebra BlasModel BlasProofs HMatModel HMatSpec HMatBuild Field DenseModel DenseSpec DenseProofs DenseLU DenseChol ArithModel ArithSpec ArithDense.
Import ListNotations.

Section P.
  Variable F : Fld.
  Notation K := (fk F).
  Notation C := (car K).
  Notation "0" := (c0 K).
  Notation "1" := (c1 K).
  Notation "x + y" := (cadd K x y).
  Notation "x * y" := (cmul K x y).
  Notation "x - y" := (csub K x y).
  Add Ring KringDP : (c_ring K).

  Lemma quadratic_ext : forall n (A B : nat -> nat -> C) x y, (forall i j, (i < n)%nat -> (j < n)%nat -> A i j = B i j) -> (forall i, (i < n)%nat -> x i = y i) ->
    quadratic (F:=F) n A x = quadratic n B y.
  Proof.
    intros n A B x y H1 H2. unfold quadratic. apply sum_ext. intros i Hi. rewrite H2 by exact Hi. f_equal. apply sum_ext. intros j Hj. rewrite H1, H2 by assumption. reflexivity.
  Qed.
  Lemma posdef_ext : forall ppos n (A B : nat -> nat -> C), (forall i j, (i < n)%nat -> (j < n)%nat -> A i j = B i j) -> posdef (F:=F) ppos n A -> posdef ppos n B.
  Proof. intros ppos n A B H HA x Hx. rewrite <- (HA x Hx). f_equal. apply quadratic_ext; [|reflexivity]. intros. symmetry. apply H; assumption. Qed.

  (** A leading principal submatrix. *)
  Lemma quad_lead : forall n1 n2 (A : nat -> nat -> C) x, quadratic (F:=F) (n1 + n2) A (fun i => if (i <? n1)%nat then x i else 0) = quadratic n1 A x.
  Proof.
    intros n1 n2 A x. unfold quadratic. rewrite sum_split. rewrite (sum_0 K n2).
    2:{ intros j Hj. replace (n1 + j <? n1)%nat with false by (symmetry; apply Nat.ltb_ge; lia). rewrite conj_0. ring. }
    assert (E : forall i, sum (n1 + n2) (fun j => A i j * (if (j <? n1)%nat then x j else 0)) = sum n1 (fun j => A i j * x j)).
    { intros i. rewrite sum_split, (sum_0 K n2).
      - rewrite (sum_ext K n1 _ (fun j => A i j * x j)); [ring|]. intros j Hj. replace (j <? n1)%nat with true by (symmetry; apply Nat.ltb_lt; exact Hj). reflexivity.
      - intros j Hj. replace (n1 + j <? n1)%nat with false by (symmetry; apply Nat.ltb_ge; lia). ring. }
    rewrite (sum_ext K n1 _ (fun i => cconj K (x i) * sum n1 (fun j => A i j * x j))); [ring|].
    intros i Hi. rewrite E. replace (i <? n1)%nat with true by (symmetry; apply Nat.ltb_lt; exact Hi). reflexivity.
  Qed.
  Lemma posdef_lead : forall ppos n1 n2 (A : nat -> nat -> C), posdef (F:=F) ppos (n1 + n2) A -> posdef ppos n1 A.
  Proof.
    intros ppos n1 n2 A H x (i & Hi & Hx). rewrite <- (quad_lead n1 n2). apply H. exists i. split; [lia|].
    replace (i <? n1)%nat with true by (symmetry; apply Nat.ltb_lt; exact Hi). exact Hx.
  Qed.

  (** The Schur complement of a leading block factored as T T^H. *)
  Lemma quad_schur : forall n1 n2 (M0 M T : nat -> nat -> C),
    (forall i j, (i < n1 + n2)%nat -> (j < n1 + n2)%nat ->
       M0 i j = (if ((n1 <=? i) && (n1 <=? j))%nat then M i j else 0) + sum n1 (fun s => T i s * cconj K (T j s))) ->
    (forall r, exists y, forall s, (s < n1)%nat -> sum n1 (fun i => cconj K (T i s) * y i) = r s) ->
    forall x, exists z, (forall j, z (n1 + j)%nat = x j) /\ quadratic (F:=F) (n1 + n2) M0 z = quadratic n2 (fun i j => M (n1 + i)%nat (n1 + j)%nat) x.
  Proof.
    intros n1 n2 M0 M T HE HS x. destruct (HS (fun s => copp K (sum n2 (fun j => cconj K (T (n1 + j)%nat s) * x j)))) as [y Hy].
    set (z := fun b => if (b <? n1)%nat then y b else x (b - n1)%nat).
    assert (Z1 : forall i, (i < n1)%nat -> z i = y i) by (intros i Hi; unfold z; replace (i <? n1)%nat with true by (symmetry; apply Nat.ltb_lt; exact Hi); reflexivity).
    assert (Z2 : forall j, z (n1 + j)%nat = x j) by (intros j; unfold z; replace (n1 + j <? n1)%nat with false by (symmetry; apply Nat.ltb_ge; lia); f_equal; lia).
    exists z. split; [exact Z2|].
    assert (HZ : forall s, (s < n1)%nat -> sum (n1 + n2) (fun i => cconj K (T i s) * z i) = 0).
    { intros s Hs. rewrite sum_split. rewrite (sum_ext K n1 _ (fun i => cconj K (T i s) * y i)) by (intros i Hi; rewrite Z1 by exact Hi; reflexivity).
      rewrite (Hy s Hs). rewrite (sum_ext K n2 (fun i => cconj K (T (n1 + i)%nat s) * z (n1 + i)%nat) (fun j => cconj K (T (n1 + j)%nat s) * x j)) by (intros j _; rewrite Z2; reflexivity). ring. }
    assert (HR : forall i, (i < n1 + n2)%nat -> sum (n1 + n2) (fun j => M0 i j * z j) = if (n1 <=? i)%nat then sum n2 (fun j => M i (n1 + j)%nat * x j) else 0).
    { intros i Hi. rewrite (sum_ext K (n1 + n2) _ (fun j => (if ((n1 <=? i) && (n1 <=? j))%nat then M i j else 0) * z j + sum n1 (fun s => T i s * cconj K (T j s)) * z j)).
      2:{ intros j Hj. rewrite HE by assumption. ring. }
      rewrite sum_add. rewrite <- (sum_assoc K n1 (n1 + n2) (fun s => T i s) (fun s j => cconj K (T j s)) z).
      rewrite (sum_0 K n1 (fun p => T i p * _)). 2:{ intros s Hs. rewrite HZ by exact Hs. ring. }
      rewrite sum_split. rewrite (sum_0 K n1). 2:{ intros j Hj. replace (n1 <=? j)%nat with false by (symmetry; apply Nat.leb_gt; exact Hj). rewrite andb_false_r. ring. }
      destruct (n1 <=? i)%nat; cbn [andb].
      - rewrite (sum_ext K n2 _ (fun j => M i (n1 + j)%nat * x j)); [ring|]. intros j _. replace (n1 <=? n1 + j)%nat with true by (symmetry; apply Nat.leb_le; lia). rewrite Z2. reflexivity.
      - rewrite (sum_0 K n2); [ring|]. intros j _. ring. }
    unfold quadratic. rewrite (sum_ext K (n1 + n2) _ (fun i => cconj K (z i) * (if (n1 <=? i)%nat then sum n2 (fun j => M i (n1 + j)%nat * x j) else 0))) by (intros i Hi; rewrite HR by exact Hi; reflexivity).
    rewrite sum_split. rewrite (sum_0 K n1). 2:{ intros i Hi. replace (n1 <=? i)%nat with false by (symmetry; apply Nat.leb_gt; exact Hi). ring. }
    rewrite (sum_ext K n2 _ (fun i => cconj K (x i) * sum n2 (fun j => M (n1 + i)%nat (n1 + j)%nat * x j))); [ring|].
    intros i _. replace (n1 <=? n1 + i)%nat with true by (symmetry; apply Nat.leb_le; lia). rewrite Z2. reflexivity.
  Qed.
  Lemma posdef_schur : forall ppos n1 n2 (M0 M T : nat -> nat -> C),
    (forall i j, (i < n1 + n2)%nat -> (j < n1 + n2)%nat ->
       M0 i j = (if ((n1 <=? i) && (n1 <=? j))%nat then M i j else 0) + sum n1 (fun s => T i s * cconj K (T j s))) ->
    (forall r, exists y, forall s, (s < n1)%nat -> sum n1 (fun i => cconj K (T i s) * y i) = r s) ->
    posdef (F:=F) ppos (n1 + n2) M0 -> posdef ppos n2 (fun i j => M (n1 + i)%nat (n1 + j)%nat).
  Proof.
    intros ppos n1 n2 M0 M T HE HS HP x (i & Hi & Hx). destruct (quad_schur n1 n2 M0 M T HE HS x) as (z & Hz & Q). rewrite <- Q. apply HP.
    exists (n1 + i)%nat. split; [lia|]. rewrite Hz. exact Hx.
  Qed.

  (** Back substitution. *)
  Lemma upper_surj : forall n (U : nat -> nat -> C), (forall s, (s < n)%nat -> U s s <> 0) -> (forall s i, (s < n)%nat -> (i < s)%nat -> U s i = 0) ->
    forall r, exists y, forall s, (s < n)%nat -> sum n (fun i => U s i * y i) = r s.
  Proof.
    induction n as [|n IH]; intros U HD HZ r; [exists (fun _ => 0); intros s Hs; lia|].
    set (v := r n * finv F (U n n)).
    assert (E : U n n * v = r n) by (unfold v; transitivity (r n * (U n n * finv F (U n n))); [ring|]; rewrite finv_r by (apply HD; lia); ring).
    destruct (IH U) with (r := fun s => r s - U s n * v) as [y Hy]; [intros s Hs; apply HD; lia|intros s i Hs Hi; apply HZ; lia|].
    exists (fun i => if (i =? n)%nat then v else y i). intros s Hs. cbn [sum]. rewrite Nat.eqb_refl.
    rewrite (sum_ext K n _ (fun i => U s i * y i)). 2:{ intros i Hi. destruct (Nat.eqb_spec i n); [lia|reflexivity]. }
    destruct (Nat.eq_dec s n) as [->|Hn].
    - rewrite (sum_0 K n); [rewrite <- E; ring|]. intros i Hi. rewrite HZ by lia. ring.
    - rewrite Hy by lia. ring.
  Qed.

  Section C.
    Variables (ppos : C -> bool) (psqrt : C -> C).
    Hypothesis HS : sqrt_rule ppos psqrt.

    Lemma potf2_step_posdef : forall u n A0 j A, u <> UpN -> (j < n)%nat -> wf_mat A n n -> hermitian n A0 -> posdef ppos n A0 -> chol_inv F u n A0 j A ->
      snd (potf2_step F ppos psqrt u j A) = true.
    Proof.
      intros u n A0 j A Hu Hj HW HH HP HI.
      set (a := fun i c => if is_L u then me A i c else cconj K (me A c i)).
      set (a0 := fun i c => if is_L u then A0 i c else cconj K (A0 c i)).
      set (d := cre K (me A j j) - sum j (fun k => a j k * cconj K (a j k))).
      assert (HA0 : forall i c, (i < n)%nat -> (c < n)%nat -> a0 i c = A0 i c).
      { intros i c Hi Hc. unfold a0. destruct (is_L u); [reflexivity|]. symmetry. apply HH; assumption. }
      assert (HIc : forall i c, (c <= i < n)%nat -> if (c <? j)%nat then a c c <> 0 /\ cconj K (a c c) = a c c /\ a0 i c = sum (S c) (fun k => a i k * cconj K (a c k)) else a i c = a0 i c) by exact HI.
      assert (Vj : me A j j = A0 j j).
      { specialize (HIc j j ltac:(lia)). rewrite Nat.ltb_irrefl in HIc. rewrite HA0 in HIc by assumption. unfold a in HIc. destruct (is_L u); [exact HIc|].
        rewrite <- (cconj_invol K (me A j j)), HIc. symmetry. apply HH; assumption. }
      assert (Rj : cre K (me A j j) = A0 j j) by (rewrite Vj; apply cre_real; symmetry; apply HH; assumption).
      enough (Pd : ppos d = true).
      { unfold potf2_step. destruct HW as (W1 & W2 & W3). rewrite W1. destruct u; [congruence| |]; unfold d, a in Pd; cbn [is_L] in Pd.
        - rewrite Pd. reflexivity.
        - rewrite (sum_ext K j _ (fun k => cconj K (me A k j) * me A k j)) in Pd by (intros k _; rewrite cconj_invol; reflexivity). rewrite Pd. reflexivity. }
      set (T := fun i s => if (s <=? i)%nat then a i s else 0).
      assert (PJ : posdef ppos (j + 1) A0) by (apply (posdef_lead ppos (j + 1) (n - (j + 1))); replace (j + 1 + (n - (j + 1)))%nat with n by lia; exact HP).
      assert (HE : forall i c, (i < j + 1)%nat -> (c < j + 1)%nat -> A0 i c = (if ((j <=? i) && (j <=? c))%nat then d else 0) + sum j (fun s => T i s * cconj K (T c s))).
      { assert (Q : forall i c, (c <= i < j + 1)%nat -> A0 i c = (if ((j <=? i) && (j <=? c))%nat then d else 0) + sum j (fun s => T i s * cconj K (T c s))).
        { intros i c Hc. destruct (Nat.leb_spec j c) as [L|L].
          - assert (i = j) by lia. assert (c = j) by lia. subst i c. rewrite Nat.leb_refl. cbn [andb]. unfold d. rewrite Rj.
            rewrite (sum_ext K j (fun s => T j s * _) (fun k => a j k * cconj K (a j k))); [ring|]. intros s Hs. unfold T. destruct (Nat.leb_spec s j); [reflexivity|lia].
          - rewrite andb_false_r. specialize (HIc i c ltac:(lia)). destruct (Nat.ltb_spec c j); [|lia]. destruct HIc as (_ & _ & E). rewrite HA0 in E by lia. rewrite E.
            replace j with (S c + (j - S c))%nat by lia. rewrite (sum_split K (S c)). rewrite (sum_0 K (j - S c)).
            2:{ intros s Hs. unfold T at 2. destruct (Nat.leb_spec (S c + s) c); [lia|]. rewrite conj_0. ring. }
            rewrite (sum_ext K (S c) (fun s => T i s * _) (fun k => a i k * cconj K (a c k))); [ring|]. intros s Hs. unfold T. destruct (Nat.leb_spec s i); [|lia]. destruct (Nat.leb_spec s c); [reflexivity|lia]. }
        intros i c Hi Hc. destruct (Nat.le_gt_cases c i) as [L|L]; [apply Q; lia|]. rewrite HH by lia. rewrite (Q c i) by lia.
        assert (Rd : cconj K d = d).
        { unfold d. rewrite conj_sub, cre_conj, conj_sum. f_equal. apply sum_ext. intros k _. rewrite cconj_mul, cconj_invol. ring. }
        rewrite cconj_add, conj_sum. f_equal.
        - rewrite andb_comm. destruct ((j <=? i) && (j <=? c))%nat; [exact Rd|apply conj_0].
        - apply sum_ext. intros s _. rewrite cconj_mul, cconj_invol. ring. }
      assert (HSu : forall r, exists y, forall s, (s < j)%nat -> sum j (fun i => cconj K (T i s) * y i) = r s).
      { apply (upper_surj j (fun s i => cconj K (T i s))).
        - intros s Hs Z. specialize (HIc s s ltac:(lia)). destruct (Nat.ltb_spec s j); [|lia]. destruct HIc as (N & R & _). unfold T in Z. rewrite Nat.leb_refl in Z. congruence.
        - intros s i Hs Hi. unfold T. destruct (Nat.leb_spec s i); [lia|]. apply conj_0. }
      destruct (quad_schur j 1 A0 (fun _ _ => d) T HE HSu (fun _ => 1)) as (z & Hz & Q).
      assert (Q1 : quadratic 1 (fun _ _ : nat => d) (fun _ => 1) = d) by (unfold quadratic; cbn [sum]; rewrite conj_1; ring).
      rewrite Q1 in Q. rewrite <- Q. apply PJ. exists j. split; [lia|]. specialize (Hz 0%nat). rewrite Nat.add_0_r in Hz. rewrite Hz. apply (f_10 F).
    Qed.

    Lemma potf2_posdef : forall u n A0 s j A, u <> UpN -> (j + s = n)%nat -> wf_mat A n n -> hermitian n A0 -> posdef ppos n A0 -> chol_inv F u n A0 j A ->
      snd (potf2 F ppos psqrt u s j A) = true.
    Proof.
      intros u n A0 s. induction s as [|s IH]; intros j A Hu Hs HW HH HP HI; [reflexivity|].
      pose proof (potf2_step_posdef u n A0 j A Hu ltac:(lia) HW HH HP HI) as E. cbn [potf2]. destruct (potf2_step F ppos psqrt u j A) as (A1, ok) eqn:E1. cbn [snd] in E. subst ok.
      destruct (potf2_step_ok F ppos psqrt HS u n A0 j A A1) as (X1 & X2); [exact Hu|lia|exact HW|exact HH|exact HI|exact E1|].
      apply IH; try assumption. lia.
    Qed.

    Lemma cholesky_posdef : forall u n A, u <> UpN -> (1 <= n)%nat -> wf_mat A n n -> hermitian n (me A) -> posdef ppos n (me A) ->
      exists B, cholesky_factorization F ppos psqrt u A = Some (B, true).
    Proof.
      intros u n A Hu Hn HW HH HP. pose proof (potf2_posdef u n (me A) n 0 A Hu ltac:(lia) HW HH HP) as E.
      unfold cholesky_factorization. destruct HW as (W1 & W2 & W3). rewrite W1, W2, W3.
      replace (1 <=? n)%nat with true by (symmetry; apply Nat.leb_le; exact Hn). rewrite Nat.eqb_refl. cbn [andb].
      destruct (potf2 F ppos psqrt u n 0 A) as (B1, ok). cbn [snd] in E. rewrite E.
      - eexists. reflexivity.
      - intros i c Hc. cbv zeta. reflexivity.
    Qed.
  End C.
End P.
