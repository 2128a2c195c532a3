(** * Proofs for the dense Cholesky factorisation. *)

From Coq Require Import List Arith Bool Lia Ring.
From Verif Require Import BlockModel Algebra BlasModel BlasProofs HMatModel HMatSpec HMatBuild Field DenseModel DenseSpec DenseProofs DenseLU.
Import ListNotations.

Section P.
  Variable F : Fld.
  Notation K := (fk F).
  Notation C := (car K).
  Notation "0" := (c0 K).
  Notation "1" := (c1 K).
  Notation "x + y" := (cadd K x y).
  Notation "x * y" := (cmul K x y).
  Notation "x - y" := (csub K x y).
  Add Ring KringDC : (c_ring K).

  (** iamax meets the contract of the pivot. *)
  Lemma iamax_rule : forall lt, abs_order (F:=F) lt -> pivot_rule (iamax F lt).
  Proof.
    intros lt (H1 & H2) f k M Hk. unfold iamax.
    assert (G : forall q a p, (k <= p < a)%nat -> (f p = 0 -> p = k /\ forall i, (k <= i < a)%nat -> f i = 0) ->
      let r := fold_left (fun p i => if lt (f p) (f i) then i else p) (seq a q) p in
      (k <= r < a + q)%nat /\ (f r = 0 -> r = k /\ forall i, (k <= i < a + q)%nat -> f i = 0)).
    { induction q as [|q IH]; intros a p Hp HI.
      - cbn. split; [lia|]. intros E. destruct (HI E) as (E1 & E2). split; [exact E1|]. intros i Hi. apply E2. lia.
      - cbn [seq fold_left]. replace (a + S q)%nat with (S a + q)%nat by lia. apply IH.
        + destruct (lt (f p) (f a)); lia.
        + destruct (lt (f p) (f a)) eqn:E.
          * intros Q. rewrite Q, H2 in E. discriminate.
          * intros Q. destruct (HI Q) as (E1 & E2). split; [exact E1|]. intros i Hi. destruct (Nat.eq_dec i a) as [->|]; [|apply E2; lia].
            destruct (ceqb_spec K (f a) 0) as [Z|Z]; [exact Z|]. rewrite Q, (H1 _ Z) in E. discriminate. }
    specialize (G (M - S k)%nat (S k) k). replace (S k + (M - S k))%nat with M in G by lia. apply G; [lia|].
    intros E. split; [reflexivity|]. intros i Hi. replace i with k by lia. exact E.
  Qed.

  (** A left inverse proves injectivity. *)
  Lemma left_inverse_injective : forall n (A B : nat -> nat -> C),
    (forall i j, (i < n)%nat -> (j < n)%nat -> sum n (fun k => B i k * A k j) = if (i =? j)%nat then 1 else 0) -> injective (F:=F) n A.
  Proof.
    intros n A B H x Hx k Hk. transitivity (sum n (fun j => (if (k =? j)%nat then 1 else 0) * x j)).
    - symmetry. rewrite (sum_single K n k); [|exact Hk|].
      + rewrite Nat.eqb_refl. ring.
      + intros i Hi Hne. destruct (Nat.eqb_spec k i); [congruence|ring].
    - rewrite (sum_ext K n _ (fun j => sum n (fun q => B k q * (A q j * x j)))).
      2:{ intros j Hj. rewrite <- H by assumption. rewrite <- sum_mul_r. apply sum_ext. intros q _. ring. }
      rewrite sum_swap. apply sum_0. intros q Hq. rewrite sum_mul_l, Hx by exact Hq. ring.
  Qed.

  Section C.
    Variables (ppos : C -> bool) (psqrt : C -> C).
    Hypothesis HS : sqrt_rule ppos psqrt.

    (** Lower: row i, column c of the factor with c <= i. *)
    Definition chol_inv (u : uplo) (n : nat) (A0 : nat -> nat -> C) (j : nat) (A : mat K) : Prop :=
      forall i c, (c <= i < n)%nat ->
        let a := fun i c => if is_L u then me A i c else cconj K (me A c i) in
        let a0 := fun i c => if is_L u then A0 i c else cconj K (A0 c i) in
        if (c <? j)%nat then a c c <> 0 /\ cconj K (a c c) = a c c /\ a0 i c = sum (S c) (fun k => a i k * cconj K (a c k)) else a i c = a0 i c.

    Lemma potf2_step_ok : forall u n A0 j A A', u <> UpN -> (j < n)%nat -> wf_mat A n n -> hermitian n A0 -> chol_inv u n A0 j A ->
      potf2_step F ppos psqrt u j A = (A', true) -> wf_mat A' n n /\ chol_inv u n A0 (S j) A'.
    Proof.
      intros u n A0 j A A' Hu Hj (W1 & W2 & W3) HH HI E. unfold potf2_step in E. rewrite W1 in E. destruct u; [congruence| |].
      - (* L *)
        set (d := cre K (me A j j) - sum j (fun k => me A j k * cconj K (me A j k))) in *. destruct (ppos d) eqn:Pd; [|discriminate].
        assert (Rd : cconj K d = d).
        { unfold d. rewrite conj_sub, cre_conj, conj_sum. f_equal. apply sum_ext. intros k _. rewrite cconj_mul, cconj_invol. ring. }
        destruct (HS d Rd Pd) as (S1 & S2 & S3). set (s := psqrt d) in *. injection E as E. subst A'. split; [apply of_fun_wf|].
        assert (VA : me A j j = A0 j j).
        { specialize (HI j j ltac:(lia)). cbn [is_L] in HI. cbv zeta in HI. rewrite Nat.ltb_irrefl in HI. exact HI. }
        assert (RA : cre K (A0 j j) = A0 j j) by (apply cre_real; symmetry; apply HH; exact Hj).
        intros i c Hc. cbn [is_L]. cbv zeta. specialize (HI i c Hc) as HIc. cbn [is_L] in HIc. cbv zeta in HIc.
        set (g := fun i0 c0 => _) in |- *.
        assert (V : forall a b, (a < n)%nat -> (b < n)%nat -> me (of_fun K n n g) a b = g a b) by (intros; apply of_fun_me; assumption).
        assert (VL : forall a k, (a < n)%nat -> (k < j)%nat -> me (of_fun K n n g) a k = me A a k).
        { intros a k Ha Hkj. rewrite V by lia. unfold g. destruct (Nat.eqb_spec k j); [lia|reflexivity]. }
        destruct (Nat.ltb_spec c (S j)) as [Hcj|Hcj].
        + destruct (Nat.eq_dec c j) as [->|Hne].
          * assert (D : me (of_fun K n n g) j j = s) by (rewrite V by lia; unfold g; rewrite !Nat.eqb_refl; reflexivity). rewrite D.
            split; [exact S1|]. split; [exact S2|]. cbn [sum]. rewrite D.
            rewrite (sum_ext K j _ (fun k => me A i k * cconj K (me A j k))) by (intros k Hk; rewrite !VL by lia; reflexivity).
            rewrite S2. destruct (Nat.eq_dec i j) as [->|Hij].
            -- rewrite D, S3. unfold d. rewrite VA, RA. ring.
            -- rewrite V by lia. unfold g. rewrite Nat.eqb_refl. destruct (Nat.eqb_spec i j); [lia|]. destruct (Nat.ltb_spec j i); [|lia].
               rewrite fdiv_mul by exact S1. rewrite Nat.ltb_irrefl in HIc. rewrite HIc. ring.
          * destruct (Nat.ltb_spec c j) as [Hlt|]; [|lia]. destruct HIc as (I1 & I2 & I3). rewrite VL by lia. split; [exact I1|]. split; [exact I2|].
            rewrite I3. apply sum_ext. intros k Hk. rewrite !VL by lia. reflexivity.
        + destruct (Nat.ltb_spec c j); [lia|]. rewrite V by lia. unfold g. destruct (Nat.eqb_spec c j); [lia|]. exact HIc.
      - (* U *)
        set (d := cre K (me A j j) - sum j (fun k => cconj K (me A k j) * me A k j)) in *. destruct (ppos d) eqn:Pd; [|discriminate].
        assert (Rd : cconj K d = d).
        { unfold d. rewrite conj_sub, cre_conj, conj_sum. f_equal. apply sum_ext. intros k _. rewrite cconj_mul, cconj_invol. ring. }
        destruct (HS d Rd Pd) as (S1 & S2 & S3). set (s := psqrt d) in *. injection E as E. subst A'. split; [apply of_fun_wf|].
        assert (VA : me A j j = A0 j j).
        { specialize (HI j j ltac:(lia)). cbn [is_L] in HI. cbv zeta in HI. rewrite Nat.ltb_irrefl in HI.
          rewrite <- (cconj_invol K (me A j j)), HI. apply cconj_invol. }
        assert (RA : cre K (A0 j j) = A0 j j) by (apply cre_real; symmetry; apply HH; exact Hj).
        assert (RA' : cconj K (A0 j j) = A0 j j) by (symmetry; apply HH; exact Hj).
        intros i c Hc. cbn [is_L]. cbv zeta. specialize (HI i c Hc) as HIc. cbn [is_L] in HIc. cbv zeta in HIc.
        set (g := fun i0 c0 => _) in |- *.
        assert (V : forall a b, (a < n)%nat -> (b < n)%nat -> me (of_fun K n n g) a b = g a b) by (intros; apply of_fun_me; assumption).
        assert (VL : forall a k, (a < n)%nat -> (k < j)%nat -> me (of_fun K n n g) k a = me A k a).
        { intros a k Ha Hkj. rewrite V by lia. unfold g. destruct (Nat.eqb_spec k j); [lia|reflexivity]. }
        destruct (Nat.ltb_spec c (S j)) as [Hcj|Hcj].
        + destruct (Nat.eq_dec c j) as [->|Hne].
          * assert (D : me (of_fun K n n g) j j = s) by (rewrite V by lia; unfold g; rewrite !Nat.eqb_refl; reflexivity). rewrite D, S2.
            split; [exact S1|]. split; [exact S2|]. cbn [sum]. rewrite D, S2.
            rewrite (sum_ext K j _ (fun k => cconj K (me A k i) * me A k j)) by (intros k Hk; rewrite !VL by lia; rewrite cconj_invol; reflexivity).
            rewrite S2. destruct (Nat.eq_dec i j) as [->|Hij].
            -- rewrite D, S2, S3. unfold d. rewrite VA, RA, RA'. ring.
            -- rewrite V by lia. unfold g. rewrite Nat.eqb_refl. destruct (Nat.eqb_spec i j); [lia|]. destruct (Nat.ltb_spec j i); [|lia].
               rewrite Nat.ltb_irrefl in HIc. rewrite <- HIc.
               transitivity (cconj K (me A j i)); [reflexivity|].
               set (z := fdiv F _ s). assert (Z : cconj K z * s = cconj K (z * s)) by (rewrite cconj_mul, S2; reflexivity). rewrite Z. unfold z. rewrite fdiv_mul by exact S1. rewrite conj_sub, conj_sum.
               rewrite (sum_ext K j (fun i0 => cconj K (cconj K (me A i0 j) * me A i0 i)) (fun k => cconj K (me A k i) * me A k j)) by (intros k _; rewrite cconj_mul, cconj_invol; ring).
               ring.
          * destruct (Nat.ltb_spec c j) as [Hlt|]; [|lia]. destruct HIc as (I1 & I2 & I3). rewrite VL by lia. split; [exact I1|]. split; [exact I2|].
            rewrite I3. apply sum_ext. intros k Hk. rewrite !VL by lia. reflexivity.
        + destruct (Nat.ltb_spec c j); [lia|]. rewrite V by lia. unfold g. destruct (Nat.eqb_spec c j); [lia|]. exact HIc.
    Qed.
    Lemma potf2_ok : forall u n A0 s j A A', u <> UpN -> (j + s = n)%nat -> wf_mat A n n -> hermitian n A0 -> chol_inv u n A0 j A ->
      potf2 F ppos psqrt u s j A = (A', true) -> wf_mat A' n n /\ chol_inv u n A0 n A'.
    Proof.
      intros u n A0 s. induction s as [|s IH]; intros j A A' Hu Hs HW HH HI E.
      - cbn in E. injection E as <-. assert (Hjn : j = n) by lia. rewrite Hjn in HI. split; assumption.
      - cbn [potf2] in E. destruct (potf2_step F ppos psqrt u j A) as (A1, [|]) eqn:E1; [|discriminate].
        destruct (potf2_step_ok u n A0 j A A1) as (X1 & X2); [exact Hu|lia|exact HW|exact HH|exact HI|exact E1|].
        apply (IH (S j) A1 A'); [exact Hu|lia|exact X1|exact HH|exact X2|exact E].
    Qed.

    (** A = L L^H (lower), A = U^H U (upper). *)
    Lemma cholesky_ok : forall u n A B, u <> UpN -> wf_mat A n n -> hermitian n (me A) ->
      cholesky_factorization F ppos psqrt u A = Some (B, true) ->
      wf_mat B n n /\ mp B = mp A /\ (forall i, (i < n)%nat -> me B i i <> 0) /\
      forall i j, (i < n)%nat -> (j < n)%nat -> me A i j =
        match u with
        | UpU => sum n (fun k => cconj K (triangle UpU DgN B k i) * triangle UpU DgN B k j)
        | _ => sum n (fun k => triangle UpL DgN B i k * cconj K (triangle UpL DgN B j k))
        end.
    Proof.
      intros u n A B Hu HW HH E. unfold cholesky_factorization in E. destruct HW as (W1 & W2 & W3). rewrite W1, W2, W3 in E.
      destruct (Nat.leb_spec 1 n); [|cbn in E; discriminate]. rewrite Nat.eqb_refl in E. cbn [andb] in E.
      destruct (potf2 F ppos psqrt u n 0 A) as (B1, ok) eqn:EP. injection E as E1 E2. subst ok.
      destruct (potf2_ok u n (me A) n 0 A B1 Hu) as ((V1 & V2 & V3) & HI); [lia|split; [exact W1|split; assumption]|exact HH| |exact EP|].
      { intros i c Hc. cbv zeta. reflexivity. }
      assert (MB : forall i j, me B i j = me B1 i j) by (intros; subst B; unfold me; cbn [mr md]; rewrite V1; reflexivity).
      split; [subst B; split; [reflexivity|split; [reflexivity|exact V3]]|]. split; [subst B; reflexivity|].
      set (a := fun i c => if is_L u then me B1 i c else cconj K (me B1 c i)).
      set (a0 := fun i c => if is_L u then me A i c else cconj K (me A c i)).
      set (T := fun i k => if (k <=? i)%nat then a i k else 0).
      assert (HL : forall i c, (c <= i < n)%nat -> a c c <> 0 /\ a0 i c = sum n (fun k => T i k * cconj K (T c k))).
      { intros i c Hc. specialize (HI i c Hc). cbv zeta in HI. destruct (Nat.ltb_spec c n); [|lia]. destruct HI as (I1 & I2 & I3).
        split; [exact I1|]. unfold a0. rewrite I3. replace n with (S c + (n - S c))%nat by lia. rewrite sum_split.
        rewrite (sum_0 K (n - S c)). 2:{ intros k Hk. unfold T at 2. destruct (Nat.leb_spec (S c + k) c); [lia|]. rewrite conj_0. ring. }
        rewrite (sum_ext K (S c) (fun k => T i k * _) (fun k => a i k * cconj K (a c k))).
        2:{ intros k Hk. unfold T. destruct (Nat.leb_spec k i); [|lia]. destruct (Nat.leb_spec k c); [|lia]. reflexivity. }
        unfold a. ring. }
      split.
      { intros i Hi. destruct (HL i i ltac:(lia)) as (N1 & _). unfold a in N1. rewrite MB. destruct (is_L u); [exact N1|]. intros Z. apply N1. rewrite Z. apply conj_0. }
      assert (FULL : forall i j, (i < n)%nat -> (j < n)%nat -> a0 i j = sum n (fun k => T i k * cconj K (T j k))).
      { intros i j Hi Hj. destruct (Nat.le_gt_cases j i); [apply HL; lia|].
        destruct (HL j i ltac:(lia)) as (_ & E). transitivity (cconj K (a0 j i)).
        - unfold a0. destruct (is_L u); [apply HH; assumption|]. rewrite (HH j i) by assumption. rewrite cconj_invol. reflexivity.
        - rewrite E, conj_sum. apply sum_ext. intros k _. rewrite cconj_mul, cconj_invol. ring. }
      assert (HT : forall i k, match u with UpU => triangle UpU DgN B k i | _ => cconj K (triangle UpL DgN B i k) end = cconj K (T i k)).
      { intros i k. unfold T, triangle, a. rewrite !MB. destruct u; [congruence| |]; cbn [is_L].
        - f_equal. destruct (Nat.eqb_spec i k) as [->|]; [rewrite Nat.leb_refl; reflexivity|]. destruct (Nat.ltb_spec k i), (Nat.leb_spec k i); try lia; reflexivity.
        - destruct (Nat.eqb_spec k i) as [->|].
          + rewrite Nat.leb_refl, cconj_invol. reflexivity.
          + destruct (Nat.ltb_spec k i), (Nat.leb_spec k i); try lia; [rewrite cconj_invol; reflexivity|symmetry; apply conj_0]. }
      intros i j Hi Hj. destruct u; [congruence| |].
      - unfold a0 in FULL. cbn [is_L] in FULL. rewrite FULL by assumption. apply sum_ext. intros k _. rewrite (HT j k). f_equal.
        rewrite <- (cconj_invol K (T i k)), <- HT, cconj_invol. reflexivity.
      - unfold a0 in FULL. cbn [is_L] in FULL. rewrite (HH i j) by assumption. rewrite FULL by assumption. apply sum_ext. intros k _. rewrite (HT i k), (HT j k), cconj_invol. reflexivity.
    Qed.
    (** potrs: side L. *)
    Lemma cholesky_solve_ok : forall u n q (A B R : mat K), u <> UpN -> (1 <= n)%nat -> (1 <= q)%nat -> wf_mat B n n -> wf_mat R n q ->
      (forall i, (i < n)%nat -> me B i i <> 0) ->
      (forall i j, (i < n)%nat -> (j < n)%nat -> me A i j =
        match u with
        | UpU => sum n (fun k => cconj K (triangle UpU DgN B k i) * triangle UpU DgN B k j)
        | _ => sum n (fun k => triangle UpL DgN B i k * cconj K (triangle UpL DgN B j k))
        end) ->
      exists X, cholesky_solve F u B R = Some X /\ wf_mat X n q /\ is_solution SdL TrN (me A) 1 n q (me R) (me X).
    Proof.
      intros u n q A B R Hu Hn Hq HB (R1 & R2 & R3) HD HA. unfold cholesky_solve. destruct HB as (B1 & B2 & B3). rewrite B1, R2.
      assert (HW : wf_mat B n n) by (split; [exact B1|split; assumption]). assert (D2 : diag_ok F DgN B n) by (intros _; exact HD).
      assert (MR : forall i j, get (md R) (i + j * n)%nat = me R i j) by (intros; unfold me; rewrite R1; reflexivity).
      set (t1 := match u with UpU => TrC | _ => TrN end). set (t2 := match u with UpU => TrN | _ => TrC end).
      destruct (trsm_ok F SdL u t1 DgN n q 1 B (md R) Hn Hq HW) as (b1 & X1 & X2 & X3); [lia|exact D2|].
      destruct (trsm_ok F SdL u t2 DgN n q 1 B b1 Hn Hq HW) as (b2 & Y1 & Y2 & Y3); [lia|exact D2|].
      exists (mkPMat (mr R) (mc R) b2 (mp R)). split.
      { destruct u; [congruence| |]; cbn in t1, t2; unfold t1, t2 in *; cbv beta iota in X1, Y1; rewrite X1, Y1, R2; reflexivity. }
      split; [split; [exact R1|split; [exact R2|cbn [md]; lia]]|].
      apply (solution_compose F SdL TrN (me A) (op_fun t1 (triangle u DgN B)) (op_fun t2 (triangle u DgN B)) 1 n q (me R) (fun i j => get b1 (i + j * n)%nat)).
      - intros i j Hi Hj. rewrite HA by assumption. destruct u; [congruence| |]; apply sum_ext; intros k _; reflexivity.
      - cbn [is_N]. split.
        + intros i j Hi Hj. specialize (X3 i j Hi Hj). cbv beta iota in X3. rewrite MR in X3. exact X3.
        + intros i j Hi Hj. specialize (Y3 i j Hi Hj). cbv beta iota in Y3. unfold me at 1. cbn [mr md]. rewrite R1. exact Y3.
    Qed.
  End C.
End P.
