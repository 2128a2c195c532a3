(** * Proofs for the dense LU factorisation with pivots, and for solves by its factors. *)

From Coq Require Import List Arith Bool Lia Ring.
From Verif Require Import BlockModel Algebra BlasModel BlasProofs HMatModel HMatSpec HMatBuild Field DenseModel DenseSpec DenseProofs.
Import ListNotations.

Section P.
  Variable F : Fld.
  Notation K := (fk F).
  Notation C := (car K).
  Notation "0" := (c0 K).
  Notation "1" := (c1 K).
  Notation "x + y" := (cadd K x y).
  Notation "x * y" := (cmul K x y).
  Notation "x - y" := (csub K x y).
  Add Ring KringDL : (c_ring K).

  (** ** The factorisation *)
  Definition Lp (A : mat K) (i q : nat) : C := if (q <? i)%nat then me A i q else if (i =? q)%nat then 1 else 0.
  Definition Up (A : mat K) (q j : nat) : C := if (q <=? j)%nat then me A q j else 0.
  Definition Rp (k : nat) (A : mat K) (i j : nat) : C := if (k <=? i)%nat && (k <=? j)%nat then me A i j else 0.
  Lemma Lp_triangle : forall A i q, Lp A i q = triangle UpL DgU A i q.
  Proof. intros A i q. unfold Lp, triangle. destruct (Nat.ltb_spec q i), (Nat.eqb_spec i q); try reflexivity; lia. Qed.
  Lemma Up_triangle : forall A q j, Up A q j = triangle UpU DgN A q j.
  Proof.
    intros A q j. unfold Up, triangle. destruct (Nat.leb_spec q j), (Nat.eqb_spec q j), (Nat.ltb_spec q j); try reflexivity; try lia.
    subst. reflexivity.
  Qed.

  Section G.
    Variable piv : (nat -> C) -> nat -> nat -> nat.
    Hypothesis HPiv : pivot_rule piv.

    Lemma getf2_step_ok : forall n A0 k A l, (k < n)%nat -> wf_mat A n n -> length l = k ->
      (forall i j, (i < n)%nat -> (j < n)%nat -> A0 (source_row 0 l i) j = sum k (fun q => Lp A i q * Up A q j) + Rp k A i j) ->
      exists A' p, getf2_step F piv k A = (A', p) /\ wf_mat A' n n /\ (k + 1 <= p <= n)%nat /\
        forall i j, (i < n)%nat -> (j < n)%nat ->
          A0 (source_row 0 (l ++ [p]) i) j = sum (S k) (fun q => Lp A' i q * Up A' q j) + Rp (S k) A' i j.
    Proof.
      intros n A0 k A l Hk (W1 & W2 & W3) Hl HI. unfold getf2_step. rewrite W1, W2.
      set (p := piv (fun i => me A i k) k n). destruct (HPiv (fun i => me A i k) k n Hk) as (P1 & P2). fold p in P1, P2.
      set (A1 := if ceqb K (me A p k) 0 then A else _).
      set (A2 := of_fun K n n _). exists A2, (p + 1)%nat. split; [reflexivity|].
      split; [apply of_fun_wf|]. split; [lia|].
      (* entries of A1 *)
      assert (HA1 : forall i j, (i < n)%nat -> (j < n)%nat ->
        me A1 i j = (if (j =? k) && (k <? i) then me A1 i k else me A (exch k p i) j) /\
        (j = k -> (k < i)%nat -> me A1 i k * me A (exch k p k) k = me A (exch k p i) k)).
      { intros i j Hi Hj. unfold A1. destruct (ceqb_spec K (me A p k) 0) as [E|E].
        - destruct (P2 E) as (P3 & P4). rewrite P3. assert (X : forall z, exch k k z = z) by (intros z; unfold exch; destruct (Nat.eqb_spec z k); congruence).
          rewrite !X. split.
          + destruct (Nat.eqb_spec j k) as [->|]; [destruct (k <? i)%nat; reflexivity|reflexivity].
          + intros -> Hik. rewrite (P4 k) by lia. rewrite (P4 i) by lia. ring.
        - set (A3 := of_fun K n n _).
          assert (V : forall i j, (i < n)%nat -> (j < n)%nat -> me A3 i j =
            if (j =? k) && (k <? i) then fdiv F (me A (exch k p i) j) (me A (exch k p k) k) else me A (exch k p i) j).
          { intros i0 j0 Hi0 Hj0. unfold A3. rewrite of_fun_me by lia. rewrite !of_fun_me by lia. reflexivity. }
          split.
          + rewrite !V by lia. destruct ((j =? k) && (k <? i)) eqn:Q; [|reflexivity].
            apply andb_true_iff in Q. destruct Q as (Q1 & Q2). apply Nat.eqb_eq in Q1. subst j. rewrite Nat.eqb_refl, Q2. reflexivity.
          + intros -> Hik. rewrite V by lia. destruct (Nat.ltb_spec k i); [|lia]. rewrite Nat.eqb_refl. cbn [andb].
            rewrite fdiv_mul; [reflexivity|]. unfold exch. rewrite Nat.eqb_refl. exact E. }
      (* entries of A2 *)
      assert (HA2 : forall i j, (i < n)%nat -> (j < n)%nat -> me A2 i j = if (k <? i) && (k <? j) then me A1 i j - me A1 i k * me A1 k j else me A1 i j).
      { intros i j Hi Hj. unfold A2. rewrite of_fun_me by lia. reflexivity. }
      assert (Hex : forall i, (i < k)%nat -> exch k p i = i).
      { intros i Hi. unfold exch. destruct (Nat.eqb_spec i k); [lia|]. destruct (Nat.eqb_spec i p); [lia|reflexivity]. }
      assert (Hex2 : forall i, (k <= i)%nat -> (k <= exch k p i)%nat).
      { intros i Hi. unfold exch. destruct (Nat.eqb_spec i k); [lia|]. destruct (Nat.eqb_spec i p); lia. }
      assert (Hexn : forall i, (i < n)%nat -> (exch k p i < n)%nat) by (intros; apply exch_lt; lia).
      (* row k of A1 *)
      assert (RK : forall j, (j < n)%nat -> me A1 k j = me A (exch k p k) j).
      { intros j Hj. destruct (HA1 k j Hk Hj) as (E & _). rewrite E. rewrite Nat.ltb_irrefl, andb_false_r. reflexivity. }
      intros i j Hi Hj. rewrite source_app, Hl. cbn [source_row Nat.add]. replace (p + 1 - 1)%nat with p by lia.
      rewrite HI; [|apply Hexn, Hi|exact Hj]. cbn [sum].
      rewrite (sum_ext K k (fun q => Lp A2 i q * Up A2 q j) (fun q => Lp A (exch k p i) q * Up A q j)).
      2:{ intros q Hq. f_equal.
          - unfold Lp. destruct (Nat.lt_ge_cases i k) as [Hik|Hik].
            + rewrite Hex by exact Hik. destruct (Nat.ltb_spec q i); [|reflexivity].
              rewrite HA2 by lia. destruct (Nat.ltb_spec k i); [lia|]. cbn [andb]. destruct (HA1 i q Hi ltac:(lia)) as (E & _). rewrite E.
              destruct (Nat.eqb_spec q k); [lia|]. cbn [andb]. rewrite Hex by exact Hik. reflexivity.
            + specialize (Hex2 i Hik). destruct (Nat.ltb_spec q i); [|lia]. destruct (Nat.ltb_spec q (exch k p i)); [|lia].
              rewrite HA2 by lia. destruct (Nat.ltb_spec k q); [lia|]. rewrite andb_false_r. destruct (HA1 i q Hi ltac:(lia)) as (E & _). rewrite E.
              destruct (Nat.eqb_spec q k); [lia|]. reflexivity.
          - unfold Up. destruct (Nat.leb_spec q j); [|reflexivity]. rewrite HA2 by lia. destruct (Nat.ltb_spec k q); [lia|]. cbn [andb].
            destruct (HA1 q j ltac:(lia) Hj) as (E & _). rewrite E. destruct (Nat.ltb_spec k q); [lia|]. rewrite andb_false_r, Hex by lia. reflexivity. }
      assert (G : Rp k A (exch k p i) j = Lp A2 i k * Up A2 k j + Rp (S k) A2 i j); [|rewrite G; ring].
      assert (UK : (k <= j)%nat -> Up A2 k j = me A (exch k p k) j).
      { intros H. unfold Up. destruct (Nat.leb_spec k j); [|lia]. rewrite HA2 by lia. rewrite Nat.ltb_irrefl. cbn [andb]. apply RK, Hj. }
      destruct (Nat.lt_ge_cases j k) as [Hjk|Hjk].
      { unfold Rp, Up. destruct (Nat.leb_spec k j); [lia|]. destruct (Nat.leb_spec (S k) j); [lia|]. rewrite !andb_false_r. ring. }
      rewrite UK by exact Hjk. destruct (Nat.lt_trichotomy i k) as [Hik|[Hik|Hik]].
      - unfold Rp, Lp. rewrite Hex by exact Hik. destruct (Nat.leb_spec k i); [lia|]. destruct (Nat.ltb_spec k i); [lia|].
        destruct (Nat.eqb_spec i k); [lia|]. destruct (Nat.leb_spec (S k) i); [lia|]. cbn [andb]. ring.
      - subst i. unfold Rp, Lp. specialize (Hex2 k (le_n k)). destruct (Nat.leb_spec k (exch k p k)); [|lia]. destruct (Nat.leb_spec k j); [|lia].
        rewrite Nat.ltb_irrefl, Nat.eqb_refl. destruct (Nat.leb_spec (S k) k); [lia|]. cbn [andb]. ring.
      - unfold Rp, Lp. specialize (Hex2 i ltac:(lia)). destruct (Nat.leb_spec k (exch k p i)); [|lia]. destruct (Nat.leb_spec k j); [|lia].
        destruct (Nat.ltb_spec k i); [|lia]. destruct (Nat.leb_spec (S k) i); [|lia]. cbn [andb].
        assert (LK : me A2 i k = me A1 i k) by (rewrite HA2 by lia; rewrite Nat.ltb_irrefl, andb_false_r; reflexivity). rewrite LK.
        destruct (Nat.leb_spec (S k) j).
        + rewrite HA2 by lia. destruct (Nat.ltb_spec k i); [|lia]. destruct (Nat.ltb_spec k j); [|lia]. cbn [andb].
          destruct (HA1 i j Hi Hj) as (E & _). rewrite E. destruct (Nat.eqb_spec j k); [lia|]. cbn [andb]. rewrite RK by exact Hj. ring.
        + assert (j = k) by lia. subst j. destruct (HA1 i k Hi Hj) as (_ & E). rewrite E by (reflexivity || lia). ring.
    Qed.

    Lemma getf2_ok : forall n A0 s k A l, (k + s = n)%nat -> wf_mat A n n -> length l = k ->
      (forall q, (q < k)%nat -> (q + 1 <= nth q l 0%nat <= n)%nat) ->
      (forall i j, (i < n)%nat -> (j < n)%nat -> A0 (source_row 0 l i) j = sum k (fun q => Lp A i q * Up A q j) + Rp k A i j) ->
      exists A' l', getf2 F piv s k A l = (A', l') /\ wf_mat A' n n /\ getrf_pivots n l' /\
        forall i j, (i < n)%nat -> (j < n)%nat -> A0 (source_row 0 l' i) j = sum n (fun q => Lp A' i q * Up A' q j).
    Proof.
      intros n A0 s. induction s as [|s IH]; intros k A l Hs HW Hl HR HI.
      - exists A, l. split; [reflexivity|]. split; [exact HW|]. assert (Hkn : k = n) by lia. rewrite Hkn in *. split; [split; [exact Hl|intros q Hq; apply HR; lia]|].
        intros i j Hi Hj. rewrite HI by assumption. unfold Rp. destruct (Nat.leb_spec n i); [lia|]. cbn [andb]. ring.
      - destruct (getf2_step_ok n A0 k A l) as (A' & p & E1 & E2 & E3 & E4); [lia|exact HW|exact Hl|exact HI|].
        cbn [getf2]. rewrite E1. apply (IH (S k) A' (l ++ [p])); [lia|exact E2|rewrite app_length; cbn; lia| |exact E4].
        intros q Hq. destruct (Nat.eq_dec q k) as [->|Hne].
        + rewrite app_nth2 by lia. rewrite Hl, Nat.sub_diag. cbn. exact E3.
        + rewrite app_nth1 by lia. apply HR. lia.
    Qed.

    (** P A = L U, as A = (P^T L) U. *)
    Lemma lu_ok : forall n A, (1 <= n)%nat -> wf_mat A n n ->
      exists B, lu_factorization F piv A = Some B /\ wf_mat B n n /\ getrf_pivots n (mp B) /\
        forall i j, (i < n)%nat -> (j < n)%nat -> me A i j = sum n (fun q => factor UpL DgU B i q * factor UpU DgN B q j).
    Proof.
      intros n A Hn HW. destruct HW as (W1 & W2 & W3). unfold lu_factorization. rewrite W1, W2, W3.
      destruct (Nat.leb_spec 1 n); [|lia]. rewrite Nat.eqb_refl. cbn [andb]. rewrite Nat.min_id.
      destruct (getf2_ok n (me A) n 0 A []) as (B & l & E1 & E2 & E3 & E4); [lia|split; [exact W1|split; assumption]|reflexivity|intros q Hq; lia| |].
      { intros i j Hi Hj. cbn [source_row sum]. unfold Rp. cbn [Nat.leb andb]. ring. }
      rewrite E1. eexists. split; [reflexivity|]. destruct E2 as (V1 & V2 & V3).
      split; [split; [reflexivity|split; [reflexivity|exact V3]]|]. cbn [mp]. split; [exact E3|].
      intros i j Hi Hj. assert (HR : piv_range n l) by (apply getrf_range, E3).
      assert (Ht : (target_row 0 l i < n)%nat) by (apply target_lt; [exact HR|destruct E3; lia|exact Hi]).
      pattern i at 1. rewrite <- (source_target l 0 i). rewrite E4 by assumption. apply sum_ext. intros q Hq.
      unfold factor. cbn [is_L mp]. rewrite Lp_triangle, Up_triangle. unfold triangle, me. cbn [mr md]. rewrite V1. reflexivity.
    Qed.
  End G.

  (** ** The diagonal of U *)
  Lemma upper_kernel : forall n (U : nat -> nat -> C), (forall i j, (j < i)%nat -> U i j = 0) -> forall k, (k < n)%nat ->
    (forall i, (i < k)%nat -> U i i <> 0) -> U k k = 0 -> exists x, x k = 1 /\ forall i, (i < n)%nat -> sum n (fun q => U i q * x q) = 0.
  Proof.
    intros n U HU k Hk HD HZ. set (y := substitute F false k U (fun i => 0 - U i k)).
    assert (HY : forall i, (i < k)%nat -> sum k (fun q => U i q * get y q) = 0 - U i k).
    { intros i Hi. apply (substitute_ok F false k U (fun i => 0 - U i k)); [exact HD| |exact Hi]. intros a b _ _ H. apply HU, H. }
    exists (fun q => if (q <? k)%nat then get y q else if (q =? k)%nat then 1 else 0). split; [rewrite Nat.ltb_irrefl, Nat.eqb_refl; reflexivity|].
    intros i Hi. replace n with (k + (1 + (n - k - 1)))%nat by lia. rewrite !sum_split. cbn [sum].
    rewrite (sum_0 K (n - k - 1)).
    2:{ intros q Hq. destruct (Nat.ltb_spec (k + (1 + q)) k); [lia|]. destruct (Nat.eqb_spec (k + (1 + q)) k); [lia|]. ring. }
    rewrite Nat.add_0_r, Nat.ltb_irrefl, Nat.eqb_refl.
    rewrite (sum_ext K k _ (fun q => U i q * get y q)) by (intros q Hq; destruct (Nat.ltb_spec q k); [reflexivity|lia]).
    destruct (Nat.lt_ge_cases i k) as [H|H].
    - rewrite HY by exact H. ring.
    - rewrite (sum_0 K k) by (intros q Hq; rewrite HU by lia; ring). destruct (Nat.eq_dec i k) as [->|]; [rewrite HZ; ring|]. rewrite HU by lia. ring.
  Qed.
  Lemma lu_diag : forall n (A : nat -> nat -> C) (L : nat -> nat -> C) (B : mat K), injective n A ->
    (forall i j, (i < n)%nat -> (j < n)%nat -> A i j = sum n (fun q => L i q * factor UpU DgN B q j)) ->
    forall i, (i < n)%nat -> me B i i <> 0.
  Proof.
    intros n A L B HI HA i. induction i as [i IH] using (well_founded_induction lt_wf). intros Hi HZ.
    set (U := fun q j => factor (F:=F) UpU DgN B q j).
    assert (D : forall q, U q q = me B q q) by (intros q; unfold U, factor, triangle; cbn [is_L]; rewrite Nat.eqb_refl; reflexivity).
    destruct (upper_kernel n U) with (k := i) as (x & X1 & X2); [|exact Hi| |rewrite D; exact HZ|].
    - intros a b Hab. unfold U, factor, triangle. cbn [is_L]. destruct (Nat.eqb_spec a b); [lia|]. destruct (Nat.ltb_spec a b); [lia|reflexivity].
    - intros q Hq. rewrite D. apply IH; lia.
    - apply (f_10 F). rewrite <- X1. apply HI; [|exact Hi]. intros r Hr.
      rewrite (sum_ext K n _ (fun k => sum n (fun q => L r q * (U q k * x k)))).
      2:{ intros k Hk. rewrite HA by assumption. rewrite <- sum_mul_r. apply sum_ext. intros q Hq. unfold U. ring. }
      rewrite sum_swap. apply sum_0. intros q Hq. rewrite sum_mul_l, X2 by exact Hq. ring.
  Qed.

  (** ** Two triangular solves *)
  Lemma solution_compose : forall s t (T T1 T2 : nat -> nat -> C) alpha m n B Y X,
    let na := match s with SdL => m | SdR => n end in
    (forall i j, (i < na)%nat -> (j < na)%nat -> T i j = sum na (fun q => T1 i q * T2 q j)) ->
    match s, is_N t with
    | SdL, true | SdR, false => is_solution s t T1 alpha m n B Y /\ is_solution s t T2 1 m n Y X
    | _, _ => is_solution s t T2 alpha m n B Y /\ is_solution s t T1 1 m n Y X
    end -> is_solution (F:=F) s t T alpha m n B X.
  Proof.
    intros s t T T1 T2 alpha m n B Y X na HT H.
    assert (AL : forall (a : nat -> nat -> C) (b : nat -> nat -> C), (forall i j, (i < m)%nat -> (j < n)%nat -> match s with SdL => sum m (fun k => op_fun t T i k * X k j) | SdR => sum n (fun k => X i k * op_fun t T k j) end = match s with SdL => sum m (fun p => a i p * Y p j) | SdR => sum n (fun p => Y i p * a p j) end) ->
      (forall i j, (i < m)%nat -> (j < n)%nat -> match s with SdL => sum m (fun p => a i p * Y p j) | SdR => sum n (fun p => Y i p * a p j) end = alpha * B i j) -> is_solution s t T alpha m n B X).
    { intros a b H1 H2 i j Hi Hj. rewrite <- H2 by assumption. rewrite <- H1 by assumption. reflexivity. }
    (* op of the product *)
    set (a := if is_N t then op_fun t T1 else op_fun t T2). set (b := if is_N t then op_fun t T2 else op_fun t T1).
    assert (HO : forall i j, (i < na)%nat -> (j < na)%nat -> op_fun t T i j = sum na (fun q => a i q * b q j)).
    { intros i j Hi Hj. destruct t; cbn [op_fun is_N] in *; unfold a, b; cbn [op_fun is_N].
      - apply HT; assumption.
      - rewrite HT by assumption. apply sum_ext. intros q Hq. ring.
      - rewrite HT by assumption. rewrite conj_sum. apply sum_ext. intros q Hq. rewrite cconj_mul. ring. }
    destruct s; unfold na in *.
    - assert (H1 : is_solution SdL t (if is_N t then T1 else T2) alpha m n B Y) by (destruct (is_N t); apply H).
      assert (H2 : is_solution SdL t (if is_N t then T2 else T1) 1 m n Y X) by (destruct (is_N t); apply H).
      apply (AL a b).
      + intros i j Hi Hj. rewrite (sum_ext K m _ (fun k => sum m (fun q => a i q * (b q k * X k j)))).
        2:{ intros k Hk. rewrite HO by assumption. rewrite <- sum_mul_r. apply sum_ext. intros q Hq. ring. }
        rewrite sum_swap. apply sum_ext. intros q Hq. rewrite sum_mul_l. f_equal.
        specialize (H2 q j Hq Hj). cbn beta iota in H2. transitivity (1 * Y q j); [|ring]. rewrite <- H2. unfold b. destruct (is_N t); reflexivity.
      + intros i j Hi Hj. rewrite <- (H1 i j Hi Hj). unfold a. destruct (is_N t); reflexivity.
    - assert (H1 : is_solution SdR t (if is_N t then T2 else T1) alpha m n B Y) by (destruct (is_N t); apply H).
      assert (H2 : is_solution SdR t (if is_N t then T1 else T2) 1 m n Y X) by (destruct (is_N t); apply H).
      apply (AL b a).
      + intros i j Hi Hj. rewrite (sum_ext K n _ (fun k => sum n (fun q => (X i k * a k q) * b q j))).
        2:{ intros k Hk. rewrite HO by assumption. rewrite <- sum_mul_l. apply sum_ext. intros q Hq. ring. }
        rewrite sum_swap. apply sum_ext. intros q Hq. rewrite sum_mul_r. f_equal.
        specialize (H2 i q Hi Hq). cbn beta iota in H2. transitivity (1 * Y i q); [|ring]. rewrite <- H2. unfold a. destruct (is_N t); reflexivity.
      + intros i j Hi Hj. rewrite <- (H1 i j Hi Hj). unfold b. destruct (is_N t); reflexivity.
  Qed.

  (** lu_solve. *)
  Lemma getrs_ok : forall t (A B : mat K) n q, (1 <= n)%nat -> (1 <= q)%nat -> wf_mat A n n -> wf_mat B n q -> getrf_pivots n (mp A) ->
    (forall i, (i < n)%nat -> me A i i <> 0) ->
    exists X, lu_solve F t A B = Some X /\ wf_mat X n q /\
      is_solution SdL t (fun i j => sum n (fun k => factor UpL DgU A i k * factor UpU DgN A k j)) 1 n q (me B) (me X).
  Proof.
    intros t A B n q Hn Hq HA (B1 & B2 & B3) HP HD. unfold lu_solve, getrs. destruct HA as (A1 & A2 & A3). rewrite A1, B2.
    assert (HW : wf_mat A n n) by (split; [exact A1|split; assumption]).
    assert (HR : piv_range n (mp A)) by (apply getrf_range, HP). assert (HLen : length (mp A) = n) by apply HP.
    assert (S1 : forall i, (i < n)%nat -> (source_row 0 (mp A) i < n)%nat) by (intros; apply source_lt; [exact HR|cbn; lia|assumption]).
    assert (S2 : forall i, (i < n)%nat -> (target_row 0 (mp A) i < n)%nat) by (intros; apply target_lt; [exact HR|cbn; lia|assumption]).
    assert (MB : forall i j, me B i j = get (md B) (i + j * n)%nat) by (intros; unfold me; rewrite B1; reflexivity).
    assert (D1 : diag_ok F DgU A n) by (intros Q; discriminate). assert (D2 : diag_ok F DgN A n) by (intros _; exact HD).
    assert (FL : forall alpha X, match is_N t with
        | true => is_solution SdL t (triangle UpL DgU A) alpha n q (fun i j => me B (source_row 0 (mp A) i) j) X
        | false => True
        end -> is_N t = true -> is_solution SdL t (factor UpL DgU A) alpha n q (me B) X).
    { intros alpha X HX E. unfold factor. cbn [is_L].
      apply (solution_permuted F SdL t (triangle UpL DgU A) alpha n q (me B) X (source_row 0 (mp A)) (target_row 0 (mp A))); [exact S1|exact S2| | |].
      - intros. apply source_target.
      - intros. apply target_source.
      - rewrite E in *. exact HX. }
    destruct (is_N t) eqn:EN.
    - destruct (laswp_ok F true n q (md B) (mp A) B3 HR HLen) as (b1 & E1 & E2 & E3). rewrite E1.
      assert (t = TrN) by (destruct t; try discriminate; reflexivity). subst t.
      destruct (trsm_ok F SdL UpL TrN DgU n q 1 A b1 Hn Hq HW) as (b2 & X1 & X2 & X3); [lia|exact D1|]. cbv beta iota in X1. rewrite X1.
      destruct (trsm_ok F SdL UpU TrN DgN n q 1 A b2 Hn Hq HW) as (b3 & Y1 & Y2 & Y3); [lia|exact D2|]. cbv beta iota in Y1. rewrite Y1.
      eexists. split; [reflexivity|]. split; [split; [exact B1|split; [reflexivity|cbn [md]; lia]]|].
      apply (solution_compose SdL TrN _ (factor UpL DgU A) (factor UpU DgN A) 1 n q (me B) (fun i j => get b2 (i + j * n)%nat)); [reflexivity|].
      cbn [is_N]. split.
      + apply FL; [|reflexivity]. revert X3. apply is_solution_ext; [reflexivity| |reflexivity]. intros i j Hi Hj. rewrite E3 by assumption. rewrite MB. reflexivity.
      + revert Y3. apply is_solution_ext; [|reflexivity|].
        * intros i j _ _. symmetry. apply factor_plain. right. reflexivity.
        * intros i j _ _. unfold me. cbn [md mr]. rewrite B1. reflexivity.
    - destruct (trsm_ok F SdL UpU t DgN n q 1 A (md B) Hn Hq HW) as (b2 & X1 & X2 & X3); [lia|exact D2|]. cbv beta iota in X1. rewrite X1.
      destruct (trsm_ok F SdL UpL t DgU n q 1 A b2 Hn Hq HW) as (b3 & Y1 & Y2 & Y3); [lia|exact D1|]. cbv beta iota in Y1. rewrite Y1.
      destruct (laswp_ok F false n q b3 (mp A)) as (b4 & E1 & E2 & E3); [lia|exact HR|exact HLen|]. rewrite E1.
      eexists. split; [reflexivity|]. split; [split; [exact B1|split; [reflexivity|cbn [md]; lia]]|].
      apply (solution_compose SdL t _ (factor UpL DgU A) (factor UpU DgN A) 1 n q (me B) (fun i j => get b2 (i + j * n)%nat)); [reflexivity|].
      rewrite EN. split.
      + revert X3. apply is_solution_ext; [| |reflexivity].
        * intros i j _ _. symmetry. apply factor_plain. right. reflexivity.
        * intros i j Hi Hj. rewrite MB. reflexivity.
      + unfold factor. cbn [is_L].
        apply (solution_permuted F SdL t (triangle UpL DgU A) 1 n q _ _ (source_row 0 (mp A)) (target_row 0 (mp A))); [exact S1|exact S2| | |].
        * intros. apply source_target.
        * intros. apply target_source.
        * rewrite EN. eexists. split; [exact Y3|]. intros i j Hi Hj. unfold me. cbn [md mr]. rewrite B1. cbn beta. apply E3; assumption.
  Qed.
End P.
