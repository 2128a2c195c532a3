(** * Proofs about the GenEO coarse space (GeneoModel.v). *)

From Coq Require Import List Arith Bool Lia Ring Permutation.
From Verif Require Import ClusterModel IOModel BlockModel Algebra BlasModel BlasProofs HMatModel HMatSpec HMatTop Field DenseModel DenseSpec DistModel DistProofs
  SolverModel SolverSpec SolverNum P_Solver CompSpec P_Dense HMatBuild DenseProofs DenseLU DenseChol GeneoModel GeneoSpec.
Import ListNotations.

Section Columns.
  Variable K : Coef.
  Notation C := (car K).
  Lemma fold_opt_snoc : forall {A} (f : A -> list C -> option (list C)) l a b, fold_opt K f (l ++ [a]) b = do b' <- fold_opt K f l b; f a b'.
  Proof. intros A f. induction l as [|x l IH]; intros a b; cbn; [destruct (f a b); reflexivity|]. destruct (f x b); [apply IH|reflexivity]. Qed.
  Lemma columns_ok : forall (src : list C) ls inside n k, inside <= n -> k <= inside -> inside <= ls -> ls * inside <= length src ->
    exists b, fold_opt K (fun i b => do s <- ptr K src (i * ls); put K b s (0 + i * n) inside) (seq 0 k) (repeat (c0 K) (n * n)) = Some b /\ length b = n * n /\
      forall i j, i < n -> j < n -> get b (i + j * n) = if (i <? inside) && (j <? k) then get src (i + j * ls) else c0 K.
  Proof.
    intros src ls inside n k Hin Hk Hls Hsrc. induction k as [|k IH].
    - exists (repeat (c0 K) (n * n)). split; [reflexivity|]. split; [apply repeat_length|]. intros i j _ _. rewrite andb_false_r. apply get_repeat.
    - destruct IH as (b & E1 & E2 & E3); [lia|]. rewrite seq_S, fold_opt_snoc, E1. cbn [fold_opt Nat.add].
      unfold ptr. destruct (Nat.leb_spec (k * ls) (length src)); [|nia].
      destruct (put_ok K b (skipn (k * ls) src) (k * n) inside) as (b' & P1 & P2 & P3); [rewrite skipn_length; nia|rewrite E2; nia|].
      rewrite P1. exists b'. split; [reflexivity|]. split; [lia|]. intros i j Hi Hj. rewrite P3, E3 by assumption.
      destruct (Nat.eq_dec j k) as [->|Hjk].
      + replace (k <? S k) with true by (symmetry; apply Nat.ltb_lt; lia). rewrite Nat.ltb_irrefl, !andb_true_r, andb_false_r.
        replace (k * n <=? i + k * n) with true by (symmetry; apply Nat.leb_le; lia). cbn [andb].
        destruct (Nat.ltb_spec i inside), (Nat.ltb_spec (i + k * n) (k * n + inside)); try lia; [|reflexivity].
        rewrite get_skipn. f_equal. lia.
      + destruct (Nat.leb_spec (k * n) (i + j * n)), (Nat.ltb_spec (i + j * n) (k * n + inside)); cbn [andb];
          [exfalso; assert (j < k \/ k < j) as [?|?] by lia; nia| | |];
          (destruct (Nat.ltb_spec j k), (Nat.ltb_spec j (S k)); try lia; reflexivity).
  Qed.
  Lemma daid_ok : forall inside n m (Ai : mat K), inside <= n -> (m = n \/ m = inside) -> wf_mat Ai m m ->
    exists D, build_daid K inside n Ai = Some D /\ wf_mat D n n /\
      forall i j, i < n -> j < n -> me D i j = if (i <? inside) && (j <? inside) then me Ai i j else c0 K.
  Proof.
    intros inside n m Ai Hin Hm (W1 & W2 & W3). unfold build_daid. rewrite W2.
    destruct (Nat.eqb_spec m n) as [->|Hmn].
    - destruct (columns_ok (md Ai) n inside n inside Hin (le_n _) Hin) as (b & E1 & E2 & E3); [nia|]. rewrite E1. eexists. split; [reflexivity|].
      split; [repeat split; exact E2|]. intros i j Hi Hj. unfold me. cbn [md mr mkMat]. rewrite W1. apply E3; assumption.
    - destruct Hm as [?|Hm]; [congruence|]. subst m. rewrite Nat.eqb_refl.
      destruct (columns_ok (md Ai) inside inside n inside Hin (le_n _) (le_n _)) as (b & E1 & E2 & E3); [nia|]. rewrite E1. eexists. split; [reflexivity|].
      split; [repeat split; exact E2|]. intros i j Hi Hj. unfold me. cbn [md mr mkMat]. rewrite W1. apply E3; assumption.
  Qed.
End Columns.

Section Kept.
  (** The first elements of a sorted permutation. *)
  Lemma firstn_leading : forall larger n index m, Permutation index (seq 0 n) -> sorted_by larger index -> leading larger n (firstn m index).
  Proof.
    intros larger n index m Hp Hs. assert (HD : NoDup index) by (apply (Permutation_NoDup (Permutation_sym Hp)); apply seq_NoDup).
    assert (Hb : forall k, In k index -> k < n) by (intros k Hk; apply (Permutation_in _ Hp) in Hk; apply in_seq in Hk; lia).
    assert (Hn : forall i a, nth_error (firstn m index) i = Some a -> nth_error index i = Some a /\ i < m).
    { intros i a. revert i m. clear. induction index as [|x l IH]; intros i [|m] E; try (destruct i; discriminate). destruct i; cbn in *; [split; [exact E|lia]|].
      destruct (IH _ _ E). split; [assumption|lia]. }
    split; [|split; [|split]].
    - rewrite <- (firstn_skipn m index) in HD. revert HD. generalize (firstn m index), (skipn m index). clear. induction l as [|x l IH]; intros r H; [constructor|].
      inversion H; subst. constructor; [intros Q; apply H2; apply in_or_app; left; exact Q|exact (IH _ H3)].
    - intros k Hk. apply Hb. rewrite <- (firstn_skipn m index). apply in_or_app. left. exact Hk.
    - intros i j a b Hij Ea Eb. apply Hn in Ea, Eb. apply (Hs i j a b Hij); tauto.
    - intros k k' Hk Hk' Hnot. apply In_nth_error in Hk. destruct Hk as (i & Ei). apply Hn in Ei. destruct Ei as [Ei Hi].
      assert (Q : In k' index) by (apply (Permutation_in _ (Permutation_sym Hp)); apply in_seq; lia).
      apply In_nth_error in Q. destruct Q as (j & Ej). destruct (le_lt_dec m j) as [L|L]; [apply (Hs i j k k'); [lia|assumption|assumption]|].
      exfalso. apply Hnot. revert i j Ei Hi Ej L. clear. intros i j _ _ Ej L. revert j m Ej L. induction index as [|x l IH]; intros j m Ej L; [destruct j; discriminate|].
      destruct m; [lia|]. destruct j; cbn in *; [left; congruence|right; apply (IH j); [exact Ej|lia]].
  Qed.
  Lemma larger_weak : forall {V} (lt : V -> V -> bool) (val : nat -> V), strict_weak lt -> strict_weak (fun a b => lt (val b) (val a)).
  Proof.
    intros V lt val [H1 H2 H3]. split; [intros a; apply H1| |intros a b H; apply H3; exact H].
    intros a b c H. destruct (H2 _ (val b) _ H); auto.
  Qed.
  Lemma larger_inf_weak : forall {V} (lt : V -> V -> bool) (val : nat -> V) (inf : nat -> bool), strict_weak lt ->
    strict_weak (fun a b => (inf a || lt (val b) (val a)) && negb (inf b)).
  Proof.
    intros V lt val inf [H1 H2 H3]. split.
    - intros a. destruct (inf a); [reflexivity|]. cbn. rewrite H1. reflexivity.
    - intros a b c H. apply andb_true_iff in H. destruct H as [Ha Hc]. apply negb_true_iff in Hc. rewrite Hc. cbn [negb]. rewrite !andb_true_r.
      destruct (inf b) eqn:Eb; [right; reflexivity|]. cbn [negb orb]. rewrite andb_true_r. destruct (inf a) eqn:Ea; [left; reflexivity|]. cbn [orb] in *.
      destruct (H2 _ (val b) _ Ha); auto.
    - intros a b H. apply andb_true_iff in H. destruct H as [Ha Hc]. apply negb_true_iff in Hc. rewrite Hc. cbn [orb].
      destruct (inf a) eqn:Ea; [apply andb_false_r|]. cbn [orb] in Ha. rewrite (H3 _ _ Ha). reflexivity.
  Qed.
  Lemma laws_weak : forall X, abs_laws X -> strict_weak (nltb X).
  Proof.
    intros X [A1 A2 _]. split; [|exact A2|exact A1]. intros a. destruct (nltb X a a) eqn:E; [|reflexivity]. rewrite (A1 _ _ E) in E. discriminate E.
  Qed.
End Kept.

Section Zero.
  Variable X : Num.
  Notation K := (fk (nfd X)).
  Notation C := (car K).
  Notation "0" := (c0 K).
  Notation "1" := (c1 K).
  Notation "x + y" := (cadd K x y).
  Notation "x * y" := (cmul K x y).
  Add Ring GKring : (c_ring K).

  Lemma unity_conj : forall inside i, cconj K (unity inside i) = unity (X := X) inside i.
  Proof. intros. unfold unity. destruct (i <? inside); [apply (conj_1 K)|apply (conj_0 K)]. Qed.
  Lemma weighted_entry : forall inside (A : nat -> nat -> C) i j, (if (i <? inside) && (j <? inside) then A i j else 0) = weighted inside A i j.
  Proof. intros. unfold weighted, unity. destruct (i <? inside), (j <? inside); cbn [andb]; ring. Qed.
  Lemma mul_0l : forall x : C, 0 * x = 0.
  Proof. intros. ring. Qed.
  Lemma mul_0r : forall x : C, x * 0 = 0.
  Proof. intros. ring. Qed.
  Lemma unity_mul : forall inside i x, (if i <? inside then x else 0) = unity inside i * x.
  Proof. intros. unfold unity. destruct (i <? inside); ring. Qed.
  Lemma weighted_hermitian : forall inside n (A : nat -> nat -> C), hermitian (F := nfd X) inside A -> hermitian (F := nfd X) n (weighted inside A).
  Proof.
    intros inside n A H i j _ _. unfold weighted. rewrite !cconj_mul, !unity_conj. unfold unity at 1 2 3 4.
    destruct (Nat.ltb_spec i inside), (Nat.ltb_spec j inside); try ring. rewrite (H i j) by assumption. ring.
  Qed.

  (** A square matrix with trivial kernel reaches every vector. *)
  Lemma onto : forall n (V : nat -> nat -> C) (e : nat -> C), 1 <= n -> injective (F := nfd X) n V ->
    exists y : nat -> C, forall i, i < n -> sum n (fun k => V i k * y k) = e i.
  Proof.
    intros n V e Hn HI. set (lt := fun x y : C => ceqb K x 0 && negb (ceqb K y 0)).
    assert (HO : abs_order (F := nfd X) lt).
    { split; unfold lt.
      - intros x Hx. destruct (ceqb_spec K 0 0); [|congruence]. destruct (ceqb_spec K x 0); [contradiction|reflexivity].
      - intros x. destruct (ceqb_spec K 0 0); [apply andb_false_r|congruence]. }
    set (MV := of_fun K n n V). set (ME := of_fun K n 1 (fun i _ => e i)).
    assert (WV : wf_mat MV n n) by (apply of_fun_wf). assert (WE : wf_mat ME n 1) by (apply of_fun_wf).
    assert (IV : injective (F := nfd X) n (me MV)).
    { intros x Hx. apply HI. intros i Hi. rewrite <- (Hx i Hi). apply sum_ext. intros k Hk. unfold MV. rewrite of_fun_me by lia. reflexivity. }
    destruct (C26_factorization (nfd X) (iamax (nfd X) lt) MV n) as (B & E1 & _); [apply iamax_rule; exact HO|exact Hn|exact WV|].
    destruct (C49_dense_lu_solve (nfd X) lt MV B ME TrN n 1 HO Hn (le_n _) WV IV WE E1) as (Y & _ & _ & HS).
    exists (fun k => me Y k 0). intros i Hi. specialize (HS i 0%nat Hi (Nat.lt_0_1)). cbn [op_fun] in HS.
    transitivity (1 * me ME i 0); [|unfold ME; rewrite of_fun_me by lia; ring]. rewrite <- HS. apply sum_ext. intros k Hk. unfold MV. rewrite of_fun_me by lia. reflexivity.
  Qed.

  (** If A e = 0 with e not zero, one of the eigenvalues is zero. *)
  Lemma zero_eigenvalue : forall n (A B : nat -> nat -> C) (w : nat -> C) (v : nat -> nat -> C) (e : nat -> C),
    hermitian (F := nfd X) n A -> hermitian (F := nfd X) n B -> (forall k, k < n -> eigenvector n A B (w k) 1 (v k)) ->
    (forall k l, k < n -> l < n -> inner n B (v k) (v l) = if k =? l then 1 else 0) ->
    nonzero n e -> (forall i, i < n -> product n A e i = 0) -> exists k, k < n /\ w k = 0.
  Proof.
    intros n A B w v e HA HB HE HO (i0 & Hi0 & Hne) He.
    assert (Dec : (exists k, k < n /\ w k = 0) \/ forall k, k < n -> w k <> 0).
    { clear -n w. induction n as [|n IH]; [right; intros; lia|]. destruct IH as [(k & H1 & H2)|H]; [left; exists k; split; [lia|exact H2]|].
      destruct (ceqb_spec K (w n) 0); [left; exists n; split; [lia|assumption]|right]. intros k Hk. destruct (Nat.eq_dec k n) as [->|]; [assumption|apply H; lia]. }
    destruct Dec as [D|D]; [exact D|exfalso].
    assert (inner_lin : forall x (y : nat -> C), inner n B x (fun i => sum n (fun l => v l i * y l)) = sum n (fun l => inner n B x (v l) * y l)).
    { intros x y. unfold inner, product.
      transitivity (sum n (fun i => sum n (fun l => cconj K (x i) * sum n (fun j => B i j * v l j) * y l))).
      - apply sum_ext. intros i Hi. rewrite <- (sum_mul_l K n (cconj K (x i))). cbn beta.
        transitivity (sum n (fun j => sum n (fun l => cconj K (x i) * (B i j * v l j) * y l))).
        + apply sum_ext. intros j Hj. rewrite <- !(sum_mul_l K n). apply sum_ext. intros l Hl. ring.
        + rewrite sum_swap. apply sum_ext. intros l Hl. rewrite sum_mul_r. f_equal. rewrite <- sum_mul_l. reflexivity.
      - rewrite sum_swap. apply sum_ext. intros l Hl. rewrite sum_mul_r. reflexivity. }
    assert (Iv : injective (F := nfd X) n (fun i k => v k i)).
    { intros x Hx k Hk. transitivity (inner n B (v k) (fun i => sum n (fun l => v l i * x l))).
      - rewrite inner_lin. rewrite (sum_single K n k); [rewrite HO, Nat.eqb_refl by assumption; ring|exact Hk|].
        intros l Hl Hlk. rewrite HO by assumption. destruct (Nat.eqb_spec k l); [congruence|ring].
      - unfold inner. apply sum_0. intros i Hi. unfold product. rewrite sum_0; [ring|]. intros j Hj. rewrite Hx by exact Hj. ring. }
    destruct (onto n (fun i k => v k i) e ltac:(lia) Iv) as (y & Hy).
    assert (Hz : forall k, k < n -> y k = 0).
    { intros k Hk. destruct (HE k Hk) as [_ Ek].
      assert (Q : w k * inner n B e (v k) = 0).
      { unfold inner. rewrite <- sum_mul_l. transitivity (sum n (fun i => cconj K (e i) * (product n A (v k) i))).
        - apply sum_ext. intros i Hi. specialize (Ek i Hi). transitivity (cconj K (e i) * (w k * product n B (v k) i)); [ring|]. rewrite <- Ek. ring.
        - unfold product. transitivity (sum n (fun i => sum n (fun j => cconj K (e i) * A i j * v k j))).
          { apply sum_ext. intros i Hi. rewrite <- sum_mul_l. apply sum_ext. intros j Hj. ring. }
          rewrite sum_swap. apply sum_0. intros j Hj. rewrite sum_mul_r.
          transitivity (cconj K (product n A e j) * v k j); [|rewrite He by exact Hj; rewrite (conj_0 K); ring]. f_equal. unfold product. rewrite conj_sum. apply sum_ext. intros i Hi.
          rewrite cconj_mul, (HA i j) by assumption. ring. }
      destruct (f_integral (nfd X) _ _ Q) as [Z|Z]; [exfalso; exact (D k Hk Z)|].
      (* the conjugate of e^H B v_k is v_k^H B e *)
      assert (Z' : inner n B (v k) e = 0).
      { transitivity (cconj K (inner n B e (v k))); [|rewrite Z; apply (conj_0 K)]. unfold inner, product. rewrite conj_sum.
        transitivity (sum n (fun i => sum n (fun j => cconj K (v k i) * B i j * e j))).
        - apply sum_ext. intros i Hi. rewrite <- sum_mul_l. apply sum_ext. intros j Hj. ring.
        - rewrite sum_swap. apply sum_ext. intros i Hi. rewrite cconj_mul, cconj_invol, conj_sum, <- sum_mul_l. apply sum_ext. intros j Hj.
          rewrite cconj_mul. rewrite (HB j i) by assumption. ring. }
      transitivity (inner n B (v k) (fun i => sum n (fun l => v l i * y l))).
      - rewrite inner_lin. rewrite (sum_single K n k); [rewrite HO, Nat.eqb_refl by assumption; ring|exact Hk|].
        intros l Hl Hlk. rewrite HO by assumption. destruct (Nat.eqb_spec k l); [congruence|ring].
      - rewrite <- Z'. unfold inner. apply sum_ext. intros i Hi. f_equal. unfold product. apply sum_ext. intros j Hj. rewrite Hy by exact Hj. reflexivity. }
    apply Hne. rewrite <- (Hy i0 Hi0). apply sum_0. intros k Hk. rewrite Hz by exact Hk. ring.
  Qed.
End Zero.
