(** * Proofs about the local matrices of the domain decomposition solvers. *)

From Coq Require Import List Arith ZArith Bool Lia Permutation.
From Verif Require Import ClusterModel ClusterSpec ClusterProofs IOModel IOSpec IOProofs BlockModel BlockSpec BlockProofs
  BlockFinal BlockSym Algebra BlasModel BlasProofs HMatModel HMatSpec HMatTop HMatBuild P_HMat DiagSpec P_Diag DistModel DistProofs OvrModel OvrSpec.
Import ListNotations.

Section O.
  Variable K : Coef.
  Notation C := (car K).

  Lemma put_columns_ok : forall js j0 n d0 ld src dst,
    NoDup js -> n <= ld ->
    (forall j, In j js -> j0 <= j /\ (j - j0) * n + n <= length src /\ d0 + j * ld + n <= length dst) ->
    exists b, put_columns K js j0 n d0 ld src dst = Some b /\ length b = length dst /\
      (forall j i, In j js -> i < n -> get b (d0 + j * ld + i) = get src ((j - j0) * n + i)) /\
      (forall p, (forall j, In j js -> ~ (d0 + j * ld <= p < d0 + j * ld + n)) -> get b p = get dst p).
  Proof.
    intros js j0 n d0 ld src. induction js as [|j js IH]; intros dst ND Hn H.
    - exists dst. cbn. split; [reflexivity|]. split; [reflexivity|]. split; [intros j i []|reflexivity].
    - inversion ND as [|? ? N1 N2]; subst. destruct (H j (or_introl eq_refl)) as (H1 & H2 & H3).
      unfold put_columns in *. cbn [fold_opt]. unfold ptr at 1. destruct (Nat.leb_spec ((j - j0) * n) (length src)); [|lia].
      destruct (put_ok K dst (skipn ((j - j0) * n) src) (d0 + j * ld) n) as (b & E1 & E2 & E3); [rewrite skipn_length; lia|lia|].
      rewrite E1. destruct (IH b N2 Hn) as (b' & F1 & F2 & F3 & F4).
      { intros k Hk. rewrite E2. apply H. right; exact Hk. }
      exists b'. split; [exact F1|]. split; [lia|]. split.
      + intros k i [<-|Hk] Hi; [|apply F3; assumption]. rewrite F4.
        * rewrite E3. replace (d0 + j * ld <=? d0 + j * ld + i) with true by (symmetry; apply Nat.leb_le; lia).
          replace (d0 + j * ld + i <? d0 + j * ld + n) with true by (symmetry; apply Nat.ltb_lt; lia). cbn [andb].
          rewrite get_skipn. f_equal. lia.
        * intros k Hk R. assert (k <> j) by (intros ->; contradiction).
          assert (k < j \/ j < k) as [Q|Q] by lia; [assert (k * ld + ld <= j * ld) by nia|assert (j * ld + ld <= k * ld) by nia]; lia.
      + intros p Hp. rewrite F4 by (intros k Hk; apply Hp; right; exact Hk). rewrite E3.
        assert (Q := Hp j (or_introl eq_refl)).
        destruct (Nat.leb_spec (d0 + j * ld) p), (Nat.ltb_spec p (d0 + j * ld + n)); cbn [andb]; try reflexivity. lia.
  Qed.

  Lemma submatrix_len : forall gen rows cols, length (submatrix K gen rows cols) = length rows * length cols.
  Proof. intros gen rows cols. unfold submatrix. apply of_fun_wf. Qed.
  Lemma submatrix_get : forall gen rows cols i j, i < length rows -> j < length cols ->
    get (submatrix K gen rows cols) (j * length rows + i) = gen (nth i rows 0) (nth j cols 0).
  Proof.
    intros gen rows cols i j Hi Hj.
    pose proof (of_fun_me K (length rows) (length cols) (fun a b => gen (nth a rows 0) (nth b cols 0)) i j Hi Hj) as E.
    unfold me in E. cbn [mr of_fun mkMat] in E. unfold submatrix. rewrite Nat.add_comm. exact E.
  Qed.

  Lemma nth_skipn : forall (l : list nat) m i, nth i (skipn m l) 0 = nth (m + i) l 0.
  Proof.
    intros l m. revert l. induction m as [|m IH]; intros l i; [reflexivity|].
    destruct l as [|x l]; [destruct i; reflexivity|]. cbn [skipn Nat.add nth]. apply IH.
  Qed.
  Lemma nth_firstn : forall (l : list nat) m i, i < m -> nth i (firstn m l) 0 = nth i l 0.
  Proof.
    intros l m. revert l. induction m as [|m IH]; intros l i Hi; [lia|].
    destruct l as [|x l]; [destruct i; reflexivity|]. destruct i as [|i]; [reflexivity|]. cbn [firstn nth]. apply IH. lia.
  Qed.

  (** What the assembly produces from the dense copy of the diagonal block. *)
  Lemma adding_overlap_ok : forall gen l2g sym A inner,
    let n := length l2g in
    let m := c_size (h_t (rt_val A)) in
    m <= n -> copy_to_dense K A (repeat (c0 K) (m * m)) = Some inner -> length inner = m * m ->
    exists M, adding_overlap K gen l2g sym A = Some M /\ wf_mat M n n /\
      (forall i j, i < m -> j < m -> me M i j = get inner (i + j * m)) /\
      (forall i j, i < n -> j < n -> m <= i \/ (m <= j /\ sym = false) -> me M i j = gen (nth i l2g 0) (nth j l2g 0)) /\
      (forall i j, i < m -> m <= j < n -> sym = true -> me M i j = c0 K).
  Proof.
    intros gen l2g sym A inner n m Hm Ec Hi. unfold adding_overlap. fold n m. destruct (Nat.ltb_spec n m); [lia|]. rewrite Ec.
    assert (Lo : length (skipn m l2g) = n - m) by (rewrite skipn_length; reflexivity).
    assert (Ln : length (firstn m l2g) = m) by (rewrite firstn_length; fold n; lia).
    destruct (put_columns_ok (seq 0 m) 0 m 0 n inner (repeat (c0 K) (n * n)) (seq_NoDup _ _) Hm) as (b1 & E1 & L1 & V1 & U1).
    { intros j Hj. apply in_seq in Hj. rewrite repeat_length. nia. }
    rewrite repeat_length in L1. rewrite E1.
    destruct (put_columns_ok (seq 0 m) 0 (n - m) m n (submatrix K gen (skipn m l2g) (firstn m l2g)) b1 (seq_NoDup _ _)) as (b2 & E2 & L2 & V2 & U2); [lia| |].
    { intros j Hj. apply in_seq in Hj. rewrite submatrix_len, Lo, Ln, L1. nia. }
    rewrite E2.
    destruct (put_columns_ok (seq 0 (n - m)) 0 (n - m) (m + m * n) n (submatrix K gen (skipn m l2g) (skipn m l2g)) b2 (seq_NoDup _ _)) as (b3 & E3 & L3 & V3 & U3); [lia| |].
    { intros j Hj. apply in_seq in Hj. rewrite submatrix_len, Lo, L2, L1. nia. }
    rewrite E3.
    assert (Q : exists b4, (if sym then Some b3 else put_columns K (seq m (n - m)) m m 0 n (submatrix K gen (firstn m l2g) (skipn m l2g)) b3) = Some b4 /\ length b4 = n * n /\
      (sym = false -> forall i j, i < m -> m <= j < n -> get b4 (i + j * n) = gen (nth i l2g 0) (nth j l2g 0)) /\
      (sym = true -> forall i j, i < m -> m <= j < n -> get b4 (i + j * n) = get b3 (i + j * n)) /\
      (forall i j, i < n -> j < n -> m <= i \/ j < m -> get b4 (i + j * n) = get b3 (i + j * n))).
    { destruct sym.
      - exists b3. split; [reflexivity|]. split; [congruence|]. split; [discriminate|]. split; [reflexivity|reflexivity].
      - destruct (put_columns_ok (seq m (n - m)) m m 0 n (submatrix K gen (firstn m l2g) (skipn m l2g)) b3 (seq_NoDup _ _)) as (b4 & E4 & L4 & V4 & U4); [lia| |].
        { intros j Hj. apply in_seq in Hj. rewrite submatrix_len, Lo, Ln, L3, L2, L1. nia. }
        exists b4. split; [exact E4|]. split; [congruence|]. split; [|split; [discriminate|]].
        + intros _ i j Hi' Hj. replace (i + j * n) with (0 + j * n + i) by lia. rewrite V4 by (try apply in_seq; lia).
          pose proof (submatrix_get gen (firstn m l2g) (skipn m l2g) i (j - m)) as S. rewrite Ln, Lo in S. rewrite S by lia. rewrite nth_firstn, nth_skipn by lia. f_equal; f_equal; lia.
        + intros i j Hi' Hj Hor. rewrite U4; [reflexivity|]. intros k Hk R. apply in_seq in Hk.
          assert (k = j); [|subst; lia]. assert (k < j \/ k = j \/ j < k) as [Q|[Q|Q]] by lia; [nia|exact Q|nia]. }
    destruct Q as (b4 & E4 & L4 & V4 & V4' & U4). rewrite E4. exists (mkMat n n b4). split; [reflexivity|]. split; [split; [reflexivity|split; [reflexivity|exact L4]]|].
    unfold me. cbn [mr md mkMat].
    assert (B12 : forall i j, i < n -> j < m -> get b3 (i + j * n) = get b2 (i + j * n)).
    { intros i j Hi' Hj. apply U3. intros k Hk R. apply in_seq in Hk. assert (j * n + n <= m * n) by nia. nia. }
    assert (B3 : forall i j, i < m -> m <= j < n -> get b3 (i + j * n) = c0 K).
    { intros i j Hi' Hj. rewrite U3.
      - rewrite U2; [rewrite U1; [apply get_repeat|]|].
        + intros k Hk R. apply in_seq in Hk. assert (k * n + n <= j * n) by nia. lia.
        + intros k Hk R. apply in_seq in Hk. assert (k * n + n <= j * n) by nia. lia.
      - intros k Hk R. apply in_seq in Hk.
        assert (m + k < j \/ m + k = j \/ j < m + k) as [Q|[Q|Q]] by lia; [assert ((m + k) * n + n <= j * n) by nia|subst j|assert (j * n + n <= (m + k) * n) by nia]; nia. }
    split; [|split].
    - intros i j Hi' Hj. rewrite U4, B12 by lia. rewrite U2.
      2: { intros k Hk R. apply in_seq in Hk. assert (k < j \/ k = j \/ j < k) as [Q|[Q|Q]] by lia; [assert (k * n + n <= j * n) by nia|subst k|assert (j * n + n <= k * n) by nia]; lia. }
      replace (i + j * n) with (0 + j * n + i) by lia. rewrite V1 by (try apply in_seq; lia). f_equal. lia.
    - intros i j Hi' Hj Hor. destruct (Nat.lt_ge_cases i m) as [Him|Him].
      + destruct Hor as [Hor|[Hjm Hs]]; [lia|]. apply V4; [exact Hs|exact Him|lia].
      + rewrite U4 by (try assumption; left; exact Him). destruct (Nat.lt_ge_cases j m) as [Hjm|Hjm].
        * rewrite B12 by assumption. replace (i + j * n) with (m + j * n + (i - m)) by lia. rewrite V2 by (try apply in_seq; lia).
          pose proof (submatrix_get gen (skipn m l2g) (firstn m l2g) (i - m) j) as S. rewrite Ln, Lo in S. rewrite Nat.sub_0_r, S by lia.
          rewrite nth_firstn, nth_skipn by lia. f_equal. f_equal. lia.
        * replace (i + j * n) with (m + m * n + (j - m) * n + (i - m)) by nia. rewrite V3 by (try apply in_seq; lia).
          pose proof (submatrix_get gen (skipn m l2g) (skipn m l2g) (i - m) (j - m)) as S. rewrite Lo in S. rewrite Nat.sub_0_r, S by lia.
          rewrite !nth_skipn. f_equal; f_equal; lia.
    - intros i j Hi' Hj Hs. rewrite V4' by assumption. apply B3; assumption.
  Qed.

  (** ** Dense copies of built matrices *)
  Section Built.
    Variables (sy : symc) (B : bbuild) (gen : nat -> nat -> C) (compress : ctree -> ctree -> lrm K).
    Hypothesis Hrk : positive_rank K compress.

    Lemma hleaf_ready : forall x, (sy = SyN \/ forall i j, gen j i = flip sy (gen i j)) ->
      b_sym x = has_sym B (b_t x) (b_s x) -> dense_ready K (hleaf K sy B gen compress x).
    Proof.
      intros x Hg Hs.
      pose (cz := fun t s => let L := compress t s in if (mr (lU L) =? c_size t) && (mc (lV L) =? c_size s) then L else mkLrm (mkMat (K:=K) (S (c_size t)) 1 []) (mkMat 1 1 [])).
      assert (E : hleaf K sy B gen compress x = hleaf K sy B gen cz x).
      { unfold hleaf. f_equal. unfold block_data, cz. destruct (b_task x) as [[|]|]; try reflexivity.
        destruct (_ && _) eqn:Q; [rewrite Q; reflexivity|]. cbn [lU lV mr mkMat].
        replace (S (c_size (b_t x)) =? c_size (b_t x)) with false by (symmetry; apply Nat.eqb_neq; lia). reflexivity. }
      rewrite E. apply C22_built_leaves_ready; [exact Hg| |].
      - intros t s. unfold cz. destruct (_ && _) eqn:Q; [|discriminate]. apply andb_true_iff in Q. destruct Q as [Q1 Q2]. apply Nat.eqb_eq in Q1, Q2. apply Hrk; assumption.
      - intros E1. rewrite Hs in E1. unfold has_sym in E1. destruct (bb_uplo B); [discriminate| |]; apply andb_true_iff in E1; destruct E1 as [Q1 Q2]; apply Nat.eqb_eq in Q1, Q2; auto.
    Qed.

    (** The leaves of a symmetric block tree are on the stored side. *)
    Lemma leaves_stored : forall T fuel root,
      partitioned T (bb_tparts B) -> bb_sparts B = bb_tparts B -> nonempty T -> bb_cons B = true -> bb_uplo B <> UpN ->
      (bb_tpart B = None /\ bb_qpart B = None) \/ (exists q, bb_tpart B = Some q /\ bb_qpart B = Some q /\ nth_error (bb_tparts B) q = Some T) ->
      build_root B fuel T T = Some root ->
      forall x, In x (rleaves root) -> match bb_uplo B with UpU => c_off (b_t x) < c_off (b_s x) + c_size (b_s x) | _ => c_off (b_s x) < c_off (b_t x) + c_size (b_t x) end.
    Proof.
      intros T fuel root HT HP NT HC HU HR HB x Hx.
      assert (HR' : bb_tpart B = None /\ bb_qpart B = None /\ T = T \/ exists q, bb_tpart B = Some q /\ bb_qpart B = Some q /\ nth_error (bb_tparts B) q = Some T /\ (T = T \/ (c_rank T < 0)%Z /\ contains T T = true)).
      { destruct HR as [[Q1 Q2]|(q & Q1 & Q2 & Q3)]; [left; auto|right; exists q; auto 6]. }
      assert (HS' : partitioned T (bb_sparts B)) by (rewrite HP; exact HT).
      pose proof (part_valid_S B T T HR') as HV. pose proof (rT_wide B T HT HP NT HC T HR' HU) as Hrem.
      destruct (final_leaves B T T HT HS' HV Hrem) with (root := root) as [_ H2].
      { intros p u Ep Eu. destruct HR as [[E _]|(q & E1 & E2 & E3)]; [congruence|]. assert (u = T) by congruence. subst u. exact Hrem. }
      { apply (witnessed_S B T HT HP NT HC T HR' HU). }
      { apply (build_root_shape B T T HT HS' HV fuel root HB). }
      destruct (H2 x Hx) as (k & _ & N1 & N2 & _ & _ & _ & Hr).
      pose proof (NT _ N1) as Z1. pose proof (NT _ N2) as Z2. fold (c_size (b_t x)) in Z1. fold (c_size (b_s x)) in Z2.
      pose proof (node_in B T HT T _ (tN_root T) N1) as I1. pose proof (node_in B T HT T _ (tN_root T) N2) as I2.
      unfold removed in Hr. destruct (bb_uplo B); [congruence| |].
      - destruct (Nat.leb_spec (c_off (b_t x) + c_size (b_t x)) (c_off (b_s x))) as [Q|Q]; [|lia]. exfalso. cbn [andb] in Hr.
        destruct HR as [[_ Eq]|(q & _ & Eq & Eu)]; rewrite Eq in Hr; [discriminate|]. rewrite HP, Eu in Hr.
        apply andb_false_iff in Hr. destruct Hr as [Hr|Hr]; [apply Nat.ltb_ge in Hr; lia|].
        apply andb_false_iff in Hr. destruct Hr as [Hr|Hr]; apply Nat.leb_gt in Hr; lia.
      - destruct (Nat.leb_spec (c_off (b_s x) + c_size (b_s x)) (c_off (b_t x))) as [Q|Q]; [|lia]. exfalso. cbn [andb] in Hr.
        destruct HR as [[_ Eq]|(q & _ & Eq & Eu)]; rewrite Eq in Hr; [discriminate|]. rewrite HP, Eu in Hr.
        apply andb_false_iff in Hr. destruct Hr as [Hr|Hr]; [apply Nat.leb_gt in Hr; lia|].
        apply andb_false_iff in Hr. destruct Hr as [Hr|Hr]; apply Nat.leb_gt in Hr; lia.
    Qed.

    Variable P : C -> C -> Prop.
    Hypothesis Pr : forall c, P c c.

    (** Without symmetry the dense copy holds all the entries. *)
    Lemma nosym_dense : forall T fuel A, sy = SyN ->
      bb_uplo B = UpN -> partitioned T (bb_tparts B) -> partitioned T (bb_sparts B) -> nonempty T -> part_valid B T -> compress_ok K compress ->
      hbuild K sy B gen compress fuel T T = Some A -> h_t (rt_val A) = T -> h_s (rt_val A) = T ->
      exists b, copy_to_dense K A (repeat (c0 K) (c_size T * c_size T)) = Some b /\ length b = c_size T * c_size T /\
        (compress_within K gen compress P -> forall i j, i < c_size T -> j < c_size T -> P (get b (i + j * c_size T)) (gen (c_off T + i) (c_off T + j))).
    Proof.
      intros T fuel A Esy HN HT HS NT HV Hco HA Et Es. rewrite Esy in HA.
      destruct (C18_built_matrices K B gen compress T T fuel A HN HT HS NT NT HV Hco HA) as (L & F1 & F2 & F3 & F4 & F5 & F6).
      assert (HR : forall h Lr, In h L -> h_data h = DLow Lr -> lrank Lr <> 0).
      { unfold hbuild in HA. destruct (build_root B fuel T T) as [root|] eqn:E; [|discriminate]. injection HA as HA. subst A.
        destruct (nosym_built K SyN B gen compress Hco (fun q => ltac:(discriminate)) T T fuel root eq_refl HN HT HS NT NT HV E) as (L' & H1 & _ & _ & _ & H5 & _).
        rewrite F1 in H1. injection H1 as <-. intros h Lr Hh Ed. destruct (H5 h Hh) as (x & -> & _ & _ & Hs & _).
        pose proof (hleaf_ready x (or_introl Esy) Hs) as D. rewrite Esy in D. unfold dense_ready in D. rewrite Ed in D. exact D. }
      destruct (C22_copy_to_dense K A L F1 F2 HR (repeat (c0 K) (c_size T * c_size T))) as (b & E1 & E2 & E3 & _); [rewrite Et, Es, repeat_length; lia|].
      rewrite Et, Es in E3. rewrite repeat_length in E2. exists b. split; [exact E1|]. split; [exact E2|].
      intros Hw i j Hi Hj. rewrite E3 by assumption. apply F6; auto; [rewrite <- F4, Et|]; apply in_ivb; lia.
    Qed.

    (** With symmetry and UPLO 'L' it holds the lower triangle. *)
    Lemma sym_dense_lower : forall T fuel A, (sy = SyS \/ sy = SyH) -> (forall i j, gen j i = flip sy (gen i j)) ->
      bb_uplo B = UpL -> partitioned T (bb_tparts B) -> bb_sparts B = bb_tparts B -> nonempty T -> bb_cons B = true ->
      (bb_tpart B = None /\ bb_qpart B = None) \/ (exists q, bb_tpart B = Some q /\ bb_qpart B = Some q /\ nth_error (bb_tparts B) q = Some T) ->
      compress_ok K compress -> (forall a b, P a b -> P (flip sy a) (flip sy b)) ->
      hbuild K sy B gen compress fuel T T = Some A -> 
      exists b, copy_to_dense K A (repeat (c0 K) (c_size T * c_size T)) = Some b /\ length b = c_size T * c_size T /\
        (compress_within K gen compress P -> forall i j, i < c_size T -> j <= i -> P (get b (i + j * c_size T)) (gen (c_off T + i) (c_off T + j))).
    Proof.
      intros T fuel A Hsy Hg HL HT HP NT HC HR Hco Pf HA. assert (HU : bb_uplo B <> UpN) by congruence.
      assert (HR' : bb_tpart B = None /\ bb_qpart B = None /\ T = T \/ exists q, bb_tpart B = Some q /\ bb_qpart B = Some q /\ nth_error (bb_tparts B) q = Some T /\ (T = T \/ (c_rank T < 0)%Z /\ contains T T = true)).
      { destruct HR as [[Q1 Q2]|(q & Q1 & Q2 & Q3)]; [left; auto|right; exists q; auto 6]. }
      destruct (C19_built_matrices K sy B gen compress T T fuel A Hsy Hg HU HT HP NT HC HR' Hco HA) as (L & Y & F1 & F2 & F3 & F4 & F5 & F6).
      assert (HLx : forall h, In h L -> dense_ready K h /\ c_off (h_s h) < c_off (h_t h) + c_size (h_t h)).
      { unfold hbuild in HA. destruct (build_root B fuel T T) as [root|] eqn:E; [|discriminate]. injection HA as HA. subst A.
        assert (Hgo : gen_ok K sy gen). { intros Eh i. rewrite (Hg i i) at 2. rewrite Eh. reflexivity. }
        destruct (sym_built K sy B gen compress Hco Hgo T T fuel root Hsy HU HT HP NT HC HR' E) as (L' & Y' & H1 & _ & _ & _ & H5 & _). rewrite F1 in H1. injection H1 as <- <-.
        intros h Hh. destruct (H5 h Hh) as (x & -> & Hx & _ & Hs & _). split; [apply hleaf_ready; [right; exact Hg|exact Hs]|].
        pose proof (leaves_stored T fuel root HT HP NT HC HU HR E x Hx) as Q. rewrite HL in Q. exact Q. }
      pose proof (value_holds K _ _ _ _ F2) as H.
      destruct (dense_loop_ok K A L Y sy _ H (fun h Hh => proj1 (HLx h Hh)) (fun i => i) (fun i => i)) with (b0 := repeat (c0 K) (c_size T * c_size T)) as (b & E1 & X1 & X2 & _); auto.
      { rewrite F4, F5, repeat_length. lia. }
      rewrite repeat_length in X1. exists b. split; [unfold copy_to_dense; rewrite F1; exact E1|]. split; [exact X1|].
      intros Hw i j Hi Hj. rewrite F4, F5 in X2.
      assert (I1 : in_iv (c_off T + i) (interval T) = true) by (apply in_ivb; lia).
      assert (I2 : in_iv (c_off T + j) (interval T) = true) by (apply in_ivb; lia).
      specialize (X2 (c_off T + i) (c_off T + j) I1 I2). replace (i + j * c_size T) with (c_off T + i - c_off T + (c_off T + j - c_off T) * c_size T) by (f_equal; [lia|f_equal; lia]).
      rewrite X2; [apply F6; auto|].
      destruct (cover_all K A L Y sy _ H (repeat (c0 K) (c_size T * c_size T)) ltac:(rewrite F4, F5, repeat_length; lia) (c_off T + i) (c_off T + j)) as [Q|(h & Hh & Hc)]; [rewrite F4; exact I1|rewrite F5; exact I2|exact Q|exfalso].
      destruct (wf_sub _ _ _ _ _ F2 h Hh) as (HhL & C1 & C2). destruct (wf_in _ _ _ _ _ F2 h HhL) as [C3 C4]. rewrite F4, F5 in *. apply contains_iff in C1, C2, C3, C4.
      destruct (HLx h HhL) as [_ Hlt]. unfold hcovers in Hc. apply andb_true_iff in Hc. destruct Hc as [Q1 Q2]. apply in_ivb in Q1, Q2.
      (* the clusters of a leaf for symmetry cannot share an index *)
      pose (d := Nat.max (c_off (h_t h)) (c_off (h_s h))).
      assert (D1 : in_iv d (interval (h_t h)) = true) by (apply in_ivb; unfold d; lia).
      assert (D2 : in_iv d (interval (h_s h)) = true) by (apply in_ivb; unfold d; lia).
      assert (D3 : in_iv d (interval T) = true) by (apply in_ivb; rewrite in_ivb in D1; lia).
      pose proof (wf_once _ _ _ _ _ F2 d d) as O. rewrite F4, F5 in O. specialize (O D3 D3). unfold count in O.
      assert (M1 : In h (filter (hcovers d d) L)) by (apply filter_In; split; [exact HhL|unfold hcovers; rewrite D1, D2; reflexivity]).
      assert (M2 : In h (filter (hcovers d d) Y)) by (apply filter_In; split; [exact Hh|unfold hcovers; rewrite D1, D2; reflexivity]).
      destruct (filter (hcovers d d) L); [destruct M1|]. destruct (filter (hcovers d d) Y); [destruct M2|]. cbn in O. lia.
    Qed.
  End Built.
End O.
