(** * Proofs on ACA with partial pivoting. *)

From Coq Require Import List Arith ZArith Bool Lia Ring Permutation.
From Verif Require Import Algebra BlasModel BlasProofs HMatModel HMatSpec HMatProofs HMatBuild Field DistModel DistProofs CompModel CompSpec CompProofs.
Import ListNotations.

Section P.
  Variable X : Num.
  Notation F := (nfd X).
  Notation K := (fk F).
  Notation C := (car K).
  Notation "0" := (c0 K).
  Notation "1" := (c1 K).
  Notation "x + y" := (cadd K x y).
  Notation "x * y" := (cmul K x y).
  Notation "x - y" := (csub K x y).
  Notation abs := (nabs X).
  Notation lt := (nltb X).
  Add Ring XKring2 : (c_ring K).

  Lemma subtract_list : forall n i (x1 x2 : list (list C)), (forall k, (k < length x1)%nat -> length (nth k x2 []) = n) ->
    forall js y, (forall j, In j js -> (j < length x1)%nat) -> length y = n ->
    exists y', foldM (fun k y => axpy K n (copp K (get (nth k x1 []) i)) (nth k x2 []) y) js y = Some y' /\ length y' = n /\
      forall k, (k < n)%nat -> get y' k = get y k - lsum js (fun j => get (nth j x1 []) i * get (nth j x2 []) k).
  Proof.
    intros n i x1 x2 H2. induction js as [|j js IH]; intros y Hj Hy; cbn [foldM].
    - exists y. split; [reflexivity|]. split; [exact Hy|]. intros. cbn. ring.
    - destruct (axpy_ok K n (copp K (get (nth j x1 []) i)) (nth j x2 []) y) as (y1 & -> & L1 & V1).
      { rewrite H2; [lia|apply Hj; left; reflexivity]. } { lia. }
      destruct (IH y1) as (y' & -> & L' & V'); [intros k Hk; apply Hj; right; exact Hk|lia|].
      exists y'. split; [reflexivity|]. split; [exact L'|]. intros k Hk. rewrite V' by exact Hk.
      rewrite V1. destruct (Nat.ltb_spec k n); [|lia]. cbn. ring.
  Qed.

  Lemma subtract_ok : forall n i (x1 x2 : list (list C)) y, length x1 = length x2 -> (forall v, In v x2 -> length v = n) -> length y = n ->
    exists y', subtract X n i x1 x2 y = Some y' /\ length y' = n /\ forall k, (k < n)%nat -> get y' k = get y k - cross X x1 x2 i k.
  Proof.
    intros n i x1 x2 y E H Hy. unfold subtract. destruct (subtract_list n i x1 x2) with (js := seq 0 (length x1)) (y := y) as (y' & A1 & A2 & A3).
    - intros k Hk. apply H, nth_In. lia.
    - intros j Hj. apply in_seq in Hj. lia.
    - exact Hy.
    - exists y'. split; [exact A1|]. split; [exact A2|]. intros k Hk. rewrite A3 by exact Hk. unfold cross. rewrite sum_lsum. reflexivity.
  Qed.

  Lemma nth_firstn_b : forall i (l : list bool) k, (k < i)%nat -> nth k (firstn i l) false = nth k l false.
  Proof. induction i as [|i IH]; intros l k H; [lia|]. destruct l as [|b l]; [destruct k; reflexivity|]. destruct k as [|k]; cbn; [reflexivity|]. apply IH. lia. Qed.
  Lemma nth_skipn_b : forall i (l : list bool) k, nth k (skipn i l) false = nth (i + k) l false.
  Proof. induction i as [|i IH]; intros l k; [reflexivity|]. destruct l as [|b l]; [destruct k; reflexivity|]. cbn. apply IH. Qed.

  Lemma set_true_ok : forall i l k, (i < length l)%nat -> nth k (set_true i l) false = if k =? i then true else nth k l false.
  Proof.
    intros i l k Hi. unfold set_true. destruct (Nat.eqb_spec k i) as [->|NE].
    - rewrite app_nth2; rewrite firstn_length; [|lia]. replace (i - Nat.min i (length l))%nat with 0%nat by lia. reflexivity.
    - destruct (Nat.lt_ge_cases k i).
      + rewrite app_nth1 by (rewrite firstn_length; lia). apply nth_firstn_b. assumption.
      + rewrite app_nth2; rewrite firstn_length; [|lia]. replace (k - Nat.min i (length l))%nat with (S (k - i - 1)) by lia. cbn [nth].
        rewrite nth_skipn_b. f_equal. lia.
  Qed.
  Lemma set_true_length : forall i l, (i < length l)%nat -> length (set_true i l) = length l.
  Proof. intros i l H. unfold set_true. rewrite app_length, firstn_length. cbn [length]. rewrite skipn_length. lia. Qed.

  Lemma search_range : forall l v n b, (search X l v n b < n)%nat \/ search X l v n b = b.
  Proof.
    intros l v n b. unfold search.
    assert (G : forall js p, (forall j, In j js -> j < n)%nat -> (snd p < n)%nat \/ snd p = b ->
      let q := fold_left (fun pb k => if nth k v false then pb else if lt (abs (get l k)) (fst pb) then pb else (abs (get l k), k)) js p in
      (snd q < n)%nat \/ snd q = b).
    { induction js as [|j js IH]; intros p Hj Hp; cbn; [exact Hp|]. apply IH; [intros k Hk; apply Hj; right; exact Hk|].
      destruct (nth j v false); [exact Hp|]. destruct (lt _ _); [exact Hp|]. left. apply Hj. left. reflexivity. }
    apply G; [intros j Hj; apply in_seq in Hj; lia|right; reflexivity].
  Qed.

  Lemma search_spec : abs_laws X -> forall l v n b, let s := search X l v n b in
    (s = b /\ forall k, (k < n)%nat -> nth k v false = true) \/
    ((s < n)%nat /\ nth s v false = false /\ forall k, (k < n)%nat -> nth k v false = false -> lt (abs (get l s)) (abs (get l k)) = false).
  Proof.
    intros AL l v n b. unfold search.
    set (f := fun (pb : C * nat) k => if nth k v false then pb else if lt (abs (get l k)) (fst pb) then pb else (abs (get l k), k)).
    assert (G : forall js p seen,
      ((p = (0, b) /\ forall k, In k seen -> nth k v false = true) \/
       (fst p = abs (get l (snd p)) /\ In (snd p) seen /\ nth (snd p) v false = false /\
        forall k, In k seen -> nth k v false = false -> lt (fst p) (abs (get l k)) = false)) ->
      let q := fold_left f js p in
      ((q = (0, b) /\ forall k, In k (seen ++ js) -> nth k v false = true) \/
       (fst q = abs (get l (snd q)) /\ In (snd q) (seen ++ js) /\ nth (snd q) v false = false /\
        forall k, In k (seen ++ js) -> nth k v false = false -> lt (fst q) (abs (get l k)) = false))).
    { induction js as [|j js IH]; intros p seen H; cbn; [rewrite app_nil_r; exact H|].
      replace (seen ++ j :: js) with ((seen ++ [j]) ++ js) by (rewrite <- app_assoc; reflexivity). apply IH. unfold f.
      destruct (nth j v false) eqn:Ej.
      - destruct H as [[-> H]|(H1 & H2 & H3 & H4)].
        + left. split; [reflexivity|]. intros k Hk. apply in_app_or in Hk. destruct Hk as [Hk|[<-|[]]]; [apply H, Hk|exact Ej].
        + right. split; [exact H1|]. split; [apply in_or_app; left; exact H2|]. split; [exact H3|]. intros k Hk Hv.
          apply in_app_or in Hk. destruct Hk as [Hk|[<-|[]]]; [apply H4; assumption|congruence].
      - right. destruct (lt (abs (get l j)) (fst p)) eqn:El.
        + destruct H as [[-> H]|(H1 & H2 & H3 & H4)]; [cbn in El; rewrite (al_nonneg X AL) in El; discriminate|].
          split; [exact H1|]. split; [apply in_or_app; left; exact H2|]. split; [exact H3|]. intros k Hk Hv.
          apply in_app_or in Hk. destruct Hk as [Hk|[<-|[]]]; [apply H4; assumption|apply (al_asym X AL), El].
        + cbn [fst snd]. split; [reflexivity|]. split; [apply in_or_app; right; left; reflexivity|]. split; [exact Ej|].
          intros k Hk Hv. apply in_app_or in Hk. destruct Hk as [Hk|[<-|[]]].
          * destruct H as [[-> H]|(H1 & H2 & H3 & H4)]; [rewrite (H k Hk) in Hv; discriminate|].
            destruct (lt (abs (get l j)) (abs (get l k))) eqn:E; [|reflexivity].
            destruct (al_cotrans X AL _ (fst p) _ E) as [G|G]; [congruence|rewrite (H4 k Hk Hv) in G; discriminate].
          * destruct (lt (abs (get l j)) (abs (get l j))) eqn:E; [pose proof (al_asym X AL _ _ E); congruence|reflexivity]. }
    specialize (G (seq 0 n) (0, b) []). cbv zeta in G.
    destruct G as [[G1 G2]|(G1 & G2 & G3 & G4)]; [left; split; [reflexivity|intros k []]| |].
    - left. rewrite G1. split; [reflexivity|]. intros k Hk. apply G2. cbn. apply in_seq. lia.
    - right. cbn in G2. apply in_seq in G2. split; [lia|]. split; [exact G3|]. intros k Hk Hv. rewrite <- G1. apply G4; [|exact Hv]. cbn. apply in_seq. lia.
  Qed.

  Section Partial.
    Variable over : C -> C -> bool.
    Variable tol : C.
    Variable swap : bool.
    Variables (n1 n2 : nat) (B : nat -> nat -> C).
    Notation row := (fun i => mk n2 (fun j => B i j)).
    Notation col := (fun j => mk n1 (fun i => B i j)).
    Hypothesis Htol : lt tol (abs 0) = false.

    Definition last_cross (uu vv : list (list C)) (i j : nat) : C := get (last uu []) i * get (last vv []) j.

    Record part_inv (req : Z) (I J q : nat) (uu vv : list (list C)) (v1 v2 : list bool) (aux frob : C) (rows cols : list nat) : Prop := {
      pi_uu : length uu = q; pi_vv : length vv = q;
      pi_u : forall u, In u uu -> length u = n1; pi_v : forall v, In v vv -> length v = n2;
      pi_rows : NoDup rows /\ length rows = q /\ forall i, In i rows -> (i < n1)%nat /\ forall j, (j < n2)%nat -> B i j = cross X uu vv i j;
      pi_cols : NoDup cols /\ length cols = q /\ forall j, In j cols -> (j < n2)%nat /\ forall i, (i < n1)%nat -> B i j = cross X uu vv i j;
      pi_v1 : length v1 = n1 /\ forall k, nth k v1 false = true <-> In k rows;
      pi_v2 : length v2 = n2 /\ forall k, nth k v2 false = true <-> In k cols;
      pi_adv : (q * (n1 + n2) <= n1 * n2)%nat;
      pi_I : I = 0%nat \/ (I < n1)%nat;
      pi_J : J = 0%nat \/ (J < n2)%nat;
      pi_nz : (0 < q)%nat -> exists i j, In i rows /\ (j < n2)%nat /\ B i j <> 0;
      pi_new : abs_laws X -> (q < n1)%nat -> ~ In I rows;
      pi_frob : (req < 0)%Z -> estimator_laws X -> frob = frob2 K n1 n2 (cross X uu vv);
      pi_aux : (req < 0)%Z -> estimator_laws X -> (0 < q)%nat -> aux = frob2 K n1 n2 (last_cross uu vv)
    }.

    Lemma nonzero : forall x, lt tol (abs x) = true -> x <> 0.
    Proof. intros x H E. rewrite E, Htol in H. discriminate. Qed.

    (** *** The error estimator *)
    Lemma frob2_outer : forall (c r : list C), frob2 K n1 n2 (fun i j => get c i * get r j) = dot X n1 c c * dot X n2 r r.
    Proof.
      intros c r. unfold frob2, dot. rewrite <- sum_mul_r. apply sum_ext. intros i Hi. rewrite <- sum_mul_l. apply sum_ext. intros j Hj.
      rewrite cconj_mul. ring.
    Qed.
    Lemma frob2_add : forall f g, frob2 K n1 n2 (fun i j => f i j + g i j) =
      frob2 K n1 n2 f + (frob2 K n1 n2 g + (sum n1 (fun i => sum n2 (fun j => cconj K (f i j) * g i j)) + cconj K (sum n1 (fun i => sum n2 (fun j => cconj K (f i j) * g i j))))).
    Proof.
      intros f g. unfold frob2. rewrite conj_sum. rewrite <- !sum_add. apply sum_ext. intros i Hi. rewrite conj_sum. rewrite <- !sum_add. apply sum_ext.
      intros j Hj. rewrite cconj_add, cconj_mul, cconj_invol. ring.
    Qed.
    Lemma fold_sum : forall A (g : A -> C) l a, fold_left (fun a j => a + g j) l a = a + lsum l g.
    Proof. intros A g. induction l as [|x l IH]; intros a; cbn; [ring|]. rewrite IH. ring. Qed.

    Lemma cross_terms_ok : forall uu vv c r, length uu = length vv ->
      cross_terms X swap n1 n2 uu vv c r + cconj K (cross_terms X swap n1 n2 uu vv c r) =
      sum n1 (fun i => sum n2 (fun j => cconj K (cross X uu vv i j) * (get c i * get r j))) +
      cconj K (sum n1 (fun i => sum n2 (fun j => cconj K (cross X uu vv i j) * (get c i * get r j)))).
    Proof.
      intros uu vv c r E.
      assert (G : sum n1 (fun i => sum n2 (fun j => cconj K (cross X uu vv i j) * (get c i * get r j))) =
        lsum (seq 0 (length uu)) (fun k => dot X n2 (nth k vv []) r * dot X n1 (nth k uu []) c)).
      { rewrite <- sum_lsum. unfold cross.
        transitivity (sum n1 (fun i => sum (length uu) (fun k => sum n2 (fun j => (cconj K (get (nth k uu []) i) * get c i) * (cconj K (get (nth k vv []) j) * get r j))))).
        - apply sum_ext. intros i Hi. rewrite <- sum_swap. apply sum_ext. intros j Hj. rewrite conj_sum, <- sum_mul_r. apply sum_ext. intros k Hk. rewrite cconj_mul. ring.
        - rewrite sum_swap. apply sum_ext. intros k Hk. unfold dot.
          transitivity (sum n1 (fun i => (cconj K (get (nth k uu []) i) * get c i) * sum n2 (fun j => cconj K (get (nth k vv []) j) * get r j))).
          + apply sum_ext. intros i Hi. rewrite sum_mul_l. reflexivity.
          + rewrite sum_mul_r. ring. }
      rewrite G. unfold cross_terms. destruct swap.
      - rewrite fold_sum. replace (0 + lsum (seq 0 (length uu)) (fun j => dot X n2 r (nth j vv []) * dot X n1 c (nth j uu []))) with
          (cconj K (lsum (seq 0 (length uu)) (fun k => dot X n2 (nth k vv []) r * dot X n1 (nth k uu []) c))); [rewrite cconj_invol; ring|].
        rewrite <- !sum_lsum, conj_sum. transitivity (sum (length uu) (fun j => dot X n2 r (nth j vv []) * dot X n1 c (nth j uu []))); [|ring].
        apply sum_ext. intros k Hk. rewrite cconj_mul. unfold dot. rewrite !conj_sum.
        f_equal; apply sum_ext; intros; rewrite cconj_mul, cconj_invol; ring.
      - rewrite fold_sum. transitivity (lsum (seq 0 (length uu)) (fun j => dot X n2 (nth j vv []) r * dot X n1 (nth j uu []) c) +
           cconj K (0 + lsum (seq 0 (length uu)) (fun j => dot X n2 (nth j vv []) r * dot X n1 (nth j uu []) c))); [ring|].
        f_equal. f_equal. ring.
    Qed.

    Lemma dot_law : estimator_laws X -> forall n x, abs (dot X n x x) = dot X n x x.
    Proof. intros [E _] n x. exact (E n (fun i => get x i)). Qed.

    (** *** One cross *)
    Lemma part_step : forall req I J q uu vv v1 v2 aux frob rows cols r w,
      part_inv req I J q uu vv v1 v2 aux frob rows cols -> (S q * (n1 + n2) <= n1 * n2)%nat -> (0 < n1 + n2)%nat ->
      length r = n2 -> (forall k, (k < n2)%nat -> get r k = B I k - cross X uu vv I k) ->
      let J' := search X r v2 n2 J in
      lt tol (abs (get r J')) = true ->
      length w = n1 -> (forall k, (k < n1)%nat -> get w k = B k J' - cross X uu vv k J') ->
      let c := map (fun x => x * fdiv F 1 (get r J')) w in
      let v1' := set_true I v1 in
      let aux' := if (req <? 0)%Z then cross_norm2 X n1 n2 c r else aux in
      let frob' := if (req <? 0)%Z then frob + (aux' + two X (cre K (cross_terms X swap n1 n2 uu vv c r))) else frob in
      part_inv req (search X c v1' n1 I) J' (S q) (uu ++ [c]) (vv ++ [r]) v1' (set_true J' v2) aux' frob' (rows ++ [I]) (cols ++ [J']).
    Proof.
      intros req I J q uu vv v1 v2 aux frob rows cols r w Inv Hq HP Lr Vr J' Hpiv Lw Vw c v1' aux' frob'. destruct Inv.
      assert (P1 : (0 < n1)%nat) by nia. assert (P2 : (0 < n2)%nat) by nia.
      assert (HJ : (J' < n2)%nat) by (destruct (search_range r v2 n2 J) as [H|H]; fold J' in H; [exact H|destruct pi_J0; lia]).
      assert (HI : (I < n1)%nat) by lia.
      assert (Lc : length c = n1) by (unfold c; rewrite map_length; exact Lw).
      assert (Vc : forall k, (k < n1)%nat -> get c k = (B k J' - cross X uu vv k J') * fdiv F 1 (get r J')).
      { intros k Hk. unfold c, get at 1. rewrite nth_indep with (d' := (0 * fdiv F 1 (get r J'))) by (rewrite map_length; lia).
        rewrite (map_nth (fun x => x * fdiv F 1 (get r J'))). fold (get w k). rewrite Vw by exact Hk. reflexivity. }
      assert (NZ : get r J' <> 0) by (apply nonzero, Hpiv).
      assert (CI : get c I = 1) by (rewrite Vc, <- Vr by assumption; unfold fdiv; transitivity (get r J' * finv F (get r J')); [ring|apply finv_r, NZ]).
      assert (CJ : forall k, (k < n1)%nat -> get c k * get r J' = B k J' - cross X uu vv k J').
      { intros k Hk. rewrite Vc by exact Hk. transitivity ((B k J' - cross X uu vv k J') * (fdiv F 1 (get r J') * get r J')); [ring|]. rewrite fdiv_mul by exact NZ. ring. }
      assert (EU : length uu = length vv) by lia.
      destruct pi_rows0 as (R1 & R2 & R3), pi_cols0 as (S1 & S2 & S3).
      assert (NI : ~ In I rows).
      { intros H. destruct (R3 I H) as [_ H']. apply NZ. rewrite Vr by exact HJ. rewrite H' by exact HJ. ring. }
      assert (NJ : ~ In J' cols).
      { intros H. destruct (S3 J' H) as [_ H']. apply NZ. rewrite Vr by exact HJ. rewrite H' by exact HI. ring. }
      assert (ND : forall (l : list nat) x, NoDup l -> ~ In x l -> NoDup (l ++ [x])).
      { intros l x D N. apply (Permutation_NoDup (l := x :: l)); [apply Permutation_cons_append|constructor; assumption]. }
      constructor.
      - rewrite app_length. cbn. lia.
      - rewrite app_length. cbn. lia.
      - intros u Hu. apply in_app_or in Hu. destruct Hu as [Hu|[<-|[]]]; auto.
      - intros u Hu. apply in_app_or in Hu. destruct Hu as [Hu|[<-|[]]]; auto.
      - split; [apply ND; assumption|]. split; [rewrite app_length; cbn; lia|]. intros i Hi. apply in_app_or in Hi. destruct Hi as [Hi|[<-|[]]].
        + destruct (R3 i Hi) as [Q1 Q2]. split; [exact Q1|]. intros j Hj. rewrite cross_app by exact EU.
          assert (Z : get c i = 0) by (rewrite Vc, (Q2 J' HJ) by assumption; ring). rewrite Z, (Q2 j Hj). ring.
        + split; [exact HI|]. intros j Hj. rewrite cross_app, CI, Vr by assumption. ring.
      - split; [apply ND; assumption|]. split; [rewrite app_length; cbn; lia|]. intros j Hj. apply in_app_or in Hj. destruct Hj as [Hj|[<-|[]]].
        + destruct (S3 j Hj) as [Q1 Q2]. split; [exact Q1|]. intros i Hi. rewrite cross_app by exact EU.
          assert (Z : get r j = 0) by (rewrite Vr, (Q2 I HI) by assumption; ring). rewrite Z, (Q2 i Hi). ring.
        + split; [exact HJ|]. intros i Hi. rewrite cross_app, CJ by assumption. ring.
      - destruct pi_v3 as [L1 W1]. unfold v1'. split; [rewrite set_true_length by lia; exact L1|]. intros k. rewrite set_true_ok, in_app_iff, <- W1 by lia. cbn [In].
        destruct (Nat.eqb_spec k I) as [->|]; intuition congruence.
      - destruct pi_v4 as [L1 W1]. split; [rewrite set_true_length by lia; exact L1|]. intros k. rewrite set_true_ok, in_app_iff, <- W1 by lia. cbn [In].
        destruct (Nat.eqb_spec k J') as [->|]; intuition congruence.
      - exact Hq.
      - right. destruct (search_range c v1' n1 I) as [H|H]; [exact H|rewrite H; exact HI].
      - right. exact HJ.
      - intros _. destruct q as [|q].
        + exists I, J'. split; [apply in_or_app; right; left; reflexivity|]. split; [exact HJ|]. intros E. apply NZ. rewrite Vr, E by exact HJ.
          unfold cross. rewrite pi_uu0. cbn. ring.
        + destruct pi_nz0 as (i & j & Q1 & Q2 & Q3); [lia|]. exists i, j. split; [apply in_or_app; left; exact Q1|]. split; assumption.
      - intros AL Hlt Hin. destruct (search_spec AL c v1' n1 I) as [[_ H]|(_ & H & _)].
        + assert (G : (n1 <= length (rows ++ [I]))%nat).
          { rewrite <- (seq_length n1 0). apply NoDup_incl_length; [apply seq_NoDup|]. intros k Hk. apply in_seq in Hk.
            destruct pi_v3 as [L1 W1]. specialize (H k ltac:(lia)). unfold v1' in H. rewrite set_true_ok in H by lia. apply in_or_app.
            destruct (Nat.eqb_spec k I) as [E|E]; [right; left; congruence|left; apply W1, H]. }
          rewrite app_length in G. cbn in G. lia.
        + destruct pi_v3 as [L1 W1]. fold v1' in Hin. revert Hin H. set (s := search X c v1' n1 I). intros Hin H. unfold v1' in H. rewrite set_true_ok in H by lia.
          destruct (Nat.eqb_spec s I) as [E|NE]; [discriminate|]. apply in_app_or in Hin. destruct Hin as [Hin|[E|[]]]; [|congruence].
          apply W1 in Hin. congruence.
      - intros Hr EL. unfold frob', aux'. destruct (Z.ltb_spec req 0); [|lia]. pose proof (dot_law EL) as E1. destruct EL as [E0 E2].
        rewrite (pi_frob0 Hr (conj E0 E2)). unfold two. rewrite E2, cross_terms_ok by exact EU.
        transitivity (frob2 K n1 n2 (fun i j => cross X uu vv i j + get c i * get r j)).
        + rewrite frob2_add, frob2_outer. unfold cross_norm2. rewrite !E1. reflexivity.
        + unfold frob2. apply sum_ext. intros i Hi. apply sum_ext. intros j Hj. rewrite cross_app by exact EU. reflexivity.
      - intros Hr EL _. unfold aux'. destruct (Z.ltb_spec req 0); [|lia]. pose proof (dot_law EL) as E1. destruct EL as [E0 E2]. unfold cross_norm2. rewrite !E1.
        rewrite <- frob2_outer. unfold last_cross. rewrite !last_last. reflexivity.
    Qed.

    (** How the loop can end with a rank other than -1. *)
    Definition part_end (req : Z) (q : nat) (uu vv : list (list C)) (rows : list nat) : Prop :=
      (req = 0)%Z \/
      (0 < req /\ Z.of_nat q = Z.min req (Z.min (Z.of_nat n1) (Z.of_nat n2)))%Z \/
      (req < 0 /\ (0 < q)%nat /\ (estimator_laws X -> over (frob2 K n1 n2 (last_cross uu vv)) (frob2 K n1 n2 (cross X uu vv)) = false))%Z \/
      (abs_laws X -> exists i, (i < n1)%nat /\ ~ In i rows /\ forall j, (j < n2)%nat -> lt tol (abs (B i j - cross X uu vv i j)) = false).

    Lemma part_loop_ok : forall req, (0 < n1 + n2)%nat -> forall fuel I J q uu vv v1 v2 aux frob rows cols,
      part_inv req I J q uu vv v1 v2 aux frob rows cols ->
      (n1 * n2 + 2 <= q + fuel)%nat -> (q = 0%nat \/ req < 0 \/ Z.of_nat q <= Z.min req (Z.min (Z.of_nat n1) (Z.of_nat n2)))%Z ->
      exists a, partial_loop X over tol swap n1 n2 row col fuel req I J q uu vv v1 v2 aux frob = Some a /\
        (a_rank X a = (-1)%Z \/
         exists I J v1 v2 aux frob rows cols, a_rank X a = Z.of_nat (length (a_uu X a)) /\
           part_inv req I J (length (a_uu X a)) (a_uu X a) (a_vv X a) v1 v2 aux frob rows cols /\
           part_end req (length (a_uu X a)) (a_uu X a) (a_vv X a) rows).
    Proof.
      intros req HP. induction fuel as [|fuel IH]; intros I J q uu vv v1 v2 aux frob rows cols Inv Hf Hq.
      { pose proof (pi_adv _ _ _ _ _ _ _ _ _ _ _ _ Inv). nia. }
      pose proof (pi_uu _ _ _ _ _ _ _ _ _ _ _ _ Inv) as Eu. pose proof (pi_vv _ _ _ _ _ _ _ _ _ _ _ _ Inv) as Ev. cbn [partial_loop].
      destruct ((0 <? req)%Z && (Z.of_nat q <? Z.min req (Z.min (Z.of_nat n1) (Z.of_nat n2)))%Z || (req <? 0)%Z && ((q =? 0) || over aux frob)) eqn:Ec.
      - destruct (Nat.ltb_spec (n1 * n2) (S q * (n1 + n2))) as [Ha|Ha].
        + eexists. split; [reflexivity|]. left. reflexivity.
        + assert (P1 : (0 < n1)%nat) by nia. assert (P2 : (0 < n2)%nat) by nia.
          destruct (subtract_ok n2 I uu vv (row I)) as (r & -> & Lr & Vr); [lia|apply (pi_v _ _ _ _ _ _ _ _ _ _ _ _ Inv)|apply length_mk|].
          assert (Vr' : forall k, (k < n2)%nat -> get r k = B I k - cross X uu vv I k).
          { intros k Hk. rewrite Vr by exact Hk. rewrite get_mk. destruct (Nat.ltb_spec k n2); [reflexivity|lia]. }
          set (J' := search X r v2 n2 J).
          assert (HJ : (J' < n2)%nat).
          { destruct (search_range r v2 n2 J) as [H|H]; fold J' in H; [exact H|]. destruct (pi_J _ _ _ _ _ _ _ _ _ _ _ _ Inv); lia. }
          assert (HI : (I < n1)%nat) by (destruct (pi_I _ _ _ _ _ _ _ _ _ _ _ _ Inv); lia).
          rewrite Lr. destruct (Nat.leb_spec n2 J'); [lia|]. destruct (lt tol (abs (get r J'))) eqn:Et.
          * destruct (subtract_ok n1 J' vv uu (col J')) as (w & -> & Lw & Vw); [lia|apply (pi_u _ _ _ _ _ _ _ _ _ _ _ _ Inv)|apply length_mk|].
            assert (Vw' : forall k, (k < n1)%nat -> get w k = B k J' - cross X uu vv k J').
            { intros k Hk. rewrite Vw by exact Hk. rewrite get_mk. destruct (Nat.ltb_spec k n1); [|lia]. rewrite (cross_swap X uu vv) by lia. reflexivity. }
            apply IH with (rows := rows ++ [I]) (cols := cols ++ [J']).
            -- apply part_step with (J := J); assumption.
            -- lia.
            -- right. apply orb_true_iff in Ec. destruct Ec as [Ec|Ec]; apply andb_true_iff in Ec; destruct Ec as [G1 G2].
               ++ right. apply Z.ltb_lt in G2. lia.
               ++ left. apply Z.ltb_lt in G1. exact G1.
          * eexists. split; [reflexivity|]. cbn [a_rank a_uu a_vv]. destruct (Nat.eqb_spec q 0) as [->|NQ]; [left; reflexivity|]. right.
            exists I, J, v1, v2, aux, frob, rows, cols. rewrite Eu. split; [reflexivity|]. split; [exact Inv|].
            right. right. right. intros AL. exists I. split; [exact HI|]. split; [apply (pi_new _ _ _ _ _ _ _ _ _ _ _ _ Inv AL); nia|].
            intros j Hj. rewrite <- Vr' by exact Hj.
            assert (Z0 : In j cols -> lt tol (abs (get r j)) = false).
            { intros Hc. destruct (pi_cols _ _ _ _ _ _ _ _ _ _ _ _ Inv) as (_ & _ & Q). destruct (Q j Hc) as [_ Q'].
              rewrite Vr', (Q' I HI) by exact Hj. replace (cross X uu vv I j - cross X uu vv I j) with 0 by ring. exact Htol. }
            destruct (pi_v2 _ _ _ _ _ _ _ _ _ _ _ _ Inv) as [_ W]. destruct (nth j v2 false) eqn:Ej; [apply Z0, W, Ej|].
            destruct (search_spec AL r v2 n2 J) as [[_ H']|(_ & _ & H')]; [rewrite (H' j Hj) in Ej; discriminate|]. fold J' in H'.
            specialize (H' j Hj Ej). destruct (lt tol (abs (get r j))) eqn:El; [|reflexivity].
            destruct (al_cotrans X AL _ (abs (get r J')) _ El) as [G|G]; congruence.
      - eexists. split; [reflexivity|]. right. exists I, J, v1, v2, aux, frob, rows, cols. cbn [a_rank a_uu a_vv]. rewrite Eu. split; [reflexivity|].
        split; [exact Inv|]. apply orb_false_iff in Ec. destruct Ec as [G1 G2]. destruct (Z.compare_spec req 0) as [R|R|R].
        + left. exact R.
        + right. right. left. destruct (Z.ltb_spec req 0); [|lia]. cbn in G2. apply orb_false_iff in G2. destruct G2 as [G2 G3].
          apply Nat.eqb_neq in G2. split; [exact R|]. split; [lia|]. intros EL.
          rewrite <- (pi_frob _ _ _ _ _ _ _ _ _ _ _ _ Inv R EL), <- (pi_aux _ _ _ _ _ _ _ _ _ _ _ _ Inv R EL) by lia. exact G3.
        + right. left. split; [exact R|]. destruct (Z.ltb_spec 0 req); [|lia]. cbn in G1. apply Z.ltb_ge in G1.
          destruct Hq as [->|[Hq|Hq]]; lia.
    Qed.

    Lemma part_start_ok : forall req, (0 < n1 + n2)%nat -> exists a, partial_start X over tol swap n1 n2 row col req = Some a /\
      (a_rank X a = (-1)%Z \/
       exists I J v1 v2 aux frob rows cols, a_rank X a = Z.of_nat (length (a_uu X a)) /\
         part_inv req I J (length (a_uu X a)) (a_uu X a) (a_vv X a) v1 v2 aux frob rows cols /\
         part_end req (length (a_uu X a)) (a_uu X a) (a_vv X a) rows).
    Proof.
      intros req HP. unfold partial_start. apply part_loop_ok with (rows := []) (cols := []); [exact HP| |lia|left; reflexivity].
      assert (N : forall n k, nth k (repeat false n) false = false) by (induction n as [|n IH]; intros [|k]; cbn; auto).
      constructor.
      - reflexivity.
      - reflexivity.
      - intros u [].
      - intros u [].
      - split; [constructor|]. split; [reflexivity|]. intros i [].
      - split; [constructor|]. split; [reflexivity|]. intros i [].
      - split; [apply repeat_length|]. intros k. rewrite N. cbn. split; [discriminate|tauto].
      - split; [apply repeat_length|]. intros k. rewrite N. cbn. split; [discriminate|tauto].
      - lia.
      - left. reflexivity.
      - left. reflexivity.
      - intros H. lia.
      - intros _ _ [].
      - intros _ _. symmetry. unfold frob2. apply sum_0. intros i Hi. apply sum_0. intros j Hj. unfold cross. cbn. ring.
      - intros _ _ H. lia.
    Qed.
  End Partial.
End P.
