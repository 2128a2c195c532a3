(** * Proofs on the truncated SVD, and the outcome of the generators. *)

From Coq Require Import List Arith ZArith Bool Lia Ring.
From Verif Require Import Algebra BlasModel BlasProofs HMatModel HMatSpec HMatProofs HMatBuild Field DistModel DistProofs CompModel CompSpec CompProofs CompPartial.
Import ListNotations.

Section P.
  Variable X : Num.
  Notation F := (nfd X).
  Notation K := (fk F).
  Notation C := (car K).
  Notation "0" := (c0 K).
  Notation "1" := (c1 K).
  Notation "x + y" := (cadd K x y).
  Notation "x * y" := (cmul K x y).
  Notation "x - y" := (csub K x y).
  Notation abs := (nabs X).
  Notation lt := (nltb X).
  Add Ring XKring3 : (c_ring K).

  (** Sum of the squares of the singular values from position r. *)
  Definition tail2 (s : list C) (r : nat) : C := sum (length s - r) (fun k => abs (get s (r + k)) * abs (get s (r + k))).

  Lemma tail2_S : forall s r, (r < length s)%nat -> tail2 s r = tail2 s (S r) + abs (get s r) * abs (get s r).
  Proof.
    intros s r H. unfold tail2. replace (length s - r)%nat with (1 + (length s - S r))%nat by lia. rewrite sum_split. cbn [sum].
    rewrite Nat.add_0_r. transitivity (sum (length s - S r) (fun i => abs (get s (r + (1 + i))) * abs (get s (r + (1 + i)))) + abs (get s r) * abs (get s r)); [ring|].
    f_equal. apply sum_ext. intros k Hk. replace (r + (1 + k))%nat with (S r + k)%nat by lia. reflexivity.
  Qed.

  Lemma trunc_loop_ok : forall small s norm j error, (1 <= j <= length s)%nat -> error = tail2 s j ->
    exists r, trunc_loop X small s norm error j = Some r /\ (1 <= r <= j)%nat /\ (r = j \/ small (tail2 s r) norm = true) /\
      (r = 1%nat \/ small (tail2 s (r - 1)) norm = false).
  Proof.
    intros small s norm. induction j as [|j IH]; intros error Hj He; [lia|]. cbn [trunc_loop]. unfold sq.
    rewrite He, <- tail2_S by lia. destruct (Nat.ltb_spec 0 j) as [H0|H0]; cbn [andb].
    - destruct (small (tail2 s j) norm) eqn:Es.
      + destruct (IH (tail2 s j)) as (r & -> & R1 & R2 & R3); [lia|reflexivity|]. exists r. split; [reflexivity|]. split; [lia|].
        split; [|exact R3]. right. destruct R2 as [->|R2]; assumption.
      + exists (S j). split; [reflexivity|]. split; [lia|]. split; [left; reflexivity|]. right. replace (S j - 1)%nat with j by lia. exact Es.
    - exists (S j). split; [reflexivity|]. split; [lia|]. split; [left; reflexivity|left; lia].
  Qed.

  Lemma svd_norm2_ok : forall s, svd_norm2 X s = sum (length s) (fun k => get s k * get s k).
  Proof.
    assert (G : forall s a, fold_left (fun a x => a + sq X x) s a = a + sum (length s) (fun k => get s k * get s k)).
    { induction s as [|x s IH]; intros a; [cbn; ring|]. cbn [fold_left length]. rewrite IH. unfold sq.
      change (S (length s)) with (1 + length s)%nat. rewrite sum_split. cbn [sum]. unfold get. cbn [nth Nat.add]. ring. }
    intros s. unfold svd_norm2. rewrite G. ring.
  Qed.

  Lemma truncation_ok : forall small s, (1 <= length s)%nat -> exists r, svd_truncation X small s = Some r /\ (1 <= r <= length s)%nat /\
    (r = length s \/ small (tail2 s r) (sum (length s) (fun k => get s k * get s k)) = true) /\
    (r = 1%nat \/ small (tail2 s (r - 1)) (sum (length s) (fun k => get s k * get s k)) = false).
  Proof.
    intros small s H. unfold svd_truncation. rewrite svd_norm2_ok. apply trunc_loop_ok; [lia|]. unfold tail2. rewrite Nat.sub_diag. reflexivity.
  Qed.

  (** ** The factors returned by the SVD generator *)
  Lemma frob2_svd : forall d M N A, is_svd (sv_u X d) (sv_s X d) (sv_vt X d) M N A -> forall (w : nat -> C), (forall k, cconj K (w k) = w k) ->
    frob2 K M N (fun i j => sum (Nat.min M N) (fun k => me (sv_u X d) i k * w k * me (sv_vt X d) k j)) = sum (Nat.min M N) (fun k => w k * w k).
  Proof.
    intros d M N A D w Hw. destruct D as [sd_len0 sd_real0 sd_u0 sd_vt0 sd_val0]. set (n := Nat.min M N). unfold frob2.
    set (u := fun i k => me (sv_u X d) i k) in *. set (v := fun k j => me (sv_vt X d) k j) in *.
    transitivity (sum M (fun i => sum N (fun j => sum n (fun k => sum n (fun l => (u i k * w k * v k j) * (cconj K (u i l) * w l * cconj K (v l j))))))).
    { apply sum_ext. intros i Hi. apply sum_ext. intros j Hj. rewrite conj_sum, <- sum_mul_r. apply sum_ext. intros k Hk. rewrite <- sum_mul_l.
      apply sum_ext. intros l Hl. rewrite !cconj_mul, Hw. reflexivity. }
    transitivity (sum n (fun k => sum n (fun l => w k * w l * (sum M (fun i => u i k * cconj K (u i l)) * sum N (fun j => v k j * cconj K (v l j)))))).
    { transitivity (sum M (fun i => sum n (fun k => sum n (fun l => sum N (fun j => (u i k * w k * v k j) * (cconj K (u i l) * w l * cconj K (v l j))))))).
      - apply sum_ext. intros i Hi. rewrite sum_swap. apply sum_ext. intros k Hk. rewrite sum_swap. reflexivity.
      - rewrite sum_swap. apply sum_ext. intros k Hk. rewrite sum_swap. apply sum_ext. intros l Hl. rewrite <- sum_mul_r, <- sum_mul_l. apply sum_ext.
        intros i Hi. rewrite <- !sum_mul_l. apply sum_ext. intros j Hj. ring. }
    apply sum_ext. intros k Hk. rewrite (sum_single K n k).
    - unfold u, v. rewrite sd_u0, sd_vt0 by (unfold n in Hk; lia). rewrite Nat.eqb_refl. ring.
    - exact Hk.
    - intros l Hl NE. unfold u. rewrite sd_u0 by (unfold n in *; lia). destruct (Nat.eqb_spec k l); [lia|]. ring.
  Qed.

  Lemma svd_factors : forall d M N A q, is_svd (sv_u X d) (sv_s X d) (sv_vt X d) M N A -> (q <= Nat.min M N)%nat ->
    let L := mkLrm (of_fun K M q (fun i j => me (sv_u X d) i j * get (sv_s X d) j)) (of_fun K q N (fun i j => me (sv_vt X d) i j)) in
    factors L M N q /\ lrank L = q /\
    frob2 K M N (error_of L A) = sum (Nat.min M N - q) (fun k => get (sv_s X d) (q + k) * get (sv_s X d) (q + k)) /\
    frob2 K M N A = sum (Nat.min M N) (fun k => get (sv_s X d) k * get (sv_s X d) k).
  Proof.
    intros d M N A q D Hq L. split; [split; apply of_fun_wf|]. split; [reflexivity|]. pose proof D as D'. destruct D' as [sd_len0 sd_real0 sd_u0 sd_vt0 sd_val0]. set (s := fun k => get (sv_s X d) k). split.
    - set (w := fun k => if k <? q then 0 else s k).
      assert (E : forall i j, (i < M)%nat -> (j < N)%nat -> error_of L A i j = sum (Nat.min M N) (fun k => me (sv_u X d) i k * w k * me (sv_vt X d) k j)).
      { intros i j Hi Hj. unfold error_of. rewrite sd_val0 by assumption. unfold lr_entry. change (lrank L) with q. unfold L. cbn [lU lV].
        replace (Nat.min M N) with (q + (Nat.min M N - q))%nat by lia. rewrite !sum_split.
        rewrite (sum_ext K q (fun k => me (of_fun K M q (fun i j => me (sv_u X d) i j * get (sv_s X d) j)) i k * me (of_fun K q N (fun i j => me (sv_vt X d) i j)) k j)
          (fun k => me (sv_u X d) i k * get (sv_s X d) k * me (sv_vt X d) k j)) by (intros k Hk; rewrite !of_fun_me by assumption; reflexivity).
        rewrite (sum_0 K q (fun k => me (sv_u X d) i k * w k * me (sv_vt X d) k j)).
        - rewrite (sum_ext K _ (fun k => me (sv_u X d) i (q + k) * w (q + k)%nat * me (sv_vt X d) (q + k) j) (fun k => me (sv_u X d) i (q + k) * get (sv_s X d) (q + k) * me (sv_vt X d) (q + k) j)).
          + ring.
          + intros k Hk. unfold w. destruct (Nat.ltb_spec (q + k) q); [lia|reflexivity].
        - intros k Hk. unfold w. destruct (Nat.ltb_spec k q); [ring|lia]. }
      transitivity (frob2 K M N (fun i j => sum (Nat.min M N) (fun k => me (sv_u X d) i k * w k * me (sv_vt X d) k j))).
      + unfold frob2. apply sum_ext. intros i Hi. apply sum_ext. intros j Hj. rewrite E by assumption. reflexivity.
      + rewrite (frob2_svd d M N A D).
        * replace (Nat.min M N) with (q + (Nat.min M N - q))%nat at 1 by lia. rewrite sum_split. rewrite (sum_0 K q).
          -- transitivity (sum (Nat.min M N - q) (fun i => w (q + i)%nat * w (q + i)%nat)); [ring|]. apply sum_ext. intros k Hk. unfold w.
             destruct (Nat.ltb_spec (q + k) q); [lia|reflexivity].
          -- intros k Hk. unfold w. destruct (Nat.ltb_spec k q); [ring|lia].
        * intros k. unfold w. destruct (k <? q); [apply conj_0|apply sd_real0].
    - transitivity (frob2 K M N (fun i j => sum (Nat.min M N) (fun k => me (sv_u X d) i k * s k * me (sv_vt X d) k j))).
      + unfold frob2. apply sum_ext. intros i Hi. apply sum_ext. intros j Hj. rewrite sd_val0 by assumption. reflexivity.
      + apply (frob2_svd d M N A D). exact sd_real0.
  Qed.

  (** ** Cost of the factors *)
  (** With the automatic rank, the SVD generator gives up or returns cheap factors. *)
  Lemma svd_cost : forall small M N d L, svd_generator X small M N d (-1) = Some L -> (lrank L * (M + N) <= M * N)%nat.
  Proof.
    intros small M N d L. unfold svd_generator. destruct (svd_truncation X small (sv_s X d)) as [tr|]; [|discriminate]. cbn [Z.eqb].
    intros E. injection E as <-. destruct (Nat.ltb_spec (M * N) (tr * (M + N))) as [H|H]; [cbn; lia|].
    destruct (0 <? Z.of_nat tr)%Z; [|cbn; lia]. unfold lrank. cbn. rewrite Nat2Z.id. exact H.
  Qed.
  Lemma full_cost : forall over tol M N A req r L, full_aca X over tol M N A req = Some (r, L) -> (lrank L * (M + N) <= M * N)%nat.
  Proof.
    intros over tol M N A req r L E. destruct (Nat.eq_dec (M + N) 0) as [Z|Z]; [rewrite Z; nia|].
    destruct (full_aca_ok X over tol A M N req) as (r' & L' & E' & H); [lia|]. rewrite E in E'. injection E' as <- <-.
    destruct H as [[_ ->]|(q & m & _ & _ & _ & -> & H & _)]; [cbn; lia|exact H].
  Qed.

  Notation rowsf := (fun N (A : nat -> nat -> C) i => mk N (fun j => A i j)).
  Notation colsf := (fun M (A : nat -> nat -> C) j => mk M (fun i => A i j)).

  Lemma last_nth' : forall (l : list (list C)), last l [] = nth (length l - 1) l [].
  Proof. induction l as [|x [|y l] IH]; [reflexivity|reflexivity|]. change (last (x :: y :: l) []) with (last (y :: l) []). rewrite IH. cbn [length]. replace (S (S (length l)) - 1)%nat with (S (length l)) by lia. replace (S (length l) - 1)%nat with (length l) by lia. reflexivity. Qed.

  Section Outcome.
    Variables (over : C -> C -> bool) (tol : C) (swap : bool).
    Hypothesis Htol : lt tol (abs 0) = false.

    Lemma frob2_ext : forall M N f g, (forall i j, (i < M)%nat -> (j < N)%nat -> f i j = g i j) -> frob2 K M N f = frob2 K M N g.
    Proof. intros M N f g H. unfold frob2. apply sum_ext. intros i Hi. apply sum_ext. intros j Hj. rewrite H by assumption. reflexivity. Qed.
    Lemma frob2_transpose : forall M N f, frob2 K M N f = frob2 K N M (fun i j => f j i).
    Proof. intros. unfold frob2. apply sum_swap. Qed.

    Lemma fill_last : forall M N uu vv, (forall u, In u uu -> length u = M) -> length uu = length vv -> uu <> [] ->
      forall i j, (i < M)%nat -> (j < N)%nat -> last_term (fill_factors X M N (Z.of_nat (length uu)) uu vv) i j = last_cross X uu vv i j.
    Proof.
      intros M N uu vv Hu E NE i j Hi Hj. assert (Lp : (0 < length uu)%nat) by (destruct uu; [congruence|cbn; lia]). unfold last_term, fill_factors.
      destruct (Z.ltb_spec 0 (Z.of_nat (length uu))) as [H|H]; [|lia]. rewrite Nat2Z.id, firstn_all. unfold lrank, last_cross. cbn [lU lV mc mkMat].
      f_equal.
      - unfold me. cbn [md mr mkMat]. rewrite get_concat; [|exact Hu|exact Hi|lia]. rewrite last_nth'. reflexivity.
      - rewrite of_fun_me by lia. rewrite E, <- last_nth'. reflexivity.
    Qed.

    Lemma partial_ok : forall M N A req, (0 < M + N)%nat -> forall a,
      partial_start X over tol swap M N (rowsf N A) (colsf M A) req = Some a ->
      partial_outcome over tol M N A req (a_rank X a) (fill_factors X M N (a_rank X a) (a_uu X a) (a_vv X a)) true.
    Proof.
      intros M N A req HP a Ea. destruct (part_start_ok X over tol swap M N A Htol req HP) as (a' & Ea' & H). rewrite Ea in Ea'. injection Ea' as <-.
      destruct H as [H|(I & J & v1 & v2 & aux & frob & rows & cols & E & Inv & Hend)].
      - left. rewrite H. split; [lia|]. rewrite fill_gave_up by lia. split; reflexivity.
      - destruct (a_uu X a) as [|u uu] eqn:Eu; [left; rewrite E; cbn; split; [lia|split; reflexivity]|]. rewrite <- Eu in *. right.
        assert (NE : a_uu X a <> []) by (rewrite Eu; discriminate). assert (Lp : (0 < length (a_uu X a))%nat) by (rewrite Eu; cbn; lia).
        pose proof (pi_u _ _ _ _ _ _ _ _ _ _ _ _ _ _ _ _ Inv) as Hu. pose proof (pi_vv _ _ _ _ _ _ _ _ _ _ _ _ _ _ _ _ Inv) as Hv.
        destruct (fill_ok X M N (a_uu X a) (a_vv X a)) as (G1 & G2 & G3); [exact Hu|lia|exact NE|].
        pose proof (fill_last M N (a_uu X a) (a_vv X a) Hu (eq_sym Hv) NE) as G4.
        rewrite E. split; [lia|]. rewrite Nat2Z.id. split; [exact G1|]. rewrite G2.
        split; [apply (pi_adv _ _ _ _ _ _ _ _ _ _ _ _ _ _ _ _ Inv)|].
        destruct (pi_rows _ _ _ _ _ _ _ _ _ _ _ _ _ _ _ _ Inv) as (R1 & R2 & R3). destruct (pi_cols _ _ _ _ _ _ _ _ _ _ _ _ _ _ _ _ Inv) as (S1 & S2 & S3).
        split.
        { destruct (pi_nz _ _ _ _ _ _ _ _ _ _ _ _ _ _ _ _ Inv Lp) as (i & j & Q1 & Q2 & Q3). destruct (R3 i Q1) as [Q4 Q5]. exists i, j.
          split; [exact Q4|]. split; [exact Q2|]. rewrite G3, <- Q5 by assumption. exact Q3. }
        exists rows, cols.
        split; [exact R1|]. split; [exact S1|]. split; [exact R2|]. split; [exact S2|]. split.
        + split; [intros i Hi; destruct (R3 i Hi) as [Q1 Q2]|intros i Hi; destruct (S3 i Hi) as [Q1 Q2]]; (split; [exact Q1|]); intros j Hj; rewrite G3 by assumption; symmetry; apply Q2, Hj.
        + destruct Hend as [H|[H|[H|H]]].
          * exfalso. revert Ea. subst req. unfold partial_start. rewrite Nat.add_comm. cbn [Nat.add partial_loop Z.ltb Z.compare andb orb]. intros Ea. injection Ea as <-. cbn in NE. congruence.
          * left. exact H.
          * right. left. destruct H as (H1 & H2 & H3). split; [exact H1|]. intros EL. specialize (H3 EL).
            rewrite (frob2_ext M N (last_term _) (last_cross X (a_uu X a) (a_vv X a))) by exact G4.
            rewrite (frob2_ext M N (lr_entry _) (cross X (a_uu X a) (a_vv X a))) by exact G3. exact H3.
          * right. right. intros AL. destruct (H AL) as (i & H1 & H2 & H3). exists i. split; [exact H1|]. split; [exact H2|]. intros j Hj.
            unfold error_of. rewrite G3 by assumption. apply H3, Hj.
    Qed.

    Lemma partial_ok_swapped : forall M N A req, (0 < M + N)%nat -> forall a,
      partial_start X over tol swap N M (colsf M A) (rowsf N A) req = Some a ->
      partial_outcome over tol M N A req (a_rank X a) (fill_factors X M N (a_rank X a) (a_vv X a) (a_uu X a)) false.
    Proof.
      intros M N A req HP a Ea. destruct (part_start_ok X over tol swap N M (fun i j => A j i) Htol req ltac:(lia)) as (a' & Ea' & H).
      rewrite Ea in Ea'. injection Ea' as <-.
      destruct H as [H|(I & J & v1 & v2 & aux & frob & rows & cols & E & Inv & Hend)].
      - left. rewrite H. split; [lia|]. rewrite fill_gave_up by lia. split; reflexivity.
      - pose proof (pi_v _ _ _ _ _ _ _ _ _ _ _ _ _ _ _ _ Inv) as Hu. pose proof (pi_vv _ _ _ _ _ _ _ _ _ _ _ _ _ _ _ _ Inv) as Hv.
        destruct (a_vv X a) as [|u vv] eqn:Eu; [left; rewrite E, <- Hv; cbn; split; [lia|split; reflexivity]|]. rewrite <- Eu in *. right.
        assert (NE : a_vv X a <> []) by (rewrite Eu; discriminate). assert (Lp : (0 < length (a_vv X a))%nat) by (rewrite Eu; cbn; lia).
        rewrite <- Hv in *.
        destruct (fill_ok X M N (a_vv X a) (a_uu X a)) as (G1 & G2 & G3); [exact Hu|lia|exact NE|].
        pose proof (fill_last M N (a_vv X a) (a_uu X a) Hu Hv NE) as G4.
        rewrite E. split; [lia|]. rewrite Nat2Z.id. split; [exact G1|]. rewrite G2.
        split; [pose proof (pi_adv _ _ _ _ _ _ _ _ _ _ _ _ _ _ _ _ Inv); lia|].
        destruct (pi_rows _ _ _ _ _ _ _ _ _ _ _ _ _ _ _ _ Inv) as (R1 & R2 & R3). destruct (pi_cols _ _ _ _ _ _ _ _ _ _ _ _ _ _ _ _ Inv) as (S1 & S2 & S3).
        split.
        { destruct (pi_nz _ _ _ _ _ _ _ _ _ _ _ _ _ _ _ _ Inv Lp) as (i & j & Q1 & Q2 & Q3). destruct (R3 i Q1) as [Q4 Q5]. exists j, i.
          split; [exact Q2|]. split; [exact Q4|]. rewrite G3, cross_swap, <- Q5 by (assumption || lia). exact Q3. }
        exists cols, rows.
        split; [exact S1|]. split; [exact R1|]. split; [exact S2|]. split; [exact R2|].
        assert (CS : forall i j, cross X (a_vv X a) (a_uu X a) i j = cross X (a_uu X a) (a_vv X a) j i) by (intros; apply cross_swap; lia). split.
        + split; [intros i Hi; destruct (S3 i Hi) as [Q1 Q2]|intros i Hi; destruct (R3 i Hi) as [Q1 Q2]]; (split; [exact Q1|]); intros j Hj; rewrite G3, CS by assumption; symmetry; apply Q2, Hj.
        + destruct Hend as [H|[H|[H|H]]].
          * exfalso. revert Ea. subst req. unfold partial_start. rewrite Nat.add_comm. cbn [Nat.add partial_loop Z.ltb Z.compare andb orb]. intros Ea. injection Ea as <-. cbn in NE. congruence.
          * left. lia.
          * right. left. destruct H as (H1 & H2 & H3). split; [exact H1|]. intros EL. specialize (H3 EL).
            rewrite (frob2_ext M N (last_term _) (last_cross X (a_vv X a) (a_uu X a))) by exact G4.
            rewrite (frob2_ext M N (lr_entry _) (cross X (a_vv X a) (a_uu X a))) by exact G3.
            rewrite (frob2_transpose M N (last_cross _ _ _)), (frob2_transpose M N (cross _ _ _)).
            rewrite (frob2_ext N M (fun i j => last_cross X (a_vv X a) (a_uu X a) j i) (last_cross X (a_uu X a) (a_vv X a))) by (intros; unfold last_cross; ring).
            rewrite (frob2_ext N M (fun i j => cross X (a_vv X a) (a_uu X a) j i) (cross X (a_uu X a) (a_vv X a))) by (intros; apply CS). exact H3.
          * right. right. intros AL. destruct (H AL) as (j & H1 & H2 & H3). exists j. split; [exact H1|]. split; [exact H2|]. intros i Hi.
            unfold error_of. rewrite G3, CS by assumption. apply H3, Hi.
    Qed.
  End Outcome.
End P.
