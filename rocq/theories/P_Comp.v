(** * Compression of blocks: C30 to C33, C48.

    Generators: SVD.hpp, fullACA.hpp, partialACA.hpp, sympartialACA.hpp. *)

From Coq Require Import List Arith ZArith Bool Lia Ring Reals Lra.
From Coq Require Qcanon.
From Verif Require Import ClusterModel IOModel IOSpec BlockModel Algebra BlasModel BlasProofs HMatModel HMatSpec HMatProofs HMatBuild Field RealNum
  CompModel CompSpec CompProofs CompPartial CompSVD CompReal.
Import ListNotations.

(** ** C30 *)
Section C30.
  Local Open Scope R_scope.
  (** Relative l2 norm of the singular values from position r. *)
  Definition dropped (s : list R) (r : nat) : R :=
    sqrt (rsum (length s - r) (fun k => nth (r + k) s 0 * nth (r + k) s 0)) / sqrt (rsum (length s) (fun k => nth k s 0 * nth k s 0)).

  Lemma tail2_R : forall s r, tail2 Rn s r = rsum (length s - r) (fun k => nth (r + k) s 0 * nth (r + k) s 0).
  Proof.
    intros s r. unfold tail2, rsum. apply (sum_ext Rc). intros k Hk. unfold get. cbn. rewrite <- Rabs_mult. apply Rabs_right. nra.
  Qed.
  Lemma dropped_mono : forall s k r, (k <= r)%nat -> (r <= length s)%nat -> 0 < rsum (length s) (fun k => nth k s 0 * nth k s 0) -> dropped s r <= dropped s k.
  Proof.
    intros s k r H Hr HP. unfold dropped. apply Rmult_le_compat_r; [left; apply Rinv_0_lt_compat, sqrt_lt_R0, HP|]. apply sqrt_le_1_alt.
    replace (length s - k)%nat with ((r - k) + (length s - r))%nat by lia. unfold rsum at 2. rewrite sum_split. cbn.
    assert (A1 : 0 <= rsum (r - k) (fun i => nth (k + i) s 0 * nth (k + i) s 0)) by (apply rsum_nonneg; intros; nra).
    assert (A2 : rsum (length s - r) (fun i => nth (r + i) s 0 * nth (r + i) s 0) = rsum (length s - r) (fun i => nth (k + (r - k + i)) s 0 * nth (k + (r - k + i)) s 0)).
    { apply rsum_ext. intros i Hi. replace (k + (r - k + i))%nat with (r + i)%nat by lia. reflexivity. }
    rewrite A2. unfold rsum in *. cbn in *. lra.
  Qed.

  (** Either nothing is dropped or what is dropped is below epsilon, and any smaller rank would drop at least epsilon. *)
  Theorem C30_svd_truncation : forall (s : list R) (eps : R), s <> [] -> 0 < rsum (length s) (fun k => nth k s 0 * nth k s 0) ->
    exists r, svd_truncation Rn (smallR eps) s = Some r /\ (1 <= r <= length s)%nat /\
      (r = length s \/ dropped s r < eps) /\ forall k, (1 <= k < r)%nat -> eps <= dropped s k.
  Proof.
    intros s eps Hs HP. destruct (truncation_ok Rn (smallR eps) s) as (r & E & R1 & R2 & R3); [destruct s; [congruence|cbn; lia]|].
    exists r. split; [exact E|]. split; [exact R1|]. rewrite !tail2_R in *.
    change (@sum (fk (nfd Rn)) (length s) (fun k => cmul (fk (nfd Rn)) (@get (fk (nfd Rn)) s k) (@get (fk (nfd Rn)) s k))) with (rsum (length s) (fun k => nth k s 0 * nth k s 0)) in *.
    assert (SM : forall k, smallR eps (rsum (length s - k) (fun i => nth (k + i) s 0 * nth (k + i) s 0)) (rsum (length s) (fun k => nth k s 0 * nth k s 0)) = Rltb (dropped s k) eps).
    { intros k. unfold smallR. destruct (Req_EM_T _ 0); [lra|reflexivity]. }
    rewrite !SM in *. split.
    - destruct R2 as [R2|R2]; [left; exact R2|right]. destruct (Rltb_spec (dropped s r) eps); [assumption|discriminate].
    - intros k Hk. destruct R3 as [R3|R3]; [lia|]. destruct (Rltb_spec (dropped s (r - 1)) eps); [discriminate|].
      assert (B : (r - 1 <= length s)%nat) by (destruct R1 as [_ B]; etransitivity; [|exact B]; lia).
      pose proof (dropped_mono s k (r - 1) ltac:(lia) B HP). lra.
  Qed.

  (** The block rebuilt from the factors: with the automatic rank the error is below epsilon times the block; with a
      requested rank it is the norm of the singular values beyond that rank. *)
  Theorem C30_svd_generator_real : forall eps d M N (A : nat -> nat -> R) rank, 0 <= eps -> (1 <= M)%nat -> (1 <= N)%nat -> 0 < normR M N A ->
    is_svd (X := Rn) (sv_u Rn d) (sv_s Rn d) (sv_vt Rn d) M N A ->
    exists L, svd_generator Rn (smallR eps) M N d rank = Some L /\
      (gave_up L \/
       factors L M N (lrank L) /\
       (rank = (-1)%Z -> normR M N (error_of (K := Rc) L A) <= eps * normR M N A) /\
       (rank <> (-1)%Z -> lrank L = Nat.min (Z.to_nat rank) (Nat.min M N) /\
          normR M N (error_of (K := Rc) L A) = sqrt (rsum (Nat.min M N - lrank L) (fun k => nth (lrank L + k) (sv_s Rn d) 0 * nth (lrank L + k) (sv_s Rn d) 0)))).
  Proof.
    intros eps d M N A rank Heps HM HN HA D.
    assert (Ls : @length R (sv_s Rn d) = Nat.min M N) by apply (sd_len _ _ _ _ _ _ _ D).
    assert (NA : rsum (@length R (sv_s Rn d)) (fun k => @nth R k (sv_s Rn d) 0 * @nth R k (sv_s Rn d) 0) = rsum M (fun i => rsum N (fun j => A i j * A i j))).
    { destruct (svd_factors Rn d M N A 0 D ltac:(lia)) as (_ & _ & _ & G). rewrite Ls. symmetry. exact G. }
    assert (PA : 0 < rsum M (fun i => rsum N (fun j => A i j * A i j))).
    { unfold normR in HA. destruct (Rle_lt_or_eq_dec 0 _ (frobR_nonneg M N A)) as [H|H]; [exact H|]. rewrite <- H, sqrt_0 in HA. lra. }
    destruct (C30_svd_truncation (sv_s Rn d) eps) as (r & E & R1 & R2 & _).
    { intros Z. rewrite Z in Ls. cbn in Ls. lia. } { rewrite NA. exact PA. }
    unfold svd_generator. rewrite E.
    set (q := if (rank =? -1)%Z then (if (M * N <? r * (M + N))%nat then (-1)%Z else Z.of_nat r) else Z.min rank (Z.min (Z.of_nat M) (Z.of_nat N))).
    destruct (Z.ltb_spec 0 q) as [Hq|Hq]; [|eexists; split; [reflexivity|left; split; reflexivity]].
    eexists. split; [reflexivity|]. right.
    assert (Hr : (Z.to_nat q <= Nat.min M N)%nat).
    { unfold q in *. destruct (rank =? -1)%Z; [destruct (_ <? _)%nat; lia|lia]. }
    destruct (svd_factors Rn d M N A (Z.to_nat q) D Hr) as (G1 & G2 & G3 & G4).
    rewrite G2. split; [exact G1|]. split.
    - intros Erk. eapply Rle_trans; [right; exact (f_equal sqrt G3)|]. clear G1 G2 G3 G4. assert (Eq : Z.to_nat q = r).
      { unfold q in *. rewrite Erk in *. change (-1 =? -1)%Z with true in *. cbv iota in *. destruct (Nat.ltb_spec (M * N) (r * (M + N))); [lia|]. apply Nat2Z.id. }
      rewrite Eq. rewrite Ls in R2. destruct R2 as [R2|R2].
      + rewrite R2, Nat.sub_diag. cbn [sum Rc c0 fk nfd Rn Rf]. rewrite sqrt_0. apply Rmult_le_pos; [exact Heps|apply sqrt_pos].
      + unfold dropped in R2. rewrite NA, Ls in R2. assert (0 < sqrt (rsum M (fun i => rsum N (fun j => A i j * A i j)))) by (apply sqrt_lt_R0, PA).
        apply (Rmult_lt_compat_r _ _ _ H) in R2. unfold Rdiv in R2. rewrite Rmult_assoc, Rinv_l, Rmult_1_r in R2 by lra. left. exact R2.
    - intros Hne. split.
      + unfold q. destruct (Z.eqb_spec rank (-1)); [congruence|]. lia.
      + exact (f_equal sqrt G3).
  Qed.
End C30.

(** ** C31 *)
Section C31.
  (** For every kind of numbers and every choice of the tests: the generator ends; it gives up or returns factors such
      that the true error A - U V is the matrix on which the tests were evaluated when the loop stopped. *)
  Theorem C31_full_aca : forall (X : Num) over tol (A : nat -> nat -> car (fk (nfd X))) M N req, 0 < M + N -> abs_laws X ->
    exists r L, full_aca X over tol M N A req = Some (r, L) /\
      ((r <= 0)%Z /\ gave_up L \/
       (0 < r)%Z /\ factors L M N (Z.to_nat r) /\
       exists E, wf_mat E M N /\ (forall i j, i < M -> j < N -> me E i j = error_of L A i j) /\
        ((0 < req /\ r = Z.min req (Z.min (Z.of_nat M) (Z.of_nat N)))%Z \/
         ((req < 0)%Z /\ over (norm_frob2 X E) (norm_frob2 X (of_fun (fk (nfd X)) M N A)) = false) \/
         (forall i j, i < M -> j < N -> nltb X (nabs X (error_of L A i j)) tol = true))).
  Proof.
    intros X over tol A M N req HP AL. destruct (full_aca_ok X over tol A M N req HP) as (r & L & E & H). exists r, L. split; [exact E|].
    destruct H as [[H ->]|(q & m & -> & Hq & H1 & H2 & H3 & H4 & H5 & H6)]; [left; split; [exact H|split; reflexivity]|]. right.
    split; [lia|]. rewrite Nat2Z.id. split; [exact H1|]. exists m. split; [exact H5|]. split; [exact H4|]. destruct H6 as [H6|[H6|[H6|H6]]].
    - exfalso. subst req. unfold full_aca in E. rewrite Nat.add_comm in E. cbn in E. injection E as E1 E2. lia.
    - left. exact H6.
    - right. left. tauto.
    - right. right. intros i j Hi Hj. rewrite <- H4 by assumption. apply H6; assumption.
  Qed.

  Lemma full_zero : forall (X : Num) over tol (A : nat -> nat -> car (fk (nfd X))) M N req r L, 0 < M + N -> (req < 0)%Z ->
    nltb X (nabs X (c0 _)) tol = true -> (forall i j, i < M -> j < N -> A i j = c0 _) -> full_aca X over tol M N A req = Some (r, L) -> (r <= 0)%Z.
  Proof.
    intros X over tol A M N req r L HP Hr Ht Hz. unfold full_aca. rewrite (Nat.add_comm (M * N) 2). cbn [Nat.add full_loop].
    change (mr (of_fun (fk (nfd X)) M N A)) with M. change (mc (of_fun (fk (nfd X)) M N A)) with N.
    destruct (Z.ltb_spec 0 req); [lia|]. destruct (Z.ltb_spec req 0); [|lia]. rewrite Nat.eqb_refl, orb_true_r. cbn [andb orb].
    destruct (Nat.ltb_spec (M * N) (1 * (M + N))) as [Ha|Ha]; [intros E; injection E as <- _; cbn; lia|].
    destruct (argmax_ok X (of_fun (fk (nfd X)) M N A) M N) as (i & j & -> & Hi & Hj & _); [apply of_fun_wf|lia|].
    rewrite of_fun_me, (Hz i j Hi Hj), Ht by assumption. intros E. injection E as <- _. cbn. lia.
  Qed.

  Local Open Scope R_scope.
  (** Real and complex numbers: the Frobenius norm of the error. *)
  Theorem C31_full_aca_real : forall eps tol (A : nat -> nat -> R) M N req, (0 < M + N)%nat -> 0 < tol ->
    exists r L, full_aca Rn (overR eps) tol M N A req = Some (r, L) /\
      ((r <= 0)%Z /\ gave_up L \/
       (0 < r)%Z /\ factors L M N (Z.to_nat r) /\
        ((0 < req /\ r = Z.min req (Z.min (Z.of_nat M) (Z.of_nat N)))%Z \/
         ((req < 0)%Z /\ normR M N (error_of (K := Rc) L A) <= eps * normR M N A) \/
         (forall i j, (i < M)%nat -> (j < N)%nat -> Rabs (error_of (K := Rc) L A i j) < tol))).
  Proof.
    intros eps tol A M N req HP Htol. destruct (C31_full_aca Rn (overR eps) tol A M N req HP R_laws) as (r & L & E & H). exists r, L. split; [exact E|].
    destruct H as [H|(H1 & H2 & m & H3 & H4 & H5)]; [left; exact H|]. right. split; [exact H1|]. split; [exact H2|].
    destruct H5 as [H5|[(H5 & H6)|H5]]; [left; exact H5| |].
    - right. left. split; [exact H5|]. assert (H7 : overR eps (frob2 Rc M N (me m)) (frob2 Rc M N (me (of_fun Rc M N A))) = false).
      { exact (eq_trans (f_equal2 (overR eps) (eq_sym (norm_frob2_R m M N H3)) (eq_sym (norm_frob2_R (of_fun Rc M N A) M N (of_fun_wf Rc M N A)))) H6). }
      assert (EA : frob2 Rc M N (me (of_fun Rc M N A)) = rsum M (fun i => rsum N (fun j => A i j * A i j))).
      { apply rsum_ext. intros i Hi. apply rsum_ext. intros j Hj. rewrite of_fun_me by assumption. reflexivity. }
      assert (EE : frob2 Rc M N (me m) = rsum M (fun i => rsum N (fun j => error_of (K := Rc) L A i j * error_of (K := Rc) L A i j))).
      { apply rsum_ext. intros i Hi. apply rsum_ext. intros j Hj. exact (f_equal2 Rmult (H4 i j Hi Hj) (H4 i j Hi Hj)). }
      apply overR_false; [apply frobR_nonneg| |].
      + intros Z. exfalso. assert (r <= 0)%Z; [|lia]. apply (full_zero Rn (overR eps) tol A M N req r L); [exact HP|exact H5| | |exact E].
        * cbn. rewrite Rabs_R0. destruct (Rltb_spec 0 tol); [reflexivity|lra].
        * intros i j Hi Hj. apply (rsum2_zero M N A Z i j Hi Hj).
      + rewrite <- EE, <- EA. exact H7.
    - right. right. intros i j Hi Hj. exact (Rltb_true _ _ (H5 i j Hi Hj)).
  Qed.

  Theorem C31_full_aca_complex : forall eps (tol : R) (A : nat -> nat -> R * R) M N req, (0 < M + N)%nat -> 0 < tol ->
    exists r L, full_aca Cn (overC eps) (tol, 0) M N A req = Some (r, L) /\
      ((r <= 0)%Z /\ gave_up L \/
       (0 < r)%Z /\ factors L M N (Z.to_nat r) /\
        ((0 < req /\ r = Z.min req (Z.min (Z.of_nat M) (Z.of_nat N)))%Z \/
         ((req < 0)%Z /\ normC M N (error_of (K := Cc) L A) <= eps * normC M N A) \/
         (forall i j, (i < M)%nat -> (j < N)%nat -> Cmod (error_of (K := Cc) L A i j) < tol))).
  Proof.
    intros eps tol A M N req HP Htol. destruct (C31_full_aca Cn (overC eps) (tol, 0) A M N req HP C_laws) as (r & L & E & H). exists r, L. split; [exact E|].
    destruct H as [H|(H1 & H2 & m & H3 & H4 & H5)]; [left; exact H|]. right. split; [exact H1|]. split; [exact H2|].
    destruct H5 as [H5|[(H5 & H6)|H5]]; [left; exact H5| |].
    - right. left. split; [exact H5|]. assert (H7 : overC eps (frob2 Cc M N (me m)) (frob2 Cc M N (me (of_fun Cc M N A))) = false).
      { exact (eq_trans (f_equal2 (overC eps) (eq_sym (norm_frob2_C m M N H3)) (eq_sym (norm_frob2_C (of_fun Cc M N A) M N (of_fun_wf Cc M N A)))) H6). }
      rewrite !frob2_C in H7. unfold overC in H7. cbn [fst] in H7.
      assert (EA : rsum M (fun i => rsum N (fun j => Cmod (me (of_fun Cc M N A) i j) * Cmod (me (of_fun Cc M N A) i j))) = rsum M (fun i => rsum N (fun j => Cmod (A i j) * Cmod (A i j)))).
      { apply rsum_ext. intros i Hi. apply rsum_ext. intros j Hj. rewrite of_fun_me by assumption. reflexivity. }
      assert (EE : rsum M (fun i => rsum N (fun j => Cmod (me (K := Cc) m i j) * Cmod (me (K := Cc) m i j))) = rsum M (fun i => rsum N (fun j => Cmod (error_of (K := Cc) L A i j) * Cmod (error_of (K := Cc) L A i j)))).
      { apply rsum_ext. intros i Hi. apply rsum_ext. intros j Hj. exact (f_equal (fun z => Cmod z * Cmod z) (H4 i j Hi Hj)). }
      apply overR_false.
      + apply (frobR_nonneg M N (fun i j => Cmod (A i j))).
      + intros Z. exfalso. assert (r <= 0)%Z; [|lia]. apply (full_zero Cn (overC eps) (tol, 0) A M N req r L); [exact HP|exact H5| | |exact E].
        * change (Rltb (sqrt (0 * 0 + 0 * 0)) tol = true). rewrite Rmult_0_l, Rplus_0_l, sqrt_0. destruct (Rltb_spec 0 tol); [reflexivity|lra].
        * intros i j Hi Hj. pose proof (rsum2_zero M N (fun i j => Cmod (A i j)) Z i j Hi Hj) as Q. cbn in Q.
          pose proof (Cmod_sq (A i j)) as Q2. rewrite Q in Q2. destruct (A i j) as [a b]. cbn in *. f_equal; nra.
      + rewrite <- EE, <- EA. exact H7.
    - right. right. intros i j Hi Hj. exact (Rltb_true _ _ (H5 i j Hi Hj)).
  Qed.
End C31.

(** ** C32, C48 *)
Section C32.
  Variable X : Num.
  Notation C := (car (fk (nfd X))).
  Variables (over : C -> C -> bool) (tol : C).
  Hypothesis Htol : nltb X tol (nabs X (c0 _)) = false.

  Theorem C32_partial_aca : forall (A : nat -> nat -> C) M N req, 0 < M + N ->
    exists r L, partial_aca X over tol M N A req = Some (r, L) /\ partial_outcome over tol M N A req r L true.
  Proof.
    intros A M N req HP. unfold partial_aca.
    destruct (part_start_ok X over tol false M N A Htol req HP) as (a & Ea & _). rewrite Ea. eexists _, _. split; [reflexivity|].
    apply (partial_ok X over tol false Htol M N A req HP a Ea).
  Qed.
  Theorem C32_sym_partial_aca : forall below (A : nat -> nat -> C) M N req, 0 < M + N ->
    exists r L, sym_partial_aca X over tol below M N A req = Some (r, L) /\ partial_outcome over tol M N A req r L below.
  Proof.
    intros below A M N req HP. unfold sym_partial_aca. destruct below.
    - destruct (part_start_ok X over tol true M N A Htol req HP) as (a & Ea & _). rewrite Ea. eexists _, _. split; [reflexivity|].
      apply (partial_ok X over tol true Htol M N A req HP a Ea).
    - destruct (part_start_ok X over tol true N M (fun i j => A j i) Htol req ltac:(lia)) as (a & Ea & _).
      rewrite Ea. eexists _, _. split; [reflexivity|]. apply (partial_ok_swapped X over tol true Htol M N A req HP a Ea).
  Qed.
End C32.

(** ** C48 *)
Section C48.
  Local Open Scope R_scope.
  Lemma over_ratio_false : forall eps a f, 0 <= a -> 0 < f -> over_ratioR eps a f = false -> sqrt a <= eps * sqrt f.
  Proof.
    intros eps a f Ha Hf H. unfold over_ratioR in H. destruct (Req_EM_T f 0); [lra|]. destruct (Rltb_spec eps (sqrt (a / f))); [discriminate|].
    rewrite sqrt_div_alt in n0 by exact Hf. assert (0 < sqrt f) by (apply sqrt_lt_R0; exact Hf).
    assert (Q : sqrt a / sqrt f <= eps) by lra. apply (Rmult_le_compat_r (sqrt f)) in Q; [|lra].
    replace (sqrt a / sqrt f * sqrt f) with (sqrt a) in Q by (field; lra). exact Q.
  Qed.
  Lemma frobR_pos : forall M N (f : nat -> nat -> R) i j, (i < M)%nat -> (j < N)%nat -> f i j <> 0 -> 0 < rsum M (fun i => rsum N (fun j => f i j * f i j)).
  Proof.
    intros M N f i j Hi Hj H. destruct (Rle_lt_or_eq_dec _ _ (frobR_nonneg M N f)) as [G|G]; [exact G|]. exfalso. apply H.
    apply (rsum2_zero M N f); auto.
  Qed.

  (** The stopping test of the automatic rank: the last cross is below epsilon times the whole approximation, in
      Frobenius norm, unless a row where the error is nowhere above 1e-15 was met. *)
  Theorem C48_estimator_real : forall eps tol (A : nat -> nat -> R) M N r L, (0 < M + N)%nat -> 0 <= tol ->
    partial_aca Rn (over_ratioR eps) tol M N A (-1) = Some (r, L) -> (0 < r)%Z ->
    normR M N (last_term (X := Rn) L) <= eps * normR M N (lr_entry (K := Rc) L) \/
    exists i, (i < M)%nat /\ forall j, (j < N)%nat -> Rabs (error_of (K := Rc) L A i j) <= tol.
  Proof.
    intros eps tol A M N r L HP Ht E Hr.
    destruct (C32_partial_aca Rn (over_ratioR eps) tol) with (A := A) (M := M) (N := N) (req := (-1)%Z) as (r' & L' & E' & O).
    { cbn. rewrite Rabs_R0. destruct (Rltb_spec tol 0); [lra|reflexivity]. } { exact HP. }
    rewrite E in E'. injection E' as <- <-. destruct O as [[O _]|(_ & _ & _ & (a & b & Ha & Hb & Hn) & rows & cols & _ & _ & _ & _ & _ & O)]; [lia|].
    destruct O as [[O _]|[[_ O]|O]]; [lia| |].
    - left. apply over_ratio_false; [apply frobR_nonneg|apply (frobR_pos M N _ a b Ha Hb Hn)|exact (O R_estimator)].
    - right. destruct (O R_laws) as (i & Hi & _ & Q). exists i. split; [exact Hi|]. intros j Hj. specialize (Q j Hj).
      change (Rltb tol (Rabs (error_of (K := Rc) L A i j)) = false) in Q. destruct (Rltb_spec tol (Rabs (error_of (K := Rc) L A i j))); [discriminate|lra].
  Qed.
  Theorem C48_estimator_complex : forall eps (tol : R) (A : nat -> nat -> R * R) M N r L, (0 < M + N)%nat -> 0 <= tol ->
    partial_aca Cn (over_ratioC eps) (tol, 0) M N A (-1) = Some (r, L) -> (0 < r)%Z ->
    normC M N (last_term (X := Cn) L) <= eps * normC M N (lr_entry (K := Cc) L) \/
    exists i, (i < M)%nat /\ forall j, (j < N)%nat -> Cmod (error_of (K := Cc) L A i j) <= tol.
  Proof.
    intros eps tol A M N r L HP Ht E Hr.
    destruct (C32_partial_aca Cn (over_ratioC eps) (tol, 0)) with (A := A) (M := M) (N := N) (req := (-1)%Z) as (r' & L' & E' & O).
    { change (Rltb tol (sqrt (0 * 0 + 0 * 0)) = false). rewrite Rmult_0_l, Rplus_0_l, sqrt_0. destruct (Rltb_spec tol 0); [lra|reflexivity]. } { exact HP. }
    rewrite E in E'. injection E' as <- <-. destruct O as [[O _]|(_ & _ & _ & (a & b & Ha & Hb & Hn) & rows & cols & _ & _ & _ & _ & _ & O)]; [lia|].
    destruct O as [[O _]|[[_ O]|O]]; [lia| |].
    - left. pose proof (O C_estimator) as O'. unfold over_ratioC in O'.
      assert (G : over_ratioR eps (rsum M (fun i => rsum N (fun j => Cmod (last_term (X := Cn) L i j) * Cmod (last_term (X := Cn) L i j))))
                    (rsum M (fun i => rsum N (fun j => Cmod (lr_entry (K := Cc) L i j) * Cmod (lr_entry (K := Cc) L i j)))) = false).
      { etransitivity; [|exact O']. f_equal; [exact (f_equal fst (eq_sym (frob2_C M N (last_term (X := Cn) L))))|exact (f_equal fst (eq_sym (frob2_C M N (lr_entry (K := Cc) L))))]. }
      apply over_ratio_false; [apply (frobR_nonneg M N (fun i j => Cmod (last_term (X := Cn) L i j)))| |exact G].
      apply (frobR_pos M N (fun i j => Cmod (lr_entry (K := Cc) L i j)) a b Ha Hb). intros Z. apply Hn.
      pose proof (Cmod_sq (lr_entry (K := Cc) L a b)) as Q2. rewrite Z in Q2. change (lr_entry (K := Cc) L a b = (0, 0)).
      destruct (lr_entry (K := Cc) L a b) as [x y]. cbn in Q2. f_equal; nra.
    - right. destruct (O C_laws) as (i & Hi & _ & Q). exists i. split; [exact Hi|]. intros j Hj. specialize (Q j Hj).
      change (Rltb tol (Cmod (error_of (K := Cc) L A i j)) = false) in Q. destruct (Rltb_spec tol (Cmod (error_of (K := Cc) L A i j))); [discriminate|lra].
  Qed.
End C48.

(** ** C33 *)
Section C33.
  Variable X : Num.
  Notation K := (fk (nfd X)).
  Notation C := (car K).
  Variable gen : nat -> nat -> C.
  Definition block_of (t s : ctree) (i j : nat) : C := gen (c_off t + i) (c_off s + j).

  (** The factors of a block come from one of the generators, with the automatic rank (m_reqrank = -1). *)
  Inductive automatic (t s : ctree) (L : lrm K) : Prop :=
  | auto_svd : forall small d, svd_generator X small (c_size t) (c_size s) d (-1) = Some L -> automatic t s L
  | auto_full : forall over tol r, full_aca X over tol (c_size t) (c_size s) (block_of t s) (-1) = Some (r, L) -> automatic t s L
  | auto_partial : forall over tol r, nltb X tol (nabs X (c0 K)) = false ->
      partial_aca X over tol (c_size t) (c_size s) (block_of t s) (-1) = Some (r, L) -> automatic t s L
  | auto_sym_partial : forall over tol below r, nltb X tol (nabs X (c0 K)) = false ->
      sym_partial_aca X over tol below (c_size t) (c_size s) (block_of t s) (-1) = Some (r, L) -> automatic t s L.

  Lemma automatic_cost : forall t s L, automatic t s L -> lrank L * (c_size t + c_size s) <= c_size t * c_size s.
  Proof.
    intros t s L H. destruct (Nat.eq_dec (c_size t + c_size s) 0) as [Z|Z]; [rewrite Z; nia|]. destruct H as [small d E|over tol r E|over tol r Ht E|over tol below r Ht E].
    - eapply svd_cost. exact E.
    - eapply full_cost. exact E.
    - unfold partial_aca in E. destruct (partial_start _ _ _ _ _ _ _ _ _) as [a|] eqn:Ea; [|discriminate]. injection E as <- <-.
      destruct (partial_ok X over tol false Ht (c_size t) (c_size s) (block_of t s) (-1) ltac:(lia) a Ea) as [[H _]|(_ & _ & H & _)]; [|exact H]. rewrite fill_gave_up by exact H. cbn. lia.
    - unfold sym_partial_aca in E. destruct below.
      + destruct (partial_start _ _ _ _ _ _ _ _ _) as [a|] eqn:Ea; [|discriminate]. injection E as <- <-.
        destruct (partial_ok X over tol true Ht (c_size t) (c_size s) (block_of t s) (-1) ltac:(lia) a Ea) as [[H _]|(_ & _ & H & _)]; [|exact H]. rewrite fill_gave_up by exact H. cbn. lia.
      + destruct (partial_start _ _ _ _ _ _ _ _ _) as [a|] eqn:Ea; [|discriminate]. injection E as <- <-.
        destruct (partial_ok_swapped X over tol true Ht (c_size t) (c_size s) (block_of t s) (-1) ltac:(lia) a Ea) as [[H _]|(_ & _ & H & _)]; [|exact H]. rewrite fill_gave_up by exact H. cbn. lia.
  Qed.

  (** Every block of the hierarchical matrix that the builder returns: low-rank factors cost no more than the dense
      block, and a dense block (also one whose compression was given up) holds the entries of the generator. *)
  Theorem C33_cost_of_blocks : forall sy B compress fuel t s h, (forall t s, automatic t s (compress t s)) ->
    hbuild K sy B gen compress fuel t s = Some h ->
    forall n, In n (preorder h) ->
      match h_data (rt_val n) with
      | DLow L => mr (lU L) = c_size (h_t (rt_val n)) /\ mc (lV L) = c_size (h_s (rt_val n)) /\
                  lrank L * (c_size (h_t (rt_val n)) + c_size (h_s (rt_val n))) <= c_size (h_t (rt_val n)) * c_size (h_s (rt_val n))
      | DDense D => forall i j, i < c_size (h_t (rt_val n)) -> j < c_size (h_s (rt_val n)) -> me D i j = block_of (h_t (rt_val n)) (h_s (rt_val n)) i j
      | DNone => True
      end.
  Proof.
    intros sy B compress fuel t s h Hc E n Hn. unfold hbuild in E. destruct (build_root B fuel t s) as [b|]; [|discriminate]. injection E as <-.
    rewrite hfill_pre in Hn. apply in_map_iff in Hn. destruct Hn as ([i cs] & <- & _). cbn [hfill rt_val h_data h_t h_s]. unfold block_data.
    assert (D : forall a c, a < c_size (b_t i) -> c < c_size (b_s i) -> me (dense_data K gen (b_t i) (b_s i)) a c = block_of (b_t i) (b_s i) a c).
    { intros a c Ha Hb. unfold dense_data. rewrite of_fun_me by assumption. reflexivity. }
    destruct (b_task i) as [[|]|]; [|exact D|exact I]. destruct (_ && _) eqn:Es; [|exact D].
    apply andb_true_iff in Es. destruct Es as [E1 E2]. apply Nat.eqb_eq in E1, E2. split; [exact E1|]. split; [exact E2|]. apply automatic_cost, Hc.
  Qed.
End C33.

(** ** Examples *)
Section Examples.
  Import Qcanon.
  Definition qn (z : Z) : Qc := Q2Qc (QArith_base.inject_Z z).
  (** A 4 x 4 block of rank 2: 1 + i j. *)
  Definition exA (i j : nat) : car Qcc := qn (1 + Z.of_nat i * Z.of_nat j).
  Definition tolQ : car Qcc := Q2Qc (QArith_base.Qmake 1 1000000).
  (** Stop when the residual, the last cross, vanishes. *)
  Definition overQ (n n0 : car Qcc) : bool := negb (Qc_eq_bool n 0%Qc).
  Definition no_error (L : lrm Qcc) (A : nat -> nat -> car Qcc) (M N : nat) : bool :=
    forallb (fun i => forallb (fun j => Qc_eq_bool (error_of L A i j) 0%Qc) (seq 0 N)) (seq 0 M).

  Lemma Q_laws : abs_laws Qn.
  Proof.
    constructor; cbn; unfold Qc_ltb.
    - intros a b. destruct (Qclt_le_dec a b) as [H|H]; [|discriminate]. destruct (Qclt_le_dec b a) as [G|G]; [|reflexivity].
      intros _. exfalso. apply (Qclt_not_le _ _ H), Qclt_le_weak, G.
    - intros a b c. destruct (Qclt_le_dec a c) as [H|H]; [|discriminate]. intros _. destruct (Qclt_le_dec a b) as [G|G]; [left; reflexivity|right].
      destruct (Qclt_le_dec b c) as [D|D]; [reflexivity|]. exfalso. apply (Qclt_not_le _ _ H), (Qcle_trans _ _ _ D G).
    - intros x. unfold Qc_abs. destruct (Qclt_le_dec x 0) as [H|H].
      + destruct (Qclt_le_dec (- x) 0) as [G|G]; [|reflexivity]. exfalso. apply (Qclt_not_le _ _ H). apply Qcopp_le_compat in G || idtac.
        apply Qclt_le_weak in G. apply Qcopp_le_compat in G. rewrite Qcopp_involutive in G. exact G.
      + destruct (Qclt_le_dec x 0) as [G|G]; [|reflexivity]. exfalso. apply (Qclt_not_le _ _ G H).
  Qed.
  Example ex_tol : nltb Qn tolQ (nabs Qn (c0 _)) = false.
  Proof. vm_compute. reflexivity. Qed.
  (** Reflection of the examples to one boolean, so that the kernel reads back nothing large. *)
  Definition run_check {A} (r : option (Z * A)) (z : Z) (p : A -> bool) : bool :=
    match r with Some (q, L) => (q =? z)%Z && p L | None => false end.
  Lemma run_checked {A} (r : option (Z * A)) z p : run_check r z p = true -> exists L, r = Some (z, L) /\ p L = true.
  Proof. destruct r as [[q L]|]; [|discriminate]. cbn. intros H. apply andb_prop in H. destruct H as (H1 & H2). apply Z.eqb_eq in H1. subst q. exists L. split; [reflexivity|exact H2]. Qed.
  Definition gave_up_b (L : lrm Qcc) : bool := (mr (lU L) =? 0)%nat && (mc (lV L) =? 0)%nat.
  Lemma gave_up_checked r : run_check r (-1) gave_up_b = true -> exists L, r = Some ((-1)%Z, L) /\ gave_up L.
  Proof.
    intros H. destruct (run_checked _ _ _ H) as (L & E & G). exists L. split; [exact E|]. apply andb_prop in G. destruct G as (G1 & G2).
    split; apply Nat.eqb_eq; assumption.
  Qed.
  Example ex_full : exists L, full_aca Qn overQ tolQ 4 4 exA (-1) = Some (2%Z, L) /\ no_error L exA 4 4 = true.
  Proof. apply (run_checked _ _ (fun L => no_error L exA 4 4)). vm_compute. reflexivity. Qed.
  (** With the requested rank 1 a residual remains. *)
  Example ex_full_1 : exists L, full_aca Qn overQ tolQ 4 4 exA 1 = Some (1%Z, L) /\ negb (no_error L exA 4 4) = true.
  Proof. apply (run_checked _ _ (fun L => negb (no_error L exA 4 4))). vm_compute. reflexivity. Qed.
  Example ex_partial : exists L, partial_aca Qn overQ tolQ 6 6 exA (-1) = Some (2%Z, L) /\ no_error L exA 6 6 = true.
  Proof. apply (run_checked _ _ (fun L => no_error L exA 6 6)). vm_compute. reflexivity. Qed.
  Example ex_sym_partial : exists L, sym_partial_aca Qn overQ tolQ false 6 6 exA (-1) = Some (2%Z, L) /\ no_error L exA 6 6 = true.
  Proof. apply (run_checked _ _ (fun L => no_error L exA 6 6)). vm_compute. reflexivity. Qed.
  (** A block on which compression does not pay: 3 x 3, rank 2. *)
  Example ex_gave_up : exists L, full_aca Qn overQ tolQ 3 3 exA (-1) = Some ((-1)%Z, L) /\ gave_up L.
  Proof. apply gave_up_checked. vm_compute. reflexivity. Qed.
  (** The first row is zero: ACA with partial pivoting gives up although the block has rank 1. *)
  Example ex_zero_row : exists L, partial_aca Qn overQ tolQ 4 4 (fun i j => qn (Z.of_nat i)) (-1) = Some ((-1)%Z, L) /\ gave_up L.
  Proof. apply gave_up_checked. vm_compute. reflexivity. Qed.
  (** A row where the residual vanishes stops it although the error on other rows is large: a tolerance on the result
      cannot be proved for partial pivoting. *)
  Definition exB (i j : nat) : car Qcc := if i <? 2 then qn 1 else if j <? 3 then qn 1 else 0%Qc.
  Theorem C32_no_tolerance : exists L, partial_aca Qn overQ tolQ 4 4 exB (-1) = Some (1%Z, L) /\ error_of L exB 2 0 = qn 1.
  Proof.
    destruct (run_checked (partial_aca Qn overQ tolQ 4 4 exB (-1)) 1 (fun L => Qc_eq_bool (error_of L exB 2 0) (qn 1))) as (L & E & G).
    - vm_compute. reflexivity.
    - exists L. split; [exact E|]. apply Qc_eq_bool_correct, G.
  Qed.
End Examples.

Section ExampleR.
  Local Open Scope R_scope.
  Example ex_truncation : svd_truncation Rn (smallR (1/2)) [3; 1] = Some 1%nat.
  Proof.
    destruct (C30_svd_truncation [3; 1] (1/2)) as (r & E & R1 & _ & R3); [discriminate|unfold rsum; cbn; lra|]. rewrite E. f_equal.
    cbn in R1. assert (r = 1 \/ r = 2)%nat as [->| ->] by lia; [reflexivity|]. exfalso. specialize (R3 1%nat ltac:(lia)). revert R3.
    unfold dropped, rsum. cbn [length Nat.sub sum Rc cadd c0 nth Nat.add fk]. intros R3.
    replace (0 + 1 * 1) with 1 in R3 by ring. rewrite sqrt_1 in R3. replace (0 + 3 * 3 + 1 * 1) with 10 in R3 by ring.
    assert (3 <= sqrt 10) by (rewrite <- (sqrt_square 3) by lra; apply sqrt_le_1_alt; lra).
    assert (1 / sqrt 10 <= 1 / 3) by (unfold Rdiv; rewrite !Rmult_1_l; apply Rinv_le_contravar; lra). lra.
  Qed.
  (** The hypotheses of C30_svd_generator_real hold for the SVD of the 1 x 1 block 5. *)
  Example ex_svd : is_svd (X := Rn) (@mkMat Rc 1 1 [1]) [5] (@mkMat Rc 1 1 [1]) 1 1 (fun _ _ => 5) /\ 0 < normR 1 1 (fun _ _ => 5).
  Proof.
    split.
    - constructor; try reflexivity.
      + intros k l Hk Hl. assert (k = 0 /\ l = 0)%nat as [-> ->] by lia. cbn. ring.
      + intros k l Hk Hl. assert (k = 0 /\ l = 0)%nat as [-> ->] by lia. cbn. ring.
      + intros i j Hi Hj. assert (i = 0 /\ j = 0)%nat as [-> ->] by lia. cbn. ring.
    - unfold normR, rsum. cbn. apply sqrt_lt_R0. lra.
  Qed.
End ExampleR.

Print Assumptions C30_svd_truncation.
Print Assumptions C30_svd_generator_real.
Print Assumptions C31_full_aca.
Print Assumptions C31_full_aca_real.
Print Assumptions C31_full_aca_complex.
Print Assumptions C32_partial_aca.
Print Assumptions C32_sym_partial_aca.
Print Assumptions C33_cost_of_blocks.
Print Assumptions C48_estimator_real.
Print Assumptions C48_estimator_complex.
