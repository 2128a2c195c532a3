(** * Recompression of low-rank matrices: C63. *)

From Coq Require Import List Arith ZArith Bool Lia Ring Reals Lra.
From Verif Require Import ClusterModel ClusterSpec IOModel IOSpec BlockModel Algebra BlasModel BlasProofs HMatModel HMatSpec HMatProofs HMatBuild Field RealNum DistModel ArithModel ArithSpec CompModel CompSpec CompPartial
  CompSVD CompReal RecompModel RecompSpec RecompProofs P_Comp.
From Verif Require ArithDest P_Arith.
Import ListNotations.

(** std::sqrt of a singular value, as a complex number. *)
Definition sqrtC (x : R * R) : R * R := (sqrt (fst x), 0%R).

Section C63.
  Local Open Scope R_scope.

  Lemma smallR_true : forall eps e n, 0 <= n -> smallR eps e n = true -> sqrt e <= eps * sqrt n.
  Proof.
    intros eps e n Hn H. unfold smallR in H. destruct (Req_EM_T n 0) as [E|E]; [discriminate|]. apply Rltb_true in H.
    assert (P : 0 < sqrt n) by (apply sqrt_lt_R0; lra). apply (Rmult_lt_compat_r (sqrt n)) in H; [|exact P].
    replace (sqrt e / sqrt n * sqrt n) with (sqrt e) in H by (field; lra). lra.
  Qed.
  Lemma smallR_false : forall eps e n, 0 < n -> smallR eps e n = false -> eps * sqrt n <= sqrt e.
  Proof.
    intros eps e n Hn H. unfold smallR in H. destruct (Req_EM_T n 0) as [E|E]; [lra|]. destruct (Rltb_spec (sqrt e / sqrt n) eps) as [L|L]; [discriminate|].
    assert (P : 0 < sqrt n) by (apply sqrt_lt_R0; lra). assert (G : eps <= sqrt e / sqrt n) by lra. apply (Rmult_le_compat_r (sqrt n)) in G; [|lra].
    replace (sqrt e / sqrt n * sqrt n) with (sqrt e) in G by (field; lra). exact G.
  Qed.
  Lemma smallR_0 : forall e n, smallR 0 e n = false.
  Proof.
    intros e n. unfold smallR. destruct (Req_EM_T n 0); [reflexivity|]. destruct (Rltb_spec (sqrt e / sqrt n) 0) as [L|L]; [|reflexivity]. exfalso.
    pose proof (sqrt_pos e). pose proof (sqrt_pos n). destruct (Req_EM_T (sqrt n) 0) as [Z|Z].
    - rewrite Z in L. unfold Rdiv in L. rewrite Rinv_0, Rmult_0_r in L. lra.
    - assert (0 <= sqrt e / sqrt n); [|lra]. apply Rmult_le_pos; [assumption|]. left. apply Rinv_0_lt_compat. lra.
  Qed.

  (** The l2 norm of the singular values from position r. *)
  Definition tail (s : list R) (r : nat) : R := sqrt (rsum (length s - r) (fun k => nth (r + k) s 0 * nth (r + k) s 0)).

  Lemma tail_mono : forall s k r, (k <= r)%nat -> tail s r <= tail s k.
  Proof.
    intros s k r H. unfold tail. apply sqrt_le_1_alt. destruct (Nat.le_gt_cases r (length s)) as [Hr|Hr].
    - replace (length s - k)%nat with ((r - k) + (length s - r))%nat by lia. unfold rsum at 2. rewrite sum_split. cbn.
      assert (A1 : 0 <= rsum (r - k) (fun i => nth (k + i) s 0 * nth (k + i) s 0)) by (apply rsum_nonneg; intros; nra).
      assert (A2 : rsum (length s - r) (fun i => nth (k + (r - k + i)) s 0 * nth (k + (r - k + i)) s 0) = rsum (length s - r) (fun i => nth (r + i) s 0 * nth (r + i) s 0)).
      { apply rsum_ext. intros i Hi. replace (k + (r - k + i))%nat with (r + i)%nat by lia. reflexivity. }
      unfold rsum in *. cbn in *. lra.
    - replace (length s - r)%nat with 0%nat by lia. cbn. apply rsum_nonneg. intros. nra.
  Qed.

  (** What a user gets from a truncation with tolerance eps of the M x N matrix A of rank at most n: factors of the right
      sizes, a rank between 1 and n, a relative error of at most eps in Frobenius norm; A = sum of n terms s_k p_k v_k with
      orthonormal p_k and v_k and s_k >= 0, of which the result keeps the first ones, as few as the tolerance permits. *)
  Definition truncated_real (eps : R) (A : nat -> nat -> R) (M N n : nat) (L : lrm Rc) : Prop :=
    wf_lrm L M N /\ (1 <= lrank L <= n)%nat /\
    normR M N (error_of L A) <= eps * normR M N A /\
    exists (s : list R) (p v : nat -> nat -> R), length s = n /\ (forall k, 0 <= nth k s 0) /\
      columns_orthonormal (X := Rn) M n p /\ rows_orthonormal (X := Rn) N n v /\
      (forall i j, (i < M)%nat -> (j < N)%nat -> A i j = rsum n (fun k => p i k * nth k s 0 * v k j)) /\
      (forall i j, (i < M)%nat -> (j < N)%nat -> lr_entry L i j = rsum (lrank L) (fun k => p i k * nth k s 0 * v k j)) /\
      normR M N A = tail s 0 /\ normR M N (error_of L A) = tail s (lrank L) /\
      (0 < normR M N A -> forall k, (1 <= k < lrank L)%nat -> eps * normR M N A <= tail s k).

  Lemma outcome_real : forall eps A M N n L, 0 <= eps -> outcome Rn sqrt (smallR eps) A M N n L -> truncated_real eps A M N n L.
  Proof.
    intros eps A M N n L He (W & RK & s & p & v & S1 & _ & SQ & SP & SV & SA & SL & S3 & S4 & S5 & S6 & S7). split; [exact W|]. split; [exact RK|].
    pose proof (frobR_nonneg M N A) as NA. rewrite !tail2_R in *. change (fk (nfd Rn)) with Rc in *. change (list (car Rc)) with (list R) in s. change (car Rc) with R in *.
    set (nA := frob2 Rc M N A) in *. assert (NA' : 0 <= nA) by exact NA.
    assert (E1 : normR M N (error_of L A) = tail s (lrank L)).
    { unfold normR, tail. f_equal. rewrite S1. exact S5. }
    assert (E0 : normR M N A = tail s 0).
    { unfold normR, tail. f_equal. rewrite Nat.sub_0_r, S1. exact S6. }
    assert (EN : normR M N A = sqrt nA) by reflexivity.
    assert (SN : forall k, 0 <= nth k s 0).
    { intros k. destruct (Nat.lt_ge_cases k n) as [Hk|Hk]; [|rewrite nth_overflow by lia; lra]. specialize (SQ k Hk). change (sqrt (nth k s 0) * sqrt (nth k s 0) = nth k s 0) in SQ.
      rewrite <- SQ. apply Rmult_le_pos; apply sqrt_pos. }
    split; [|exists s, p, v; split; [exact S1|]; split; [exact SN|]; split; [exact SP|]; split; [exact SV|]; split; [exact SA|]; split; [exact SL|]; split; [exact E0|]; split; [exact E1|]].
    - destruct S3 as [S3|S3].
      + apply (Rle_trans _ _ _ (Req_le _ _ E1)). unfold tail. rewrite S1, S3, Nat.sub_diag. cbn. rewrite sqrt_0. apply Rmult_le_pos; [exact He|apply sqrt_pos].
      + apply (Rle_trans _ _ _ (Req_le _ _ E1)). rewrite EN. unfold tail. rewrite S1. rewrite S1 in S3. apply smallR_true; [exact NA'|exact S3].
    - intros P k Hk. destruct S4 as [S4|S4]; [lia|]. rewrite EN. assert (Pn : 0 < nA).
      { destruct (Rle_lt_or_eq_dec 0 nA NA') as [H|H]; [exact H|]. rewrite EN, <- H, sqrt_0 in P. lra. }
      apply smallR_false in S4; [|exact Pn]. eapply Rle_trans; [exact S4|]. apply (tail_mono s k (lrank L - 1)). lia.
  Qed.

  (** Real coefficients, any tolerance. *)
  Theorem C63_recompression_real : forall geqrf gelqf gesvd eps (L : lrm Rc) M N, 0 <= eps -> (1 <= M)%nat -> (1 <= N)%nat -> wf_lrm L M N -> (1 <= lrank L)%nat ->
    lapack_documented (X := Rn) geqrf gelqf gesvd sqrt L M N ->
    exists L', recompression Rn geqrf gelqf gesvd sqrt (smallR eps) L = Some L' /\
      truncated_real eps (lr_entry L) M N (Nat.min (lrank L) (Nat.min M N)) L'.
  Proof.
    intros geqrf gelqf gesvd eps L M N He HM HN W HR D. destruct (recompression_ok Rn sqrt (smallR eps) geqrf gelqf gesvd L M N HM HN W HR D) as (L' & E & O).
    exists L'. split; [exact E|]. apply outcome_real; assumption.
  Qed.
  (** The truncated SVD of a dense product. *)
  Theorem C63_truncated_svd_real : forall gesvd eps (A : mat Rc) M N, 0 <= eps -> (1 <= M)%nat -> (1 <= N)%nat -> wf_mat A M N ->
    svd_documented (X := Rn) gesvd sqrt M N (me A) ->
    exists L', truncated_svd Rn gesvd sqrt (smallR eps) A = Some L' /\ truncated_real eps (me A) M N (Nat.min M N) L'.
  Proof.
    intros gesvd eps A M N He HM HN W D. destruct (truncated_svd_ok Rn sqrt (smallR eps) gesvd A M N HM HN W D) as (L' & E & O).
    exists L'. split; [exact E|]. apply outcome_real; assumption.
  Qed.

  (** Complex coefficients. *)
  Definition truncated_complex (eps : R) (A : nat -> nat -> R * R) (M N n : nat) (L : lrm Cc) : Prop :=
    wf_lrm L M N /\ (1 <= lrank L <= n)%nat /\
    normC M N (error_of L A) <= eps * normC M N A /\
    exists (s : list R) (p v : nat -> nat -> R * R), length s = n /\ (forall k, 0 <= nth k s 0) /\
      columns_orthonormal (X := Cn) M n p /\ rows_orthonormal (X := Cn) N n v /\
      (forall i j, (i < M)%nat -> (j < N)%nat -> A i j = @sum Cc n (fun k => Cmul (Cmul (p i k) (nth k s 0, 0)) (v k j))) /\
      (forall i j, (i < M)%nat -> (j < N)%nat -> lr_entry L i j = @sum Cc (lrank L) (fun k => Cmul (Cmul (p i k) (nth k s 0, 0)) (v k j))) /\
      normC M N A = tail s 0 /\ normC M N (error_of L A) = tail s (lrank L) /\
      (0 < normC M N A -> forall k, (1 <= k < lrank L)%nat -> eps * normC M N A <= tail s k).

  Lemma outcome_complex : forall eps A M N n L, 0 <= eps -> outcome Cn sqrtC (smallC eps) A M N n L -> truncated_complex eps A M N n L.
  Proof.
    intros eps A M N n L He (W & RK & s & p & v & S1 & SR & SQ0 & SP & SV & SA & SL & S3 & S4 & S5 & S6 & S7). split; [exact W|]. split; [exact RK|].
    change (fk (nfd Cn)) with Cc in *. change (list (car Cc)) with (list (R * R)) in s.
    assert (SZ : forall k, snd (nth k s (0, 0)) = 0).
    { intros k. specialize (SR k). unfold get in SR. cbn in SR. destruct (nth k s (0, 0)) as [a b]. unfold Cconj in SR. cbn in *. injection SR. intros. lra. }
    set (t := map fst s). assert (Lt : length t = n) by (unfold t; rewrite map_length; exact S1).
    assert (Nt : forall k, nth k t 0 = fst (nth k s (0, 0))) by (intros k; unfold t; change 0 with (fst (0, 0)); apply map_nth).
    assert (SQ : forall m o, @sum Cc m (fun k => Cmul (nth (o + k) s (0, 0)) (nth (o + k) s (0, 0))) = (rsum m (fun k => nth (o + k) t 0 * nth (o + k) t 0), 0)).
    { intros m o. rewrite Csum. apply f_equal2; [apply rsum_ext|etransitivity; [apply (rsum_ext m _ (fun _ => 0))|apply rsum_0]]; intros i Hi; pose proof (SZ (o + i)%nat) as Zi; pose proof (Nt (o + i)%nat) as Ni;
        cbv beta; change (car Cc) with (R * R)%type in *; destruct (nth (o + i) s (0, 0)) as [a b]; cbn in Zi, Ni |- *; rewrite ?Ni, Zi; ring. }
    assert (T2 : forall r, tail2 Cn s r = (rsum (n - r) (fun k => nth (r + k) t 0 * nth (r + k) t 0), 0)).
    { intros r. unfold tail2. rewrite <- S1. etransitivity; [|exact (SQ (length s - r)%nat r)]. apply (sum_ext Cc). intros k Hk. unfold get.
      pose proof (SZ (r + k)%nat) as Zi. change (c0 (fk (nfd Cn))) with (0, 0). change (car (fk (nfd Cn))) with (R * R)%type. change (car Cc) with (R * R)%type in *.
      destruct (nth (r + k) s (0, 0)) as [a b]. cbn in Zi. cbn [cmul fk nfd Cn Cf Cc nabs]. unfold Cabs, Cmul. cbn [fst snd]. rewrite Cmod_sq. cbn [fst snd]. rewrite Zi. apply f_equal2; ring. }
    pose proof (frob2_C M N A) as FA. pose proof (frob2_C M N (error_of L A)) as FE.
    set (nA := rsum M (fun i => rsum N (fun j => Cmod (A i j) * Cmod (A i j)))) in *. set (nE := rsum M (fun i => rsum N (fun j => Cmod (error_of L A i j) * Cmod (error_of L A i j)))) in *.
    change (frob2 (fk (nfd Cn)) M N) with (frob2 Cc M N) in *. rewrite FA in S3, S4, S6. rewrite FE in S5. rewrite !T2 in *. unfold smallC in S3, S4. cbn [fst] in S3, S4.
    assert (NA : 0 <= nA) by (apply rsum_nonneg; intros; apply rsum_nonneg; intros; nra).
    assert (E1 : nE = rsum (n - lrank L) (fun k => nth (lrank L + k) t 0 * nth (lrank L + k) t 0)).
    { pose proof (eq_trans S5 (SQ (n - lrank L)%nat (lrank L))) as Q. injection Q. auto. }
    assert (E0 : nA = rsum n (fun k => nth k t 0 * nth k t 0)).
    { pose proof (eq_trans S6 (SQ n 0%nat)) as Q. injection Q. auto. }
    assert (N1 : normC M N (error_of L A) = tail t (lrank L)) by (unfold normC, tail; fold nE; rewrite E1, Lt; reflexivity).
    assert (N0 : normC M N A = tail t 0) by (unfold normC, tail; fold nA; rewrite E0, Lt, Nat.sub_0_r; reflexivity).
    assert (ST : forall k, nth k s (0, 0) = (nth k t 0, 0)).
    { intros k. rewrite Nt. pose proof (SZ k) as Zk. destruct (nth k s (0, 0)) as [a b]. cbn in Zk |- *. rewrite Zk. reflexivity. }
    assert (SN : forall k, 0 <= nth k t 0).
    { intros k. destruct (Nat.lt_ge_cases k n) as [Hk|Hk]; [|rewrite nth_overflow by lia; lra]. specialize (SQ0 k Hk). change (Cmul (sqrtC (nth k s (0, 0))) (sqrtC (nth k s (0, 0))) = nth k s (0, 0)) in SQ0.
      rewrite ST in SQ0. unfold sqrtC, Cmul in SQ0. cbn [fst snd] in SQ0. injection SQ0. intros _ Q. rewrite <- Q. pose proof (sqrt_pos (nth k t 0)). nra. }
    assert (SD : forall q i j, decomp Cn q p (@get Cc s) v i j = @sum Cc q (fun k => Cmul (Cmul (p i k) (nth k t 0, 0)) (v k j))).
    { intros q i j. unfold decomp. apply (sum_ext Cc). intros k Hk. rewrite <- ST. reflexivity. }
    split; [|exists t, p, v; split; [exact Lt|]; split; [exact SN|]; split; [exact SP|]; split; [exact SV|]; split; [intros i j Hi Hj; rewrite <- SD; apply SA; assumption|];
      split; [intros i j Hi Hj; rewrite <- SD; apply SL; assumption|]; split; [exact N0|]; split; [exact N1|]].
    - destruct S3 as [S3|S3].
      + rewrite N1. unfold tail. rewrite Lt, S3, Nat.sub_diag. cbn. rewrite sqrt_0. apply Rmult_le_pos; [exact He|apply sqrt_pos].
      + apply smallR_true in S3; [|exact NA]. unfold normC. fold nE nA. rewrite E1. exact S3.
    - intros P k Hk. destruct S4 as [S4|S4]; [lia|]. assert (Pn : 0 < nA).
      { destruct (Rle_lt_or_eq_dec 0 nA NA) as [H|H]; [exact H|]. unfold normC in P. fold nA in P. rewrite <- H, sqrt_0 in P. lra. }
      apply smallR_false in S4; [|exact Pn]. unfold normC. fold nA. eapply Rle_trans; [exact S4|]. eapply Rle_trans; [|apply (tail_mono t k (lrank L - 1)); lia].
      unfold tail. rewrite Lt. right. reflexivity.
  Qed.

  Theorem C63_recompression_complex : forall geqrf gelqf gesvd eps (L : lrm Cc) M N, 0 <= eps -> (1 <= M)%nat -> (1 <= N)%nat -> wf_lrm L M N -> (1 <= lrank L)%nat ->
    lapack_documented (X := Cn) geqrf gelqf gesvd sqrtC L M N ->
    exists L', recompression Cn geqrf gelqf gesvd sqrtC (smallC eps) L = Some L' /\
      truncated_complex eps (lr_entry L) M N (Nat.min (lrank L) (Nat.min M N)) L'.
  Proof.
    intros geqrf gelqf gesvd eps L M N He HM HN W HR D. destruct (recompression_ok Cn sqrtC (smallC eps) geqrf gelqf gesvd L M N HM HN W HR D) as (L' & E & O).
    exists L'. split; [exact E|]. apply outcome_complex; assumption.
  Qed.
  Theorem C63_truncated_svd_complex : forall gesvd eps (A : mat Cc) M N, 0 <= eps -> (1 <= M)%nat -> (1 <= N)%nat -> wf_mat A M N ->
    svd_documented (X := Cn) gesvd sqrtC M N (me A) ->
    exists L', truncated_svd Cn gesvd sqrtC (smallC eps) A = Some L' /\ truncated_complex eps (me A) M N (Nat.min M N) L'.
  Proof.
    intros gesvd eps A M N He HM HN W D. destruct (truncated_svd_ok Cn sqrtC (smallC eps) gesvd A M N HM HN W D) as (L' & E & O).
    exists L'. split; [exact E|]. apply outcome_complex; assumption.
  Qed.
End C63.

(** ** Tolerance 0: the truncations are exact, as assumed by the theorems on the sums and products (C24, C25, C27 to C29, C40, C54, C55, C62). *)
Section Exact.
  Variable X : Num.
  Notation K := (fk (nfd X)).
  Notation C := (car K).
  Variables (geqrf gelqf : nat -> nat -> list C -> nat -> list C * list C) (gesvd : mat K -> svd3 X) (rsqrt : C -> C) (small : C -> C -> bool).
  (** The result, the argument being left as it is if there is none. *)
  Definition recompressed (L : lrm K) : lrm K := match recompression X geqrf gelqf gesvd rsqrt small L with Some L' => L' | None => L end.
  Definition svd_truncated (A : mat K) : lrm K := match truncated_svd X gesvd rsqrt small A with Some L' => L' | None => empty_lrm X end.

  Lemma outcome_exact : forall A M N n L, (forall e m, small e m = false) -> outcome X rsqrt small A M N n L -> lr_op TrN L M N A.
  Proof.
    intros A M N n L Z (W & RK & s & p & v & _ & _ & _ & _ & _ & _ & _ & S3 & _ & _ & _ & S7). split; [exact W|]. split; [lia|]. destruct S3 as [S3|S3]; [|rewrite Z in S3; discriminate].
    intros i j Hi Hj. cbn [op_fun]. apply S7; assumption.
  Qed.
  Theorem C63_exact : (forall e m, small e m = false) ->
    (forall L M N, 1 <= M -> 1 <= N -> wf_lrm L M N -> 1 <= lrank L -> lapack_documented geqrf gelqf gesvd rsqrt L M N) ->
    exact_recompression recompressed.
  Proof.
    intros Z D L M N HM HN W HR. destruct (recompression_ok X rsqrt small geqrf gelqf gesvd L M N HM HN W HR (D L M N HM HN W HR)) as (L' & E & O).
    unfold recompressed. rewrite E. apply (outcome_exact _ _ _ _ _ Z O).
  Qed.
  Theorem C63_exact_svd : (forall e m, small e m = false) ->
    (forall A M N, 1 <= M -> 1 <= N -> wf_mat A M N -> svd_documented gesvd rsqrt M N (me A)) ->
    exact_svd svd_truncated.
  Proof.
    intros Z D A M N HM HN W. destruct (truncated_svd_ok X rsqrt small gesvd A M N HM HN W (D A M N HM HN W)) as (L' & E & O).
    unfold svd_truncated. rewrite E. apply (outcome_exact _ _ _ _ _ Z O).
  Qed.

  (** Outside the guard: a matrix of rank 0 cannot be recompressed (leading dimension 0 in gemm, no singular value). *)
  Theorem C63_rank_zero_refuted : forall L, lrank L = 0 -> recompression X geqrf gelqf gesvd rsqrt small L = None.
  Proof.
    intros L H. unfold recompression. rewrite H. cbn [Nat.ltb Nat.leb]. destruct (geqrf _ _ _ _) as [qa tq]. destruct (gelqf _ _ _ _) as [la tl].
    replace (add_matrix_matrix_product _ _ _ _ _ _ _ _) with (@None (mat K)); reflexivity.
  Qed.
End Exact.
(** The test of a tolerance 0 is always false. *)
Theorem C63_tolerance_zero : (forall e n, smallR 0 e n = false) /\ (forall e n, smallC 0 e n = false).
Proof. split; [exact smallR_0|]. intros e n. apply smallR_0. Qed.

(** ** The sum of two low-rank matrices, truncated *)
Section Sum.
  Lemma add_lrmat_shape : forall (K : Coef) (rc : lrm K -> lrm K) X Xt Xs Y Yt Ys L0,
    (contains Yt Xt && contains Ys Xs = true \/ contains Xt Yt && contains Xs Ys = true) ->
    add_lrmat_lrmat K (fun L => L) X Xt Xs Y Yt Ys = Some L0 ->
    add_lrmat_lrmat K rc X Xt Xs Y Yt Ys = Some (if lrank Y =? 0 then L0 else rc L0).
  Proof.
    intros K rc X Xt Xs Y Yt Ys L0 Hc E. unfold add_lrmat_lrmat in *. destruct (contains Yt Xt && contains Ys Xs); [|destruct (contains Xt Yt && contains Xs Ys)].
    - destruct (lrank Y =? 0); [exact E|]. destruct (copy_block K (lU Y) _ _ _ _ _ _ _) as [U1|]; [|discriminate]. destruct (copy_block K (lU X) _ _ _ _ _ _ _) as [U|]; [|discriminate].
      destruct (copy_block K (lV Y) _ _ _ _ _ _ _) as [V1|]; [|discriminate]. destruct (copy_block K (lV X) _ _ _ _ _ _ _) as [V|]; [|discriminate]. congruence.
    - destruct (lrank Y =? 0); [exact E|]. destruct (copy_block K (lU Y) _ _ _ _ _ _ _) as [U1|]; [|discriminate]. destruct (copy_block K (lU X) _ _ _ _ _ _ _) as [U|]; [|discriminate].
      destruct (copy_block K (lV Y) _ _ _ _ _ _ _) as [V1|]; [|discriminate]. destruct (copy_block K (lV X) _ _ _ _ _ _ _) as [V|]; [|discriminate]. congruence.
    - destruct Hc; discriminate.
  Qed.
  (** The entries of the sum of Y and of the part of X that falls in the block of Y, local to this block. *)
  Definition exact_sum {K : Coef} (X : lrm K) (Xt Xs : ctree) (Y : lrm K) (Yt Ys : ctree) (i j : nat) : car K :=
    cadd K (lr_entry Y i j)
      (if in_iv (c_off Yt + i) (interval Xt) && in_iv (c_off Ys + j) (interval Xs) then lr_entry X (c_off Yt + i - c_off Xt) (c_off Ys + j - c_off Xs) else c0 K).
  Lemma in_iv_local : forall (c : ctree) i, i < c_size c -> in_iv (c_off c + i) (interval c) = true.
  Proof. intros c i H. unfold in_iv, interval, c_off, c_size in *. cbn [fst snd]. rewrite andb_true_iff, Nat.leb_le, Nat.ltb_lt. lia. Qed.
  (** The factors before the truncation. *)
  Lemma sum_facts : forall (K : Coef) (X Y : lrm K) (Xt Xs Yt Ys : ctree), 1 <= c_size Yt -> 1 <= c_size Ys ->
    wf_lrm X (c_size Xt) (c_size Xs) -> wf_lrm Y (c_size Yt) (c_size Ys) ->
    (contains Yt Xt = true /\ contains Ys Xs = true) \/ (contains Xt Yt = true /\ contains Xs Ys = true) ->
    exists L0, (forall rc, add_lrmat_lrmat K rc X Xt Xs Y Yt Ys = Some (if lrank Y =? 0 then L0 else rc L0)) /\ wf_lrm L0 (c_size Yt) (c_size Ys) /\
      (1 <= lrank Y -> 1 <= lrank L0) /\ lrank L0 = lrank X + lrank Y /\
      forall i j, i < c_size Yt -> j < c_size Ys -> lr_entry L0 i j = exact_sum X Xt Xs Y Yt Ys i j.
  Proof.
    intros K X Y Xt Xs Yt Ys H1 H2 HX HY Hc.
    destruct (P_Arith.C24_low_rank_sum K (fun L => L) (ArithDest.recompress_id K) X Y Xt Xs Yt Ys H1 H2 HX HY Hc) as (L0 & E & W & V).
    assert (Hc' : contains Yt Xt && contains Ys Xs = true \/ contains Xt Yt && contains Xs Ys = true) by (rewrite !andb_true_iff; tauto).
    exists L0. split; [intros rc; apply add_lrmat_shape; assumption|]. split; [exact W|].
    assert (RK : lrank L0 = lrank X + lrank Y).
    { clear -E Hc'. unfold add_lrmat_lrmat, copy_block in E. destruct (contains Yt Xt && contains Ys Xs); [|destruct (contains Xt Yt && contains Xs Ys); [|destruct Hc'; discriminate]].
      all: destruct (Nat.eqb_spec (lrank Y) 0) as [R0|R0];
        repeat match type of E with (match (if ?b then _ else _) with _ => _ end) = _ => destruct b; cbv beta iota in E; [|discriminate E] end;
        injection E as <-; unfold lrank in *; cbn [lU of_fun zeros mc mkMat]; lia. }
    split; [intros; lia|]. split; [exact RK|]. intros i j Hi Hj. specialize (V (c_off Yt + i) (c_off Ys + j) (in_iv_local Yt i Hi) (in_iv_local Ys j Hj)).
    rewrite !Nat.add_comm with (n := c_off Yt), !Nat.add_comm with (n := c_off Ys) in V. rewrite !Nat.add_sub in V. rewrite V. unfold exact_sum.
    rewrite !(Nat.add_comm (c_off Yt)), !(Nat.add_comm (c_off Ys)). reflexivity.
  Qed.

  Local Open Scope R_scope.
  Theorem C63_sum_real : forall geqrf gelqf gesvd eps (X Y : lrm Rc) (Xt Xs Yt Ys : ctree), 0 <= eps -> (1 <= c_size Yt)%nat -> (1 <= c_size Ys)%nat ->
    wf_lrm X (c_size Xt) (c_size Xs) -> wf_lrm Y (c_size Yt) (c_size Ys) ->
    (contains Yt Xt = true /\ contains Ys Xs = true) \/ (contains Xt Yt = true /\ contains Xs Ys = true) ->
    (forall L, wf_lrm L (c_size Yt) (c_size Ys) -> (1 <= lrank L)%nat -> lapack_documented (X := Rn) geqrf gelqf gesvd sqrt L (c_size Yt) (c_size Ys)) ->
    exists L, add_lrmat_lrmat Rc (recompressed Rn geqrf gelqf gesvd sqrt (smallR eps)) X Xt Xs Y Yt Ys = Some L /\ wf_lrm L (c_size Yt) (c_size Ys) /\
      (lrank L <= lrank X + lrank Y)%nat /\
      normR (c_size Yt) (c_size Ys) (error_of L (exact_sum X Xt Xs Y Yt Ys)) <= eps * normR (c_size Yt) (c_size Ys) (exact_sum X Xt Xs Y Yt Ys).
  Proof.
    intros geqrf gelqf gesvd eps X Y Xt Xs Yt Ys He H1 H2 HX HY Hc D. destruct (sum_facts Rc X Y Xt Xs Yt Ys H1 H2 HX HY Hc) as (L0 & E & W & R1 & R2 & V).
    eexists. split; [apply E|]. destruct (Nat.eqb_spec (lrank Y) 0) as [Z|Z].
    - split; [exact W|]. split; [rewrite R2; lia|]. unfold normR at 1. rewrite (rsum_ext (c_size Yt) _ (fun _ => 0)).
      + rewrite rsum_0, sqrt_0. apply Rmult_le_pos; [exact He|apply sqrt_pos].
      + intros i Hi. rewrite <- (rsum_0 (c_size Ys)). apply rsum_ext. intros j Hj. unfold error_of. rewrite V by assumption. cbn [csub Rc]. rewrite Rminus_diag_eq by reflexivity. ring.
    - assert (RP : (1 <= lrank L0)%nat) by (apply R1; lia).
      destruct (C63_recompression_real geqrf gelqf gesvd eps L0 (c_size Yt) (c_size Ys) He H1 H2 W RP (D L0 W RP)) as (L' & E' & W' & RK & B & _).
      unfold recompressed. rewrite E'. split; [exact W'|]. split; [change (fk (nfd Rn)) with Rc in *; lia|].
      assert (N1 : normR (c_size Yt) (c_size Ys) (exact_sum X Xt Xs Y Yt Ys) = normR (c_size Yt) (c_size Ys) (lr_entry L0)).
      { unfold normR. f_equal. apply rsum_ext. intros i Hi. apply rsum_ext. intros j Hj. rewrite V by assumption. reflexivity. }
      assert (N2 : normR (c_size Yt) (c_size Ys) (error_of (K := Rc) L' (exact_sum X Xt Xs Y Yt Ys)) = normR (c_size Yt) (c_size Ys) (error_of (K := Rc) L' (lr_entry L0))).
      { unfold normR. f_equal. apply rsum_ext. intros i Hi. apply rsum_ext. intros j Hj. unfold error_of. rewrite V by assumption. reflexivity. }
      eapply Rle_trans; [right; exact N2|]. rewrite N1. exact B.
  Qed.
End Sum.

(** ** The hypotheses hold *)
Section Examples.
  Local Open Scope R_scope.
  (** U = (3, 4), V = (2, 0): geqrf stores the reflector I - 8/5 (1, 1/2) (1, 1/2)^T, which sends (-5, 0) to (3, 4). *)
  Definition exL : lrm Rc := mkLrm (@mkMat Rc 2 1 [3; 4]) (@mkMat Rc 1 2 [2; 0]).
  Definition ex_geqrf (m n : nat) (a : list R) (lda : nat) : list R * list R := ([-5; 1/2], [8/5]).
  Definition ex_gelqf (m n : nat) (a : list R) (lda : nat) : list R * list R := (a, [0]).
  Definition ex_gesvd (A : mat Rc) : svd3 Rn := mkSvd Rn (@mkMat Rc 1 1 [-1]) [10] (@mkMat Rc 1 1 [1]).
  Ltac small_index := repeat match goal with
    | H : (?i < 1)%nat |- _ => assert (i = 0%nat) by lia; subst i; clear H
    | H : (?i < 2)%nat |- _ => assert (i = 0%nat \/ i = 1%nat) as [->| ->] by lia; clear H end.
  Example ex_documented : lapack_documented (X := Rn) ex_geqrf ex_gelqf ex_gesvd sqrt exL 2 2 /\ wf_lrm exL 2 2 /\ lrank exL = 1%nat.
  Proof.
    split; [|split; [repeat split|reflexivity]]. unfold lapack_documented. cbn [lrank exL lU mc mkMat Nat.min Nat.ltb Nat.leb]. split; [|split].
    - unfold qr_documented, ex_geqrf. split; [reflexivity|]. split; [reflexivity|]. split.
      + intros k l Hk Hl. small_index; cbn; field.
      + intros i j Hi Hj. small_index; cbn; field.
    - unfold lq_documented, ex_gelqf. split; [reflexivity|]. split; [reflexivity|]. split.
      + intros k l Hk Hl. small_index; cbn; field.
      + intros i j Hi Hj. small_index; cbn; field.
    - intros A WA EA. split; [repeat split|]. split; [repeat split|]. split.
      + constructor.
        * reflexivity.
        * intros k. reflexivity.
        * intros k l Hk Hl. small_index; cbn; field.
        * intros k l Hk Hl. small_index; cbn; field.
        * intros i j Hi Hj. rewrite EA by assumption. small_index. cbn. field.
      + intros k Hk. cbn in Hk. small_index. cbn. apply sqrt_sqrt. lra.
  Qed.
  Example ex_result : exists L', recompression Rn ex_geqrf ex_gelqf ex_gesvd sqrt (smallR (1/10)) exL = Some L' /\ lrank L' = 1%nat /\ normR 2 2 (error_of L' (lr_entry exL)) <= 1/10 * normR 2 2 (lr_entry exL).
  Proof.
    destruct ex_documented as (D & W & RK).
    destruct (C63_recompression_real ex_geqrf ex_gelqf ex_gesvd (1/10) exL 2 2 ltac:(lra) ltac:(lia) ltac:(lia) W ltac:(rewrite RK; lia) D) as (L' & E & _ & R1 & R2 & _).
    exists L'. split; [exact E|]. split; [destruct R1 as [R1 R1']; apply Nat.le_antisymm; [exact R1'|exact R1]|exact R2].
  Qed.
  (** A rank that exceeds the sizes: U = (1, 2), V = (3, 4)^T, of which the product is 11. *)
  Definition exL1 : lrm Rc := mkLrm (@mkMat Rc 1 2 [1; 2]) (@mkMat Rc 2 1 [3; 4]).
  Definition ex_gesvd1 (A : mat Rc) : svd3 Rn := mkSvd Rn (@mkMat Rc 1 1 [1]) [11] (@mkMat Rc 1 1 [1]).
  Example ex_documented1 : lapack_documented (X := Rn) ex_geqrf ex_gelqf ex_gesvd1 sqrt exL1 1 1 /\ wf_lrm exL1 1 1 /\ lrank exL1 = 2%nat.
  Proof.
    split; [|split; [repeat split|reflexivity]]. unfold lapack_documented. cbn [lrank exL1 lU mc mkMat Nat.min Nat.ltb Nat.leb].
    intros A WA EA. split; [repeat split|]. split; [repeat split|]. split.
    - constructor.
      + reflexivity.
      + intros k. reflexivity.
      + intros k l Hk Hl. small_index; cbn; field.
      + intros k l Hk Hl. small_index; cbn; field.
      + intros i j Hi Hj. rewrite EA by assumption. small_index. cbn. field.
    - intros k Hk. cbn in Hk. small_index. cbn. apply sqrt_sqrt. lra.
  Qed.
  (** LAPACK on 1 x 1 matrices: documented for all the recompressions of 1 x 1 matrices, as in C63_sum_real. *)
  Definition one_qr (m n : nat) (a : list R) (lda : nat) : list R * list R := (a, [0]).
  Definition one_svd (A : mat Rc) : svd3 Rn :=
    mkSvd Rn (@mkMat Rc 1 1 [if Rlt_dec (nth 0 (md A) 0) 0 then -1 else 1]) [Rabs (nth 0 (md A) 0)] (@mkMat Rc 1 1 [1]).
  Lemma one_svd_documented : forall f, svd_documented (X := Rn) one_svd sqrt 1 1 f.
  Proof.
    intros f A WA EA. unfold one_svd. cbn [sv_u sv_vt sv_s]. split; [repeat split|]. split; [repeat split|].
    assert (E : forall x, (if Rlt_dec x 0 then -1 else 1) * Rabs x = x) by (intros x; unfold Rabs; destruct (Rlt_dec x 0); destruct (Rcase_abs x); lra).
    assert (E' : forall x, (if Rlt_dec x 0 then -1 else 1) * (if Rlt_dec x 0 then -1 else 1) = 1) by (intros x; destruct (Rlt_dec x 0); lra).
    split.
    - constructor.
      + reflexivity.
      + intros k. reflexivity.
      + intros k l Hk Hl. small_index. unfold me, get. cbn -[Rlt_dec]. rewrite E'. ring.
      + intros k l Hk Hl. small_index. cbn. ring.
      + intros i j Hi Hj. small_index. unfold me, get. cbn -[Rlt_dec Rabs]. change (car Rc) with R. rewrite E. ring.
    - intros k Hk. cbn in Hk. small_index. unfold get. cbn -[Rabs]. apply sqrt_sqrt. apply Rabs_pos.
  Qed.
  Example one_documented : forall L, wf_lrm L 1 1 -> (1 <= lrank L)%nat -> lapack_documented (X := Rn) one_qr one_qr one_svd sqrt L 1 1.
  Proof.
    intros L [(U1 & U2 & U3) (V1 & V2 & V3)] HR. unfold lapack_documented. cbn [Nat.min]. destruct (Nat.ltb_spec 1 (lrank L)) as [H|H]; [apply one_svd_documented|].
    assert (E : lrank L = 1%nat) by (apply Nat.le_antisymm; assumption). rewrite E in *. split; [|split; [|apply one_svd_documented]].
    - unfold qr_documented, one_qr. split; [exact U3|]. split; [reflexivity|]. split.
      + intros k l Hk Hl. small_index. cbn. ring.
      + intros i j Hi Hj. small_index. cbn. unfold me, get. cbn. match goal with |- ?a = ?b => change (@eq R a b) end. rewrite ?U1, ?V1. cbn. change (car Rc) with R. ring.
    - unfold lq_documented, one_qr. split; [exact V3|]. split; [reflexivity|]. split.
      + intros k l Hk Hl. small_index. cbn. ring.
      + intros i j Hi Hj. small_index. cbn. unfold me, get. cbn. match goal with |- ?a = ?b => change (@eq R a b) end. rewrite ?U1, ?V1. cbn. change (car Rc) with R. ring.
  Qed.
  (** The same as complex numbers. *)
  Definition exLc : lrm Cc := mkLrm (@mkMat Cc 1 2 [(1, 0); (2, 0)]) (@mkMat Cc 2 1 [(3, 0); (0, 4)]).
  Definition ex_gesvdc (A : mat Cc) : svd3 Cn := mkSvd Cn (@mkMat Cc 1 1 [(3 / sqrt 73, 8 / sqrt 73)]) [(sqrt 73, 0)] (@mkMat Cc 1 1 [(1, 0)]).
  Example ex_documentedc : lapack_documented (X := Cn) (fun _ _ a _ => (a, [])) (fun _ _ a _ => (a, [])) ex_gesvdc sqrtC exLc 1 1 /\ wf_lrm exLc 1 1 /\ lrank exLc = 2%nat.
  Proof.
    assert (P : 0 < sqrt 73) by (apply sqrt_lt_R0; lra). assert (Q : sqrt 73 * sqrt 73 = 73) by (apply sqrt_sqrt; lra).
    split; [|split; [repeat split|reflexivity]]. unfold lapack_documented. cbn [lrank exLc lU mc mkMat Nat.min Nat.ltb Nat.leb].
    intros A WA EA. split; [repeat split|]. split; [repeat split|]. split.
    - constructor.
      + reflexivity.
      + intros k. unfold get. destruct k as [|[|k]]; cbn; unfold Cconj; cbn; f_equal; ring.
      + intros k l Hk Hl. small_index. cbn. unfold Cadd, Cmul, Cconj. cbn. apply f_equal2; [|field; lra].
        transitivity (73 / (sqrt 73 * sqrt 73)); [field; lra|]. rewrite Q. field.
      + intros k l Hk Hl. small_index. cbn. unfold Cadd, Cmul, Cconj. cbn. apply f_equal2; ring.
      + intros i j Hi Hj. rewrite EA by assumption. small_index. cbn. unfold Cadd, Cmul. cbn. apply f_equal2; field; lra.
    - intros k Hk. cbn in Hk. small_index. cbn. unfold sqrtC, Cmul. cbn. apply f_equal2; [|ring].
      transitivity (sqrt (sqrt 73) * sqrt (sqrt 73)); [ring|]. apply sqrt_sqrt. lra.
  Qed.
End Examples.

Print Assumptions C63_recompression_real.
Print Assumptions C63_recompression_complex.
Print Assumptions C63_truncated_svd_real.
Print Assumptions C63_truncated_svd_complex.
Print Assumptions C63_exact.
Print Assumptions C63_exact_svd.
Print Assumptions C63_rank_zero_refuted.
Print Assumptions C63_tolerance_zero.
Print Assumptions C63_sum_real.
