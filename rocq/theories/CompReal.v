(** * The compression with real and complex numbers: laws of the modulus, norms. *)

From Coq Require Import List Arith ZArith Bool Lia Ring Reals Lra.
From Verif Require Import Algebra BlasModel HMatModel HMatSpec Field RealNum CompModel CompSpec CompPartial CompSVD.
Import ListNotations.
Local Open Scope R_scope.

(** Sum of n real numbers. *)
Definition rsum (n : nat) (f : nat -> R) : R := @sum Rc n f.
Lemma rsum_nonneg : forall n f, (forall i, (i < n)%nat -> 0 <= f i) -> 0 <= rsum n f.
Proof.
  induction n as [|n IH]; intros f H; cbn; [lra|]. assert (0 <= rsum n f) by (apply IH; auto with arith). specialize (H n ltac:(lia)). unfold rsum in *. lra.
Qed.
Lemma rsum_ext : forall n f g, (forall i, (i < n)%nat -> f i = g i) -> rsum n f = rsum n g.
Proof. intros n f g H. exact (sum_ext Rc n f g H). Qed.
Lemma rsum_mono : forall n m f, (forall i, 0 <= f i) -> (n <= m)%nat -> rsum n f <= rsum m f.
Proof.
  intros n m f H Hn. replace m with (n + (m - n))%nat by lia. unfold rsum at 2. rewrite sum_split. cbn.
  assert (0 <= rsum (m - n) (fun i => f (n + i)%nat)) by (apply rsum_nonneg; auto). unfold rsum in *. lra.
Qed.

(** Frobenius norms of an M x N matrix of real, of complex numbers. *)
Definition normR (M N : nat) (f : nat -> nat -> R) : R := sqrt (rsum M (fun i => rsum N (fun j => f i j * f i j))).
Definition normC (M N : nat) (f : nat -> nat -> R * R) : R := sqrt (rsum M (fun i => rsum N (fun j => Cmod (f i j) * Cmod (f i j)))).

(** The tests of the code: sqrt(n) / sqrt(n0) > epsilon, sqrt(e) / sqrt(n) < epsilon, sqrt(a / f) > epsilon; a
    comparison with a NaN is false. *)
Definition overR (eps n n0 : R) : bool := if Req_EM_T n0 0 then false else Rltb eps (sqrt n / sqrt n0).
Definition smallR (eps e n : R) : bool := if Req_EM_T n 0 then false else Rltb (sqrt e / sqrt n) eps.
Definition over_ratioR (eps a f : R) : bool := if Req_EM_T f 0 then false else Rltb eps (sqrt (a / f)).
Definition overC (eps : R) (n n0 : R * R) : bool := overR eps (fst n) (fst n0).
Definition smallC (eps : R) (e n : R * R) : bool := smallR eps (fst e) (fst n).
Definition over_ratioC (eps : R) (a f : R * R) : bool := over_ratioR eps (fst a) (fst f).

Lemma R_laws : abs_laws Rn.
Proof.
  constructor; cbn.
  - intros a b H. destruct (Rltb_spec a b); [|discriminate]. destruct (Rltb_spec b a); [lra|reflexivity].
  - intros a b c H. destruct (Rltb_spec a c); [|discriminate]. destruct (Rltb_spec a b); [left; reflexivity|]. right. destruct (Rltb_spec b c); [reflexivity|lra].
  - intros x. destruct (Rltb_spec (Rabs x) 0); [|reflexivity]. pose proof (Rabs_pos x). lra.
Qed.
Lemma C_laws : abs_laws Cn.
Proof.
  constructor; cbn; unfold Cltb.
  - intros a b H. destruct (Rltb_spec (fst a) (fst b)); [|discriminate]. destruct (Rltb_spec (fst b) (fst a)); [lra|reflexivity].
  - intros a b c H. destruct (Rltb_spec (fst a) (fst c)); [|discriminate]. destruct (Rltb_spec (fst a) (fst b)); [left; reflexivity|]. right.
    destruct (Rltb_spec (fst b) (fst c)); [reflexivity|lra].
  - intros x. cbn. destruct (Rltb_spec (Cmod x) 0); [|reflexivity]. pose proof (sqrt_pos (fst x * fst x + snd x * snd x)). unfold Cmod in *. lra.
Qed.
Lemma Cmod_sq : forall x, Cmod x * Cmod x = fst x * fst x + snd x * snd x.
Proof. intros x. unfold Cmod. apply sqrt_sqrt. nra. Qed.
Lemma Csum : forall n (f : nat -> R * R), @sum Cc n f = (rsum n (fun i => fst (f i)), rsum n (fun i => snd (f i))).
Proof. induction n as [|n IH]; intros f; cbn; [reflexivity|]. rewrite IH. reflexivity. Qed.
Lemma Cconj_mul : forall x, Cmul x (Cconj x) = (Cmod x * Cmod x, 0).
Proof. intros x. rewrite Cmod_sq. destruct x as [a b]. unfold Cmul, Cconj. cbn. f_equal; ring. Qed.
Lemma rsum_0 : forall n, rsum n (fun _ => 0) = 0.
Proof. intros n. apply (@sum_0 Rc). reflexivity. Qed.

Lemma frob2_R : forall M N f, frob2 Rc M N f = rsum M (fun i => rsum N (fun j => f i j * f i j)).
Proof. reflexivity. Qed.
Lemma frob2_C : forall M N f, frob2 Cc M N f = (rsum M (fun i => rsum N (fun j => Cmod (f i j) * Cmod (f i j))), 0).
Proof.
  intros M N f. unfold frob2. rewrite Csum. f_equal.
  - apply rsum_ext. intros i Hi. rewrite Csum. cbn [fst]. apply rsum_ext. intros j Hj. cbn [cmul Cc cconj]. rewrite Cconj_mul. reflexivity.
  - transitivity (rsum M (fun _ => 0)); [|apply rsum_0]. apply rsum_ext. intros i Hi. rewrite Csum. cbn [snd].
    transitivity (rsum N (fun _ => 0)); [|apply rsum_0]. apply rsum_ext. intros j Hj. cbn [cmul Cc cconj]. rewrite Cconj_mul. reflexivity.
Qed.
Lemma frobR_nonneg : forall M N f, 0 <= rsum M (fun i => rsum N (fun j => f i j * f i j)).
Proof. intros. apply rsum_nonneg. intros. apply rsum_nonneg. intros. nra. Qed.

Lemma R_estimator : estimator_laws Rn.
Proof.
  split.
  - intros n f. cbn. apply Rabs_right. assert (0 <= rsum n (fun i => f i * f i)) by (apply rsum_nonneg; intros; nra). unfold rsum in *. cbn in *. lra.
  - intros x. cbn. lra.
Qed.
Lemma C_estimator : estimator_laws Cn.
Proof.
  split.
  - intros n f. cbn [nfd Cn fk Cf]. rewrite Csum. cbn [cmul cconj Cc].
    assert (E : forall i, Cmul (Cconj (f i)) (f i) = (Cmod (f i) * Cmod (f i), 0)).
    { intros i. rewrite Cmod_sq. destruct (f i) as [a b]. unfold Cmul, Cconj. cbn. f_equal; ring. }
    rewrite (rsum_ext n (fun i => fst (Cmul (Cconj (f i)) (f i))) (fun i => Cmod (f i) * Cmod (f i))) by (intros; rewrite E; reflexivity).
    rewrite (rsum_ext n (fun i => snd (Cmul (Cconj (f i)) (f i))) (fun i => 0)) by (intros; rewrite E; reflexivity).
    rewrite rsum_0. cbn [nabs Cn]. unfold Cabs. f_equal. unfold Cmod at 1. cbn [fst snd].
    set (s := rsum n (fun i => Cmod (f i) * Cmod (f i))).
    assert (0 <= s) by (apply rsum_nonneg; intros; nra). replace (s * s + 0 * 0) with (s * s) by ring. apply sqrt_square. assumption.
  - intros [a b]. cbn. unfold Cadd, Cre, Cconj. cbn. f_equal; lra.
Qed.

(** norm_frob2 of the model is the square of the Frobenius norm. *)
Lemma fold_prod_sum : forall (K : Coef) (g : nat -> nat -> car K) M N,
  fold_left (fun a jk => cadd K a (g (fst jk) (snd jk))) (list_prod (seq 0 M) (seq 0 N)) (c0 K) = sum M (fun i => sum N (fun j => g i j)).
Proof.
  intros K g M N. pose proof (c_ring K) as RT.
  assert (G : forall (l : list (nat * nat)) a, fold_left (fun a jk => cadd K a (g (fst jk) (snd jk))) l a = cadd K a (lsum l (fun jk => g (fst jk) (snd jk)))).
  { induction l as [|x l IH]; intros a; cbn; [rewrite (Radd_comm RT), (Radd_0_l RT); reflexivity|]. rewrite IH, (Radd_assoc RT). reflexivity. }
  rewrite G, (Radd_0_l RT). rewrite sum_lsum.
  assert (H : forall l1 l2, lsum (list_prod l1 l2) (fun jk => g (fst jk) (snd jk)) = lsum l1 (fun i => lsum l2 (fun j => g i j))).
  { induction l1 as [|x l1 IH]; intros l2; cbn; [reflexivity|]. rewrite lsum_app, lsum_map, IH. reflexivity. }
  rewrite H. apply lsum_ext. intros i _. symmetry. apply sum_lsum.
Qed.
Lemma norm_frob2_R : forall m M N, wf_mat (K := Rc) m M N -> norm_frob2 Rn m = frob2 Rc M N (me m).
Proof.
  intros [r c dd] M N (H1 & H2 & _). cbn in H1, H2. subst r c. unfold norm_frob2. cbn [mr mc].
  set (m := @mkMat _ M N dd).
  etransitivity; [exact (fold_prod_sum Rc (fun i j => sq Rn (Rabs (me (K := Rc) m i j))) M N)|]. unfold frob2. apply sum_ext. intros i Hi. apply sum_ext. intros j Hj.
  unfold sq. cbn. rewrite <- Rabs_mult. apply Rabs_right. nra.
Qed.
Lemma norm_frob2_C : forall m M N, wf_mat (K := Cc) m M N -> norm_frob2 Cn m = frob2 Cc M N (me m).
Proof.
  intros [r c dd] M N (H1 & H2 & _). cbn in H1, H2. subst r c. unfold norm_frob2. cbn [mr mc].
  set (m := @mkMat _ M N dd).
  etransitivity; [exact (fold_prod_sum Cc (fun i j => sq Cn (Cabs (me (K := Cc) m i j))) M N)|]. unfold frob2. apply sum_ext. intros i Hi. apply sum_ext. intros j Hj.
  unfold sq. cbn [cmul fk nfd Cn Cf Cc cconj]. rewrite Cconj_mul. unfold Cabs, Cmul. cbn. f_equal; ring.
Qed.

Lemma overR_false : forall eps n n0, 0 <= n0 -> (n0 = 0 -> n = 0) -> overR eps n n0 = false -> sqrt n <= eps * sqrt n0.
Proof.
  intros eps n n0 Hn0 Hz H. unfold overR in H. destruct (Req_EM_T n0 0) as [E|E].
  - rewrite (Hz E), E, sqrt_0. lra.
  - destruct (Rltb_spec eps (sqrt n / sqrt n0)); [discriminate|]. assert (0 < sqrt n0) by (apply sqrt_lt_R0; lra).
    assert (L : sqrt n / sqrt n0 <= eps) by lra. apply (Rmult_le_compat_r (sqrt n0)) in L; [|lra].
    replace (sqrt n / sqrt n0 * sqrt n0) with (sqrt n) in L by (field; lra). exact L.
Qed.

Lemma rsum_zero : forall n f, (forall i, 0 <= f i) -> rsum n f = 0 -> forall i, (i < n)%nat -> f i = 0.
Proof.
  induction n as [|n IH]; intros f H E i Hi; [lia|]. unfold rsum in E. cbn in E. assert (0 <= rsum n f) by (apply rsum_nonneg; auto). pose proof (H n).
  unfold rsum in *. assert (@sum Rc n f = 0) by lra. destruct (Nat.eq_dec i n) as [->|NE]; [lra|]. apply IH; [exact H|assumption|lia].
Qed.
Lemma rsum2_zero : forall M N (f : nat -> nat -> R), rsum M (fun i => rsum N (fun j => f i j * f i j)) = 0 -> forall i j, (i < M)%nat -> (j < N)%nat -> f i j = 0.
Proof.
  intros M N f E i j Hi Hj. assert (f i j * f i j = 0); [|nra].
  apply (rsum_zero N (fun j => f i j * f i j)); [intros; nra| |exact Hj].
  apply (rsum_zero M (fun i => rsum N (fun j => f i j * f i j))); [intros; apply rsum_nonneg; intros; nra|exact E|exact Hi].
Qed.
