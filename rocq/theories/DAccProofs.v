(** * Proofs: the error of a matrix from the errors of the rows of its parts. *)

From Coq Require Import List Arith ZArith Bool Lia Ring Reals Lra Permutation.
From Verif Require Import ClusterModel ClusterSpec IOModel BlockModel BlockSpec Algebra BlasModel HMatModel HMatSpec HMatBuild RealNum CompReal CompSpec
  AccSpec AccProofs DistModel DistSpec DistLink.
Import ListNotations.
Local Open Scope R_scope.

Lemma rsum_list : forall (l : list nat) (F : nat -> R), rsum (length l) (fun i => F (nth i l 0%nat)) = fold_right (fun a s => F a + s) 0 l.
Proof.
  induction l as [|a l IH]; intros F; [reflexivity|]. cbn [length fold_right]. rewrite <- IH.
  change (S (length l)) with (1 + length l)%nat. unfold rsum at 1. rewrite (sum_split Rc). cbn. unfold rsum. lra.
Qed.
Lemma fold_perm : forall (F : nat -> R) l l', Permutation l l' -> fold_right (fun a s => F a + s) 0 l = fold_right (fun a s => F a + s) 0 l'.
Proof. intros F l l' H. induction H; cbn; lra. Qed.
(** A sum over all the points does not depend on the numbering. *)
Lemma rsum_perm : forall n (l : list nat) (F : nat -> R), Permutation l (seq 0 n) -> rsum n (fun i => F (nth i l 0%nat)) = rsum n F.
Proof.
  intros n l F H. assert (L : length l = n) by (rewrite (Permutation_length H); apply seq_length).
  rewrite <- L at 1. rewrite rsum_list, (fold_perm _ _ _ H), <- rsum_list, seq_length. apply rsum_ext. intros i Hi. rewrite seq_nth by exact Hi. reflexivity.
Qed.
Lemma fnorm_perm : forall (K : Coef) md M N l l' (f : nat -> nat -> car K), Permutation l (seq 0 M) -> Permutation l' (seq 0 N) ->
  fnorm md M N (fun i j => f (nth i l 0%nat) (nth j l' 0%nat)) = fnorm md M N f.
Proof.
  intros K md M N l l' f H1 H2. unfold fnorm. f_equal.
  rewrite <- (rsum_perm M l (fun a => rsum N (fun j => md (f a j) * md (f a j))) H1). apply rsum_ext. intros i Hi.
  rewrite <- (rsum_perm N l' (fun b => md (f (nth i l 0%nat) b) * md (f (nth i l 0%nat) b)) H2). reflexivity.
Qed.

(** Minkowski's inequality for two terms. *)
Lemma two_terms : forall e1 e2 a1 a2 b1 b2, 0 <= e1 -> 0 <= e2 -> 0 <= a1 -> 0 <= a2 -> 0 <= b1 -> 0 <= b2 -> e1 <= a1 + b1 -> e2 <= a2 + b2 ->
  sqrt (e1 * e1 + e2 * e2) <= sqrt (a1 * a1 + a2 * a2) + sqrt (b1 * b1 + b2 * b2).
Proof.
  intros e1 e2 a1 a2 b1 b2 P1 P2 P3 P4 P5 P6 H1 H2. set (A := a1 * a1 + a2 * a2). set (B := b1 * b1 + b2 * b2).
  assert (PA : 0 <= A) by (unfold A; nra). assert (PB : 0 <= B) by (unfold B; nra).
  pose proof (sqrt_pos A) as SA. pose proof (sqrt_pos B) as SB. pose proof (sqrt_sqrt A PA) as QA. pose proof (sqrt_sqrt B PB) as QB.
  rewrite <- (sqrt_square (sqrt A + sqrt B)) by lra. apply sqrt_le_1; [nra|nra|].
  assert (CS : a1 * b1 + a2 * b2 <= sqrt A * sqrt B).
  { rewrite <- sqrt_mult by assumption. assert (N : 0 <= a1 * b1 + a2 * b2) by nra. rewrite <- (sqrt_square (a1 * b1 + a2 * b2)) by exact N.
    apply sqrt_le_1; [nra|apply Rmult_le_pos; assumption|]. unfold A, B. pose proof (Rle_0_sqr (a1 * b2 - a2 * b1)) as SQ. unfold Rsqr in SQ. nra. }
  assert (F1 : e1 * e1 <= (a1 + b1) * (a1 + b1)) by (apply Rmult_le_compat; assumption).
  assert (F2 : e2 * e2 <= (a2 + b2) * (a2 + b2)) by (apply Rmult_le_compat; assumption).
  unfold A, B in *. nra.
Qed.

Section Acc.
  Variable K : Coef.
  Variable md : car K -> R.
  Hypothesis MD : modulus K md.
  Notation C := (car K).

  Lemma fnorm_sq : forall M N f, fnorm md M N f * fnorm md M N f = rsum M (fun i => rsum N (fun j => md (f i j) * md (f i j))).
  Proof. intros. unfold fnorm. apply sqrt_sqrt. apply (frob_nonneg K md MD). Qed.
  Lemma fnorm_split : forall M1 M2 N (f : nat -> nat -> C), fnorm md (M1 + M2) N f =
    sqrt (fnorm md M1 N f * fnorm md M1 N f + fnorm md M2 N (fun i j => f (M1 + i)%nat j) * fnorm md M2 N (fun i j => f (M1 + i)%nat j)).
  Proof. intros. rewrite !fnorm_sq. unfold fnorm. f_equal. unfold rsum. rewrite (sum_split Rc). reflexivity. Qed.

  Lemma rows_bound : forall N (E F : nat -> nat -> C) eps tol parts lo hi, 0 <= eps -> 0 <= tol -> tiles lo hi parts ->
    (forall os, In os parts -> fnorm md (snd os) N (fun i j => E (fst os + i)%nat j) <= allowed md eps tol (snd os) N (fun i j => F (fst os + i)%nat j)) ->
    (lo <= hi)%nat /\ fnorm md (hi - lo) N (fun i j => E (lo + i)%nat j) <= allowed md eps tol (hi - lo) N (fun i j => F (lo + i)%nat j).
  Proof.
    intros N E F eps tol parts. induction parts as [|[o s] parts IH]; intros lo hi He Ht T H.
    - cbn in T. subst hi. rewrite Nat.sub_diag. split; [lia|]. unfold allowed, fnorm. cbn. rewrite sqrt_0. lra.
    - destruct T as [-> T]. destruct (IH (lo + s)%nat hi He Ht T) as [Hl IH']; [intros os Ho; apply H; right; exact Ho|]. clear IH. split; [lia|].
      pose proof (H (lo, s) (or_introl eq_refl)) as H0. cbn [fst snd] in H0. set (m := (hi - (lo + s))%nat) in *. replace (hi - lo)%nat with (s + m)%nat by (unfold m; lia).
      rewrite fnorm_split. unfold allowed in *. rewrite fnorm_split.
      assert (SH : forall (Q : nat -> nat -> C), fnorm md m N (fun i j => Q (lo + (s + i))%nat j) = fnorm md m N (fun i j => Q (lo + s + i)%nat j)).
      { intros Q. apply fnorm_ext. intros. f_equal. f_equal. lia. }
      rewrite !SH. set (e1 := fnorm md s N (fun i j => E (lo + i)%nat j)) in *. set (e2 := fnorm md m N (fun i j => E (lo + s + i)%nat j)) in *.
      set (f1 := fnorm md s N (fun i j => F (lo + i)%nat j)) in *. set (f2 := fnorm md m N (fun i j => F (lo + s + i)%nat j)) in *.
      assert (Pe1 : 0 <= e1) by apply (fnorm_pos K md). assert (Pe2 : 0 <= e2) by apply (fnorm_pos K md).
      assert (Pf1 : 0 <= f1) by apply (fnorm_pos K md). assert (Pf2 : 0 <= f2) by apply (fnorm_pos K md).
      pose proof (sqrt_pos (INR (s * N))) as G1. pose proof (sqrt_pos (INR (m * N))) as G2.
      eapply Rle_trans; [apply (two_terms e1 e2 (eps * f1) (eps * f2) (tol * sqrt (INR (s * N))) (tol * sqrt (INR (m * N)))); try assumption; apply Rmult_le_pos; assumption|].
      right. f_equal.
      + replace (eps * f1 * (eps * f1) + eps * f2 * (eps * f2)) with (eps * eps * (f1 * f1 + f2 * f2)) by ring. rewrite sqrt_mult, sqrt_square; nra.
      + replace (tol * sqrt (INR (s * N)) * (tol * sqrt (INR (s * N))) + tol * sqrt (INR (m * N)) * (tol * sqrt (INR (m * N))))
          with (tol * tol * (sqrt (INR (s * N)) * sqrt (INR (s * N)) + sqrt (INR (m * N)) * sqrt (INR (m * N)))) by ring.
        rewrite !sqrt_sqrt by apply pos_INR. rewrite <- plus_INR, <- Nat.mul_add_distr_r. rewrite sqrt_mult, sqrt_square; try nra; try apply pos_INR. 
  Qed.
End Acc.
