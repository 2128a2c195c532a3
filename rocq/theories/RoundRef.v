(** * Rounding errors: operations rounded one by one, exact arithmetic. *)

From Coq Require Import List Arith Bool Lia Ring Reals Lra Permutation.
From Verif Require Import ClusterModel ClusterSpec IOModel BlockModel BlockSpec Algebra BlasModel BlasProofs HMatModel HMatSpec HMatProofs HMatLoops RealNum CompReal AccProofs
  RoundModel RoundSpec RoundProofs.
Import ListNotations.
Local Open Scope R_scope.

Section Ref.
  Variables (u : R) (rnd : R -> R).
  Hypothesis Hu : 0 <= u.
  Hypothesis Hr : forall x, Rabs (rnd x - x) <= u * Rabs x.

  Lemma near_rnd : forall N z S A, near u N z S A -> near u (N + 1) (rnd z) S A.
  Proof.
    intros N z S A H. pose proof (near_abs u _ _ _ _ H) as H1. pose proof (near_pos u _ _ _ _ H). destruct H as [H2 H3]. split; [|exact H3].
    unfold gam in *. rewrite pow_add, pow_1. pose proof (pow1 u Hu N). set (P := (1 + u) ^ N) in *. clearbody P.
    replace (rnd z - S) with ((rnd z - z) + (z - S)) by ring. pose proof (Rabs_triang (rnd z - z) (z - S)). pose proof (Hr z). nra.
  Qed.
  Lemma near_plus : forall N a b S T A B, near u N a S A -> near u N b T B -> near u N (a + b) (S + T) (A + B).
  Proof.
    intros N a b S T A B [H1 H2] [H3 H4]. split.
    - replace (a + b - (S + T)) with ((a - S) + (b - T)) by ring. pose proof (Rabs_triang (a - S) (b - T)). lra.
    - pose proof (Rabs_triang S T). lra.
  Qed.
  Lemma near_scal : forall N a S A c, near u N a S A -> near u N (c * a) (c * S) (Rabs c * A).
  Proof.
    intros N a S A c [H1 H2]. split.
    - rewrite <- Rmult_minus_distr_l, Rabs_mult. pose proof (Rabs_pos c). nra.
    - rewrite Rabs_mult. apply Rmult_le_compat_l; [apply Rabs_pos|exact H2].
  Qed.
  Lemma near_prod : forall a b, near u 1 (rnd (a * b)) (a * b) (Rabs a * Rabs b).
  Proof. intros a b. rewrite <- Rabs_mult. apply (near_rnd 0). apply near_exact. Qed.

  Lemma rdot_near : forall n f g, near u (n + 1) (rdot rnd n f g) (rsum n (fun j => f j * g j)) (rsum n (fun j => Rabs (f j) * Rabs (g j))).
  Proof.
    induction n as [|n IH]; intros f g.
    - cbn. change (rsum 0 (fun j => f j * g j)) with 0. change (rsum 0 (fun j => Rabs (f j) * Rabs (g j))) with 0.
      pose proof (near_exact u 0) as Q. rewrite Rabs_R0 in Q. apply (near_mono u Hu 0); [lia|exact Q].
    - cbn [rdot]. replace (S n + 1)%nat with ((n + 1) + 1)%nat by lia. apply near_rnd.
      change (rsum (S n) (fun j => f j * g j)) with (rsum n (fun j => f j * g j) + f n * g n).
      change (rsum (S n) (fun j => Rabs (f j) * Rabs (g j))) with (rsum n (fun j => Rabs (f j) * Rabs (g j)) + Rabs (f n) * Rabs (g n)).
      apply near_plus; [apply IH|]. apply (near_mono u Hu 1); [lia|apply near_prod].
  Qed.
  Lemma row_near : forall n alpha f g beta y, near u (n + 3) (rnd (rnd (beta * y) + rnd (alpha * rdot rnd n f g)))
    (beta * y + alpha * rsum n (fun j => f j * g j)) (Rabs beta * Rabs y + Rabs alpha * rsum n (fun j => Rabs (f j) * Rabs (g j))).
  Proof.
    intros. replace (n + 3)%nat with ((n + 1 + 1) + 1)%nat by lia. apply near_rnd. apply near_plus.
    - apply (near_mono u Hu 1); [lia|apply near_prod].
    - apply near_rnd. apply near_scal, rdot_near.
  Qed.

  Lemma head_get : forall n (f : nat -> R) (y : vec), (n <= length y)%nat -> length (mk (K := Rc) n f ++ skipn n y) = length y /\
    (forall i, (i < n)%nat -> get (K := Rc) (mk (K := Rc) n f ++ skipn n y) i = f i) /\ (forall i, (n <= i)%nat -> get (K := Rc) (mk (K := Rc) n f ++ skipn n y) i = get y i).
  Proof.
    intros n f y Hn. destruct (head_upd Rc n f y Hn) as [H1 H2]. split; [exact H1|]. split; intros i Hi; rewrite H2; destruct (Nat.ltb_spec i n); try lia; reflexivity.
  Qed.

  Theorem ref_accurate : accurate_blas u (ref_blas rnd).
  Proof.
    constructor; [exact Hu| | | |].
    - intros t m n alpha A x beta y Hm Hn HA Hx Hy. cbn [b_gemv ref_blas]. unfold ref_gemv. rewrite legal_true by lia. cbn [negb].
      destruct (Nat.eqb_spec m 0); [lia|]. destruct (Nat.eqb_spec n 0); [lia|]. cbn [orb]. rewrite (holds_full Rc A m n HA).
      destruct (Nat.leb_spec (rows_of t n m) (length x)); [|lia]. destruct (Nat.leb_spec (rows_of t m n) (length y)); [|lia]. cbn [andb].
      destruct (head_get (rows_of t m n) (fun i => rnd (rnd (beta * get y i) + rnd (alpha * rdot rnd (rows_of t n m) (op_entry Rc t A m i) (get x)))) y Hy) as (G1 & G2 & G3).
      eexists. split; [reflexivity|]. split; [exact G1|]. split; [|exact G3]. intros i Hi. rewrite (G2 i Hi). apply row_near.
    - intros up n alpha A x beta y Hn HA Hx Hy. cbn [b_symv ref_blas]. unfold ref_symv. rewrite legal_true by lia. cbn [negb].
      destruct (Nat.eqb_spec n 0); [lia|]. rewrite (holds_full Rc A n n HA).
      destruct (Nat.leb_spec n (length x)); [|lia]. destruct (Nat.leb_spec n (length y)); [|lia]. cbn [andb].
      destruct (head_get n (fun i => rnd (rnd (beta * get y i) + rnd (alpha * rdot rnd n (sym_entry Rc up A n i) (get x)))) y Hy) as (G1 & G2 & G3).
      eexists. split; [reflexivity|]. split; [exact G1|]. split; [|exact G3]. intros i Hi. rewrite (G2 i Hi). apply row_near.
    - intros n alpha x y Hx Hy. cbn [b_axpy ref_blas]. unfold ref_axpy. destruct (Nat.leb_spec n (length x)); [|lia]. destruct (Nat.leb_spec n (length y)); [|lia]. cbn [andb].
      destruct (head_get n (fun i => rnd (rnd (alpha * get x i) + get y i)) y Hy) as (G1 & G2 & G3).
      eexists. split; [reflexivity|]. split; [exact G1|]. split; [|exact G3]. intros i Hi. rewrite (G2 i Hi). apply (near_rnd 1). apply near_plus; [apply near_prod|].
      apply (near_mono u Hu 0); [lia|apply near_exact].
    - intros a b. cbn [b_mul ref_blas]. rewrite Rabs_mult. apply near_prod.
  Qed.
End Ref.

(** *** Exact arithmetic *)
Lemma exact_leaf : forall t alpha h x y, r_leaf exact_blas t alpha h x 1 y = leaf_vec Rc t alpha h x 1 y.
Proof. intros t alpha h x y. unfold r_leaf, leaf_vec. destruct (h_data h) as [|A|L]; reflexivity. Qed.

Lemma gloop_ext : forall A lin lout mu src dst run run' l x y, (forall h x y, run h x y = run' h x y) ->
  gloop Rc A lin lout mu src dst run l x y = gloop Rc A lin lout mu src dst run' l x y.
Proof.
  intros A lin lout mu src dst run run' l x y E. revert y. induction l as [|h l IH]; intros y; [reflexivity|]. cbn [gloop].
  destruct (if _ <=? _ then _ else _)%nat; [|reflexivity]. unfold write_at. rewrite E. destruct (_ && _)%bool; [|reflexivity]. destruct (run' h l0 _); [apply IH|reflexivity].
Qed.

Lemma exact_omp : forall threads t alpha A x beta y, r_omp_vec exact_blas threads t alpha A x beta y = omp_vec Rc threads t alpha A x beta y.
Proof.
  intros threads t alpha A x beta y. unfold r_omp_vec, omp_vec. change (r_scale exact_blas) with (scale_out Rc). destruct (scale_out Rc _ _ _) as [y1|]; [|reflexivity].
  revert y1. induction threads as [|[l1 l2] ths IH]; intros y1; [reflexivity|]. cbn [r_critical critical_vec].
  assert (E : thread_vec Rc t (rt_val A) 1 (fun t' h x' y' => r_leaf exact_blas t' 1 h x' 1 y') (l1, l2) x =
    thread_vec Rc t (rt_val A) 1 (fun t' h x' y' => leaf_vec Rc t' (c1 Rc) h x' (c1 Rc) y') (l1, l2) x).
  { unfold thread_vec. cbn [fst snd]. rewrite !leaves_gloop. rewrite (gloop_ext _ _ _ _ _ _ _ (fun h x y => leaf_vec Rc t 1 h x 1 y)) by (intros; apply exact_leaf).
    change (c1 Rc) with 1. destruct (gloop Rc _ _ _ _ _ _ _ _ _ _) as [y2|]; [|reflexivity]. destruct (sym_is_N _); [reflexivity|]. rewrite !sym_gloop.
    apply gloop_ext. intros. apply exact_leaf. }
  rewrite E. destruct (thread_vec Rc _ _ _ _ _ _) as [temp|]; [|reflexivity]. change (b_axpy exact_blas) with (axpy Rc). destruct (axpy Rc _ _ _ _); [apply IH|reflexivity].
Qed.
Lemma exact_seq : forall t alpha A x beta y, r_seq_vec exact_blas t alpha A x beta y = seq_vec Rc t alpha A x beta y.
Proof.
  intros t alpha A x beta y. unfold r_seq_vec, seq_vec. change (r_scale exact_blas) with (scale_out Rc). destruct (hleaves Rc A) as [[L Y]|]; [|reflexivity].
  destruct (scale_out Rc _ _ _) as [y1|]; [|reflexivity]. rewrite !leaves_gloop.
  rewrite (gloop_ext _ _ _ _ _ _ _ (fun h x y => leaf_vec Rc t alpha h x 1 y)) by (intros; apply exact_leaf). change (c1 Rc) with 1.
  destruct (gloop Rc _ _ _ _ _ _ _ _ _ _) as [y2|]; [|reflexivity]. destruct (sym_is_N _); [reflexivity|]. rewrite !sym_gloop. apply gloop_ext. intros. apply exact_leaf.
Qed.

(** (1+u)^k - 1 <= k u / (1 - k u). *)
Lemma gam_bound : forall u k, 0 <= u -> INR k * u < 1 -> gam u k <= INR k * u / (1 - INR k * u).
Proof.
  intros u k Hu Hk.
  assert (G : (1 + u) ^ k * (1 - INR k * u) <= 1).
  { clear Hk. induction k as [|k IH]; [cbn; lra|]. rewrite S_INR. cbn [pow]. pose proof (pow1 u Hu k). pose proof (pos_INR k). set (P := (1 + u) ^ k) in *. clearbody P.
    assert (0 <= (INR k + 1) * (u * u)) by nra. nra. }
  unfold gam. apply Rmult_le_reg_r with (1 - INR k * u); [lra|]. replace (INR k * u / (1 - INR k * u) * (1 - INR k * u)) with (INR k * u) by (field; lra). nra.
Qed.
