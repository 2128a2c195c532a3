(** * Rounding errors of the products of a hierarchical matrix and a vector: one leaf. *)

From Coq Require Import List Arith Bool Lia Ring Reals Lra Permutation.
From Verif Require Import ClusterModel ClusterSpec IOModel BlockModel BlockSpec BlockProofs Algebra BlasModel BlasProofs HMatModel HMatSpec HMatProofs HMatLoops HMatProducts
  HMatBuild RealNum CompReal AccProofs RoundModel RoundSpec.
Import ListNotations.
Local Open Scope R_scope.

Section Gam.
  Variable u : R.
  Hypothesis Hu : 0 <= u.
  Lemma pow1 : forall k, 1 <= (1 + u) ^ k.
  Proof. intros k. apply pow_R1_Rle. lra. Qed.
  Lemma gam_0 : gam u 0 = 0.
  Proof. unfold gam. cbn. lra. Qed.
  Lemma gam_1 : gam u 1 = u.
  Proof. unfold gam. cbn. lra. Qed.
  Lemma gam_pos : forall k, 0 <= gam u k.
  Proof. intros k. unfold gam. pose proof (pow1 k). lra. Qed.
  Lemma gam_mono : forall a b, (a <= b)%nat -> gam u a <= gam u b.
  Proof. intros a b H. unfold gam. assert ((1 + u) ^ a <= (1 + u) ^ b) by (apply Rle_pow; [lra|exact H]). lra. Qed.

  (** a value near an exact one, [A] bounding the exact one *)
  Definition near (N : nat) (z S A : R) : Prop := Rabs (z - S) <= gam u N * A /\ Rabs S <= A.

  Lemma near_pos : forall N z S A, near N z S A -> 0 <= A.
  Proof. intros N z S A [_ H]. pose proof (Rabs_pos S). lra. Qed.
  Lemma near_abs : forall N z S A, near N z S A -> Rabs z <= (1 + u) ^ N * A.
  Proof. intros N z S A [H1 H2]. unfold gam in H1. replace z with ((z - S) + S) by ring. pose proof (Rabs_triang (z - S) S). nra. Qed.
  Lemma near_mono : forall N N' z S A, (N <= N')%nat -> near N z S A -> near N' z S A.
  Proof. intros N N' z S A H HN. pose proof (near_pos _ _ _ _ HN). destruct HN as [H1 H2]. split; [|exact H2]. pose proof (gam_mono _ _ H). nra. Qed.
  Lemma near_exact : forall z, near 0 z z (Rabs z).
  Proof. intros z. split; [|lra]. rewrite gam_0. replace (z - z) with 0 by ring. rewrite Rabs_R0. lra. Qed.

  (** an accurate operation applied to approximate values *)
  Lemma near_step : forall N k y S A z c a, near N y S A -> Rabs (z - (y + c)) <= gam u k * (Rabs y + a) -> Rabs c <= a -> near (N + k) z (S + c) (A + a).
  Proof.
    intros N k y S A z c a H1 H2 H3. pose proof (near_abs _ _ _ _ H1) as H4. pose proof (near_pos _ _ _ _ H1) as H5. destruct H1 as [H1 H6].
    pose proof (Rabs_pos c). split; [|pose proof (Rabs_triang S c); lra].
    unfold gam in *. rewrite pow_add. pose proof (pow1 N) as P1. pose proof (pow1 k) as P2.
    set (P := (1 + u) ^ N) in *. set (Q := (1 + u) ^ k) in *. clearbody P Q.
    replace (z - (S + c)) with ((z - (y + c)) + (y - S)) by ring. pose proof (Rabs_triang (z - (y + c)) (y - S)).
    assert ((Q - 1) * (Rabs y + a) <= (Q - 1) * (P * A + a)) by (apply Rmult_le_compat_l; lra).
    assert (0 <= (P - 1) * Q * a) by (apply Rmult_le_pos; [apply Rmult_le_pos; lra|lra]).
    nra.
  Qed.
  (** composition of two operations *)
  Lemma near_comp : forall N k y z c c' Z X, Rabs (z - (y + c')) <= gam u k * (Rabs y + X) -> X <= (1 + u) ^ N * Z -> Rabs (c' - c) <= gam u N * Z -> 0 <= Z ->
    Rabs (z - (y + c)) <= gam u (N + k) * (Rabs y + Z).
  Proof.
    intros N k y z c c' Z X H1 H2 H3 H4. unfold gam in *. rewrite pow_add. pose proof (pow1 N) as P1. pose proof (pow1 k) as P2.
    set (P := (1 + u) ^ N) in *. set (Q := (1 + u) ^ k) in *. clearbody P Q.
    replace (z - (y + c)) with ((z - (y + c')) + (c' - c)) by ring. pose proof (Rabs_triang (z - (y + c')) (c' - c)). pose proof (Rabs_pos y).
    assert ((Q - 1) * (Rabs y + X) <= (Q - 1) * (Rabs y + P * Z)) by (apply Rmult_le_compat_l; lra).
    assert (0 <= (P - 1) * Q * Rabs y) by (apply Rmult_le_pos; [apply Rmult_le_pos; lra|lra]).
    nra.
  Qed.
End Gam.

Lemma rsum_abs : forall n f g, (forall i, (i < n)%nat -> Rabs (f i) <= g i) -> Rabs (rsum n f) <= rsum n g.
Proof.
  unfold rsum. induction n as [|n IH]; intros f g H; cbn; [rewrite Rabs_R0; lra|].
  eapply Rle_trans; [apply Rabs_triang|]. apply Rplus_le_compat; [apply IH; intros; apply H; lia|apply H; lia].
Qed.
Lemma rsum_minus : forall n f g, rsum n f - rsum n g = rsum n (fun i => f i - g i).
Proof. unfold rsum. induction n as [|n IH]; intros f g; cbn; [lra|]. rewrite <- IH. cbn. lra. Qed.

Section Leaf.
  Variables (u : R) (B : blas).
  Hypothesis HB : accurate_blas u B.

  (** [run x y] adds E x to y up to [k] roundings, EA bounding the entries of E. *)
  Definition radds (run : vec -> vec -> option vec) (on inn k : nat) (e ea : nat -> nat -> R) : Prop :=
    forall x y, (inn <= length x)%nat -> (on <= length y)%nat ->
      exists y', run x y = Some y' /\ length y' = length y /\
        (forall i, (i < on)%nat -> Rabs (get y' i - (get y i + rsum inn (fun j => e i j * get x j))) <= gam u k * (Rabs (get y i) + rsum inn (fun j => ea i j * Rabs (get x j)))) /\
        (forall p, (on <= p)%nat -> get y' p = get y p).

  Lemma radds_ext : forall run on inn k e ea e' ea', (forall i j, (i < on)%nat -> (j < inn)%nat -> e i j = e' i j /\ ea i j = ea' i j) ->
    radds run on inn k e ea -> radds run on inn k e' ea'.
  Proof.
    intros run on inn k e ea e' ea' He H x y Hx Hy. destruct (H x y Hx Hy) as (y' & H1 & H2 & H3 & H4).
    exists y'. repeat split; try assumption. intros i Hi. specialize (H3 i Hi).
    rewrite (rsum_ext inn (fun j => e' i j * get x j) (fun j => e i j * get x j)) by (intros j Hj; destruct (He i j Hi Hj) as [-> _]; reflexivity).
    rewrite (rsum_ext inn (fun j => ea' i j * Rabs (get x j)) (fun j => ea i j * Rabs (get x j))) by (intros j Hj; destruct (He i j Hi Hj) as [_ ->]; reflexivity).
    exact H3.
  Qed.

  Lemma ropE : forall t (A : mat Rc) i j, op_entry Rc t (md A) (mr A) i j = op_fun t (me A) i j.
  Proof. intros [| |] A i j; reflexivity. Qed.

  Lemma r_matvec_raw : forall t alpha beta A r c x y, wf_mat (K := Rc) A r c -> (1 <= r)%nat -> (1 <= c)%nat -> (rows_of t c r <= length x)%nat -> (rows_of t r c <= length y)%nat ->
    exists y', r_matvec B t alpha A x beta y = Some y' /\ length y' = length y /\
      (forall i, (i < rows_of t r c)%nat ->
        Rabs (get y' i - (beta * get y i + alpha * rsum (rows_of t c r) (fun j => op_fun (K := Rc) t (me A) i j * get x j))) <=
        gam u (rows_of t c r + 3) * (Rabs beta * Rabs (get y i) + Rabs alpha * rsum (rows_of t c r) (fun j => Rabs (op_fun (K := Rc) t (me A) i j) * Rabs (get x j)))) /\
      (forall i, (rows_of t r c <= i)%nat -> get y' i = get y i).
  Proof.
    intros t alpha beta A r c x y (Hr & Hc & HA) H1 H2 Hx Hy. unfold r_matvec. subst r c.
    destruct (ab_gemv u B HB t (mr A) (mc A) alpha (md A) x beta y H1 H2 HA Hx Hy) as (y' & E1 & E2 & E3 & E4).
    exists y'. split; [exact E1|]. split; [exact E2|]. split; [|exact E4]. intros i Hi. exact (E3 i Hi).
  Qed.

  Lemma r_dense : forall t alpha A r c, wf_mat (K := Rc) A r c -> (1 <= r)%nat -> (1 <= c)%nat ->
    radds (fun x y => r_matvec B t alpha A x 1 y) (rows_of t r c) (rows_of t c r) (rows_of t c r + 3)
      (fun i j => alpha * op_fun (K := Rc) t (me A) i j) (fun i j => Rabs alpha * Rabs (op_fun (K := Rc) t (me A) i j)).
  Proof.
    intros t alpha A r c W H1 H2 x y Hx Hy. destruct (r_matvec_raw t alpha 1 A r c x y W H1 H2 Hx Hy) as (y' & E1 & E2 & E3 & E4).
    exists y'. split; [exact E1|]. split; [exact E2|]. split; [|exact E4]. intros i Hi. specialize (E3 i Hi). rewrite Rabs_R1, !Rmult_1_l in E3.
    rewrite <- !rsum_scal in E3.
    rewrite (rsum_ext _ (fun j => alpha * op_fun (K := Rc) t (me A) i j * get x j) (fun j => alpha * (op_fun (K := Rc) t (me A) i j * get x j))) by (intros; ring).
    rewrite (rsum_ext _ (fun j => Rabs alpha * Rabs (op_fun (K := Rc) t (me A) i j) * Rabs (get x j)) (fun j => Rabs alpha * (Rabs (op_fun (K := Rc) t (me A) i j) * Rabs (get x j)))) by (intros; ring).
    exact E3.
  Qed.

  Lemma r_sym : forall up alpha A n, wf_mat (K := Rc) A n n -> (1 <= n)%nat ->
    radds (fun x y => r_symvec B up alpha A x 1 y) n n (n + 3)
      (fun i j => alpha * sym_entry Rc up (md A) (mr A) i j) (fun i j => Rabs alpha * Rabs (sym_entry Rc up (md A) (mr A) i j)).
  Proof.
    intros up alpha A n (Hr & Hc & HA) H1 x y Hx Hy. unfold r_symvec. rewrite Hr. destruct (Nat.eqb_spec n 0); [lia|].
    destruct (ab_symv u B HB up n alpha (md A) x 1 y H1 HA Hx Hy) as (y' & E1 & E2 & E3 & E4).
    exists y'. split; [exact E1|]. split; [exact E2|]. split; [|exact E4]. intros i Hi. specialize (E3 i Hi). rewrite Rabs_R1, !Rmult_1_l in E3.
    rewrite <- !rsum_scal in E3.
    rewrite (rsum_ext _ (fun j => alpha * sym_entry Rc up (md A) n i j * get x j) (fun j => alpha * (sym_entry Rc up (md A) n i j * get x j))) by (intros; ring).
    rewrite (rsum_ext _ (fun j => Rabs alpha * Rabs (sym_entry Rc up (md A) n i j) * Rabs (get x j)) (fun j => Rabs alpha * (Rabs (sym_entry Rc up (md A) n i j) * Rabs (get x j)))) by (intros; ring).
    exact E3.
  Qed.

  Lemma rsum_prod : forall inn r (f : nat -> R) (g : nat -> nat -> R) (x : nat -> R),
    rsum r (fun k => f k * rsum inn (fun j => g k j * x j)) = rsum inn (fun j => rsum r (fun k => f k * g k j) * x j).
  Proof. intros. exact (comp_sum Rc inn r f g x). Qed.

  Definition low_abs (L : lrm Rc) (i j : nat) : R := rsum (lrank L) (fun k => Rabs (me (lU L) i k) * Rabs (me (lV L) k j)).

  Lemma r_low : forall t alpha L r c, wf_lrm (K := Rc) L r c -> (1 <= r)%nat -> (1 <= c)%nat ->
    radds (fun x y => r_lowvec B t alpha L x 1 y) (rows_of t r c) (rows_of t c r) (rows_of t c r + lrank L + 6)
      (fun i j => alpha * op_fun (K := Rc) t (lr_entry L) i j) (fun i j => Rabs alpha * op_fun (K := Rc) t (low_abs L) i j).
  Proof.
    intros t alpha L r c [HU HV] H1 H2 x y Hx Hy. pose proof (ab_u u B HB) as Hu. unfold r_lowvec. destruct (Nat.eqb_spec (lrank L) 0) as [E|E].
    - exists y. split; [reflexivity|]. split; [reflexivity|]. split; [|reflexivity]. intros i Hi.
      assert (Z1 : forall j, op_fun (K := Rc) t (lr_entry L) i j = 0) by (intros j; destruct t; cbn; unfold lr_entry; rewrite E; reflexivity).
      assert (Z2 : forall j, op_fun (K := Rc) t (low_abs L) i j = 0) by (intros j; destruct t; cbn; unfold low_abs; rewrite E; reflexivity).
      rewrite (rsum_ext _ (fun j => alpha * op_fun (K := Rc) t (lr_entry L) i j * get x j) (fun _ => 0)) by (intros j _; rewrite Z1; ring).
      rewrite (rsum_ext _ (fun j => Rabs alpha * op_fun (K := Rc) t (low_abs L) i j * Rabs (get x j)) (fun _ => 0)) by (intros j _; rewrite Z2; ring).
      rewrite rsum_0. replace (get y i - (get y i + 0)) with 0 by ring. rewrite Rabs_R0. apply Rmult_le_pos; [apply gam_pos, Hu|pose proof (Rabs_pos (get y i)); lra].
    - set (first := match t with TrN => lV L | _ => lU L end). set (second := match t with TrN => lU L | _ => lV L end).
      assert (W1 : exists a, r_matvec B t 1 first x 0 (repeat 0 (lrank L)) = Some a /\ length a = lrank L /\
        forall q, (q < lrank L)%nat -> Rabs (get a q - rsum (rows_of t c r) (fun j => op_fun (K := Rc) t (me first) q j * get x j)) <=
          gam u (rows_of t c r + 3) * rsum (rows_of t c r) (fun j => Rabs (op_fun (K := Rc) t (me first) q j) * Rabs (get x j))).
      { assert (exists a, r_matvec B t 1 first x 0 (repeat 0 (lrank L)) = Some a /\ length a = length (repeat 0 (lrank L)) /\
          forall q, (q < lrank L)%nat -> Rabs (get a q - (0 * get (K := Rc) (repeat 0 (lrank L)) q + 1 * rsum (rows_of t c r) (fun j => op_fun (K := Rc) t (me first) q j * get x j))) <=
          gam u (rows_of t c r + 3) * (Rabs 0 * Rabs (get (K := Rc) (repeat 0 (lrank L)) q) + Rabs 1 * rsum (rows_of t c r) (fun j => Rabs (op_fun (K := Rc) t (me first) q j) * Rabs (get x j)))) as (a & A1 & A2 & A3).
        { destruct t; unfold first; cbn in *;
          [destruct (r_matvec_raw TrN 1 0 (lV L) (lrank L) c x (repeat 0 (lrank L))) as (a & F1 & F2 & F3 & _)
          |destruct (r_matvec_raw TrT 1 0 (lU L) r (lrank L) x (repeat 0 (lrank L))) as (a & F1 & F2 & F3 & _)
          |destruct (r_matvec_raw TrC 1 0 (lU L) r (lrank L) x (repeat 0 (lrank L))) as (a & F1 & F2 & F3 & _)];
          try assumption; try lia; try (cbn; rewrite repeat_length; lia); exists a; split; [exact F1|split; [exact F2|exact F3]|exact F1|split; [exact F2|exact F3]|exact F1|split; [exact F2|exact F3]]. }
        exists a. split; [exact A1|]. split; [rewrite A2; apply repeat_length|]. intros q Hq. specialize (A3 q Hq). rewrite Rabs_R0, Rabs_R1, !Rmult_0_l, !Rplus_0_l, !Rmult_1_l in A3. exact A3. }
      destruct W1 as (a & A1 & A2 & A3). change (r_matvec B t 1 first x 0 (@repeat (car Rc) (c0 Rc) (lrank L)) = Some a) in A1. rewrite A1.
      assert (W2 : exists y', r_matvec B t alpha second a 1 y = Some y' /\ length y' = length y /\
        (forall i, (i < rows_of t r c)%nat -> Rabs (get y' i - (get y i + alpha * rsum (lrank L) (fun k => op_fun (K := Rc) t (me second) i k * get a k))) <=
          gam u (lrank L + 3) * (Rabs (get y i) + Rabs alpha * rsum (lrank L) (fun k => Rabs (op_fun (K := Rc) t (me second) i k) * Rabs (get a k)))) /\
        (forall p, (rows_of t r c <= p)%nat -> get y' p = get y p)).
      { assert (exists y', r_matvec B t alpha second a 1 y = Some y' /\ length y' = length y /\
          (forall i, (i < rows_of t r c)%nat -> Rabs (get y' i - (1 * get y i + alpha * rsum (lrank L) (fun k => op_fun (K := Rc) t (me second) i k * get a k))) <=
            gam u (lrank L + 3) * (Rabs 1 * Rabs (get y i) + Rabs alpha * rsum (lrank L) (fun k => Rabs (op_fun (K := Rc) t (me second) i k) * Rabs (get a k)))) /\
          (forall p, (rows_of t r c <= p)%nat -> get y' p = get y p)) as (y' & F1 & F2 & F3 & F4).
        { destruct t; unfold second; cbn in *;
          [destruct (r_matvec_raw TrN alpha 1 (lU L) r (lrank L) a y) as (y' & F1 & F2 & F3 & F4)
          |destruct (r_matvec_raw TrT alpha 1 (lV L) (lrank L) c a y) as (y' & F1 & F2 & F3 & F4)
          |destruct (r_matvec_raw TrC alpha 1 (lV L) (lrank L) c a y) as (y' & F1 & F2 & F3 & F4)];
          try assumption; try lia; try (cbn; lia); exists y'; (split; [exact F1|split; [exact F2|split; [exact F3|exact F4]]]). }
        exists y'. split; [exact F1|]. split; [exact F2|]. split; [|exact F4]. intros i Hi. specialize (F3 i Hi). rewrite Rabs_R1, !Rmult_1_l in F3. exact F3. }
      destruct W2 as (y' & B1 & B2 & B3 & B4). exists y'. split; [exact B1|]. split; [exact B2|]. split; [|exact B4].
      intros i Hi. specialize (B3 i Hi).
      set (inn := rows_of t c r) in *. set (rk := lrank L) in *.
      set (Tk := fun k => rsum inn (fun j => op_fun (K := Rc) t (me first) k j * get x j)).
      set (Bk := fun k => rsum inn (fun j => Rabs (op_fun (K := Rc) t (me first) k j) * Rabs (get x j))).
      assert (S1 : rsum inn (fun j => alpha * op_fun (K := Rc) t (lr_entry L) i j * get x j) = alpha * rsum rk (fun k => op_fun (K := Rc) t (me second) i k * Tk k)).
      { unfold Tk. rewrite rsum_prod. rewrite <- rsum_scal. apply rsum_ext. intros j Hj. rewrite Rmult_assoc. f_equal. f_equal. symmetry.
        change (op_fun (K := Rc) t (lr_entry L) i j) with (op_fun (K := Rc) t (@lr_entry Rc L) i j). exact (lr_op Rc t L i j). }
      assert (S2 : rsum inn (fun j => Rabs alpha * op_fun (K := Rc) t (low_abs L) i j * Rabs (get x j)) = Rabs alpha * rsum rk (fun k => Rabs (op_fun (K := Rc) t (me second) i k) * Bk k)).
      { unfold Bk. rewrite (rsum_prod inn rk (fun k => Rabs (op_fun (K := Rc) t (me second) i k)) (fun k j => Rabs (op_fun (K := Rc) t (me first) k j)) (fun j => Rabs (get x j))).
        rewrite <- rsum_scal. apply rsum_ext. intros j Hj. rewrite Rmult_assoc. f_equal. f_equal.
        unfold low_abs, first, second. destruct t; cbn; apply rsum_ext; intros k Hk; ring. }
      rewrite S1, S2.
      replace (inn + rk + 6)%nat with ((inn + 3) + (rk + 3))%nat by lia.
      apply (near_comp u Hu (inn + 3) (rk + 3) (get y i) (get y' i) _ _ _ _ B3).
      + apply Rle_trans with (Rabs alpha * ((1 + u) ^ (inn + 3) * rsum rk (fun k => Rabs (op_fun (K := Rc) t (me second) i k) * Bk k))); [|right; ring].
        apply Rmult_le_compat_l; [apply Rabs_pos|]. rewrite <- rsum_scal. apply rsum_le. intros k Hk.
        assert (Rabs (get a k) <= (1 + u) ^ (inn + 3) * Bk k).
        { apply (near_abs u (inn + 3) (get a k) (Tk k)). split; [apply A3, Hk|]. apply rsum_abs. intros j Hj. rewrite Rabs_mult. right. reflexivity. }
        pose proof (Rabs_pos (op_fun (K := Rc) t (me second) i k)). nra.
      + rewrite <- Rmult_minus_distr_l, Rabs_mult. apply Rle_trans with (Rabs alpha * (gam u (inn + 3) * rsum rk (fun k => Rabs (op_fun (K := Rc) t (me second) i k) * Bk k))); [|right; ring].
        apply Rmult_le_compat_l; [apply Rabs_pos|]. rewrite rsum_minus, <- rsum_scal. apply rsum_abs. intros k Hk.
        rewrite <- Rmult_minus_distr_l, Rabs_mult. specialize (A3 k Hk). fold (Tk k) in A3. fold (Bk k) in A3. pose proof (Rabs_pos (op_fun (K := Rc) t (me second) i k)).
        change (get (K := Rc) a k) with (get a k). nra.
      + apply Rmult_le_pos; [apply Rabs_pos|]. apply rsum_nonneg. intros k Hk. apply Rmult_le_pos; [apply Rabs_pos|]. apply rsum_nonneg. intros j Hj. apply Rmult_le_pos; apply Rabs_pos.
  Qed.

  Lemma op_abs : forall t (e : nat -> nat -> R) i j, Rabs (op_fun (K := Rc) t e i j) = op_fun (K := Rc) t (fun a b => Rabs (e a b)) i j.
  Proof. intros [| |] e i j; reflexivity. Qed.

  Lemma leaf_abs_le : forall (h : hinfo Rc) i j, Rabs (leaf_entry h i j) <= leaf_abs h i j.
  Proof.
    intros h i j. unfold leaf_abs, leaf_entry. destruct (h_data h) as [|A|L]; try (right; reflexivity).
    unfold lr_entry. apply rsum_abs. intros k Hk. right. apply Rabs_mult.
  Qed.

  Lemma r_leaf_adds : forall t alpha h, wf_leaf (K := Rc) h -> compat Rc t (h_sym h) ->
    radds (fun x y => r_leaf B t alpha h x 1 y) (c_size (out_cl Rc t h)) (c_size (in_cl Rc t h)) (leaf_cost (c_size (in_cl Rc t h)) h)
      (fun i j => alpha * op_fun (K := Rc) t (leaf_entry h) i j) (fun i j => Rabs alpha * op_fun (K := Rc) t (leaf_abs h) i j).
  Proof.
    intros t alpha h (S1 & S2 & H) Hc. unfold r_leaf, leaf_entry, leaf_abs, leaf_cost.
    assert (Eo : c_size (out_cl Rc t h) = rows_of t (c_size (h_t h)) (c_size (h_s h))) by (unfold out_cl, rows_of; destruct (is_N t); reflexivity).
    assert (Ei : c_size (in_cl Rc t h) = rows_of t (c_size (h_s h)) (c_size (h_t h))) by (unfold in_cl, rows_of; destruct (is_N t); reflexivity).
    unfold leaf_entry. rewrite Eo, Ei. destruct (h_data h) as [|A|L]; [contradiction| |].
    - destruct H as (HA & Hs & Hh). destruct (h_sym h) eqn:Es; cbn in Hc.
      + eapply radds_ext; [|apply (r_dense t alpha A _ _ HA S1 S2)]. intros i j _ _. cbn beta. rewrite op_abs. split; reflexivity.
      + rewrite <- (Hs ltac:(discriminate)) in *. replace (rows_of t (c_size (h_t h)) (c_size (h_t h))) with (c_size (h_t h)) by (unfold rows_of; destruct (is_N t); reflexivity).
        eapply radds_ext; [|apply (r_sym (h_uplo h) alpha A _ HA S1)]. intros i j _ _. cbn beta.
        pose proof (op_sym Rc t (h_uplo h) A i j (or_intror eq_refl)) as Q.
        split; [f_equal; symmetry; exact Q|]. f_equal. transitivity (Rabs (op_fun (K := Rc) t (from_triangle Rc (h_uplo h) (fun x => x) A) i j)); [f_equal; symmetry; exact Q|]. apply op_abs.
      + destruct Hc as [_ Hc]. discriminate.
      + contradiction.
    - apply (r_low t alpha L _ _ H S1 S2).
  Qed.
End Leaf.
