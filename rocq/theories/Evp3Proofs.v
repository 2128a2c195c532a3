(** * Symmetric matrices of size 3: proofs for C64. *)

From Coq Require Import List Reals Lra Psatz Machin.
From Verif Require Import RealNum GeomModel GeomSpec GeomProofs Evp3Model Evp3Spec.
Import ListNotations.
Local Open Scope R_scope.

(** ** Quadratic forms *)
Definition norm3 (x y z : R) : R := x * x + y * y + z * z.
Definition quad3 (a b c d e f x y z : R) : R := a * (x * x) + d * (y * y) + f * (z * z) + 2 * b * (x * y) + 2 * c * (x * z) + 2 * e * (y * z).
Definition dets (a b c d e f : R) : R := a * (d * f - e * e) - b * (b * f - e * c) + c * (b * e - d * c).
Definition minors (a b c d e f : R) : R := (d * f - e * e) + (a * f - c * c) + (a * d - b * b).

Lemma norm3_pos : forall x y z, 0 <= norm3 x y z.
Proof. intros. unfold norm3. nra. Qed.
Lemma sq_zero : forall x y, 0 <= x -> x * x + y = 0 -> 0 <= y -> x = 0.
Proof. intros. nra. Qed.

(** Two by two forms: a, d >= 0 and b^2 = a d. *)
Lemma form2_nonneg : forall a b d x y, 0 <= a -> 0 <= d -> b * b = a * d -> 0 <= a * (y * y) + d * (x * x) - 2 * b * (x * y).
Proof.
  intros a b d x y Ha Hd H.
  destruct (Req_dec a 0) as [Z|Z].
  - subst a. assert (b = 0) by nra. subst b. nra.
  - apply Rmult_le_reg_l with a; [lra|]. rewrite Rmult_0_r.
    replace (a * (a * (y * y) + d * (x * x) - 2 * b * (x * y))) with ((a * y - b * x) * (a * y - b * x) + (a * d - b * b) * (x * x)) by ring.
    rewrite H. pose proof (Rle_0_sqr (a * y - b * x)) as Q. unfold Rsqr in Q. replace ((a * d - a * d) * (x * x)) with 0 by ring. lra.
Qed.

Section Singular.
  Variables a b c d e f : R.
  Hypothesis Hdet : dets a b c d e f = 0.
  Lemma sing01 : (d * f - e * e) * (a * f - c * c) = (c * e - b * f) * (c * e - b * f).
  Proof. assert (H : (d * f - e * e) * (a * f - c * c) - (c * e - b * f) * (c * e - b * f) = f * dets a b c d e f) by (unfold dets; ring). rewrite Hdet in H. lra. Qed.
  Lemma sing02 : (d * f - e * e) * (a * d - b * b) = (b * e - c * d) * (b * e - c * d).
  Proof. assert (H : (d * f - e * e) * (a * d - b * b) - (b * e - c * d) * (b * e - c * d) = d * dets a b c d e f) by (unfold dets; ring). rewrite Hdet in H. lra. Qed.
  Lemma sing12 : (a * f - c * c) * (a * d - b * b) = (b * c - a * e) * (b * c - a * e).
  Proof. assert (H : (a * f - c * c) * (a * d - b * b) - (b * c - a * e) * (b * c - a * e) = a * dets a b c d e f) by (unfold dets; ring). rewrite Hdet in H. lra. Qed.

  Lemma minors_signs : 0 < minors a b c d e f -> 0 <= d * f - e * e /\ 0 <= a * f - c * c /\ 0 <= a * d - b * b.
  Proof.
    intros H. unfold minors in H. pose proof sing01 as H1. pose proof sing02 as H2. pose proof sing12 as H3.
    set (p := d * f - e * e) in *. set (q := a * f - c * c) in *. set (r := a * d - b * b) in *.
    pose proof (Rle_0_sqr (c * e - b * f)). pose proof (Rle_0_sqr (b * e - c * d)). pose proof (Rle_0_sqr (b * c - a * e)). unfold Rsqr in *.
    assert (0 <= p * q) by lra. assert (0 <= p * r) by lra. assert (0 <= q * r) by lra.
    repeat split; apply Rnot_lt_le; intros N; nra.
  Qed.
  (** Symmetric, singular, positive trace, positive sum of minors: positive semi-definite. *)
  Lemma singular_nonneg : 0 < minors a b c d e f -> 0 < a + d + f -> forall x y z, 0 <= quad3 a b c d e f x y z.
  Proof.
    intros Hm Ht x y z. destruct (minors_signs Hm) as (P0 & P1 & P2).
    apply Rmult_le_reg_l with (a + d + f); [exact Ht|]. rewrite Rmult_0_r.
    assert (E : (a + d + f) * quad3 a b c d e f x y z =
      norm3 (a * x + b * y + c * z) (b * x + d * y + e * z) (c * x + e * y + f * z)
      + ((d * f - e * e) * (y * y) + (a * f - c * c) * (x * x) - 2 * (c * e - b * f) * (x * y))
      + ((d * f - e * e) * (z * z) + (a * d - b * b) * (x * x) - 2 * (b * e - c * d) * (x * z))
      + ((a * f - c * c) * (z * z) + (a * d - b * b) * (y * y) - 2 * (b * c - a * e) * (y * z))).
    { unfold quad3, norm3. ring. }
    rewrite E. pose proof (norm3_pos (a * x + b * y + c * z) (b * x + d * y + e * z) (c * x + e * y + f * z)).
    pose proof (form2_nonneg _ _ _ x y P0 P1 (eq_sym sing01)). pose proof (form2_nonneg _ _ _ x z P0 P2 (eq_sym sing02)).
    pose proof (form2_nonneg _ _ _ y z P1 P2 (eq_sym sing12)). lra.
  Qed.
End Singular.

(** A positive definite matrix has a positive determinant. *)
Lemma definite_det : forall a b c d e f, (forall x y z, 0 < norm3 x y z -> 0 < quad3 a b c d e f x y z) -> 0 < dets a b c d e f.
Proof.
  intros a b c d e f H.
  assert (Ha : 0 < a). { pose proof (H 1 0 0) as Q. unfold norm3, quad3 in Q. lra. }
  assert (Hm : 0 < a * d - b * b).
  { pose proof (H (- b) a 0) as Q. unfold norm3, quad3 in Q. assert (0 < a * (a * d - b * b)); [|nra].
    replace (a * (a * d - b * b)) with (a * (- b * - b) + d * (a * a) + f * (0 * 0) + 2 * b * (- b * a) + 2 * c * (- b * 0) + 2 * e * (a * 0)) by ring. apply Q. nra. }
  pose proof (H (b * e - c * d) (b * c - a * e) (a * d - b * b)) as Q.
  assert (0 < dets a b c d e f * (a * d - b * b)); [|nra].
  replace (dets a b c d e f * (a * d - b * b)) with (quad3 a b c d e f (b * e - c * d) (b * c - a * e) (a * d - b * b)) by (unfold dets, quad3; ring).
  apply Q. unfold norm3. pose proof (Rle_0_sqr (b * e - c * d)). pose proof (Rle_0_sqr (b * c - a * e)). unfold Rsqr in *. nra.
Qed.

(** ** Matrices of trace zero *)
Section Traceless.
  Variables a b c d e f p : R.
  Hypothesis Htr : a + d + f = 0.
  Hypothesis Hn : a * a + d * d + f * f + 2 * (b * b + c * c + e * e) = 6 * (p * p).
  Hypothesis Hp : 0 < p.
  Lemma traceless_minors : (d * f - e * e) + (a * f - c * c) + (a * d - b * b) = - 3 * (p * p).
  Proof. nra. Qed.
  Lemma traceless_det : forall s, dets (s - a) (- b) (- c) (s - d) (- e) (s - f) = s * s * s - 3 * (p * p) * s - dets a b c d e f.
  Proof.
    intros s. assert (E : dets (s - a) (- b) (- c) (s - d) (- e) (s - f) = s * s * s - (a + d + f) * (s * s) + ((d * f - e * e) + (a * f - c * c) + (a * d - b * b)) * s - dets a b c d e f) by (unfold dets; ring).
    rewrite E, Htr, traceless_minors. ring.
  Qed.
  Lemma traceless_quad : forall x y z, quad3 a b c d e f x y z <= 2 * p * norm3 x y z.
  Proof.
    intros x y z. set (N := norm3 x y z). assert (HN : 0 <= N) by apply norm3_pos.
    destruct (Req_dec N 0) as [Z|Z].
    { unfold N, norm3 in Z. assert (x = 0) by nra. assert (y = 0) by nra. assert (z = 0) by nra. subst. unfold quad3. rewrite Rmult_0_r in *. unfold N, norm3. lra. }
    assert (P : 0 < N) by lra.
    apply Rmult_le_reg_l with (6 * p * N); [apply Rmult_lt_0_compat; lra|].
    assert (S : 0 <= (N * a - 3 * p * (x * x - N / 3)) * (N * a - 3 * p * (x * x - N / 3)) + (N * d - 3 * p * (y * y - N / 3)) * (N * d - 3 * p * (y * y - N / 3))
       + (N * f - 3 * p * (z * z - N / 3)) * (N * f - 3 * p * (z * z - N / 3))
       + 2 * ((N * b - 3 * p * (x * y)) * (N * b - 3 * p * (x * y)) + (N * c - 3 * p * (x * z)) * (N * c - 3 * p * (x * z)) + (N * e - 3 * p * (y * z)) * (N * e - 3 * p * (y * z)))).
    { pose proof (Rle_0_sqr (N * a - 3 * p * (x * x - N / 3))). pose proof (Rle_0_sqr (N * d - 3 * p * (y * y - N / 3))). pose proof (Rle_0_sqr (N * f - 3 * p * (z * z - N / 3))).
      pose proof (Rle_0_sqr (N * b - 3 * p * (x * y))). pose proof (Rle_0_sqr (N * c - 3 * p * (x * z))). pose proof (Rle_0_sqr (N * e - 3 * p * (y * z))). unfold Rsqr in *. lra. }
    match type of S with 0 <= ?g => replace g with (N * N * (a * a + d * d + f * f + 2 * (b * b + c * c + e * e)) - 6 * p * N * quad3 a b c d e f x y z
       + 2 * p * (N * N) * (a + d + f) + 9 * (p * p) * (norm3 x y z * norm3 x y z - 2 * N * norm3 x y z / 3 + N * N / 3)) in S by (unfold quad3, norm3; field) end.
    rewrite Htr, Hn in S. fold N in S. nra.
  Qed.
  (** The determinant is at most 2 p^3. *)
  Lemma traceless_det_le : dets a b c d e f <= 2 * (p * p * p).
  Proof.
    apply Rnot_lt_le. intros L. set (D := dets a b c d e f) in *.
    assert (P3 : 0 < p * p * p) by (apply Rmult_lt_0_compat; [apply Rmult_lt_0_compat|]; exact Hp).
    set (k := (D - 2 * (p * p * p)) / (16 * (p * p * p))).
    assert (Hk : 0 < k) by (apply Rdiv_lt_0_compat; lra).
    assert (Ek : 16 * (p * p * p) * k = D - 2 * (p * p * p)) by (unfold k; field; lra).
    set (s := Rmin 1 k). assert (Hs : 0 < s) by (apply Rmin_pos; lra). assert (s <= 1) by apply Rmin_l. assert (s <= k) by apply Rmin_r.
    assert (G : 0 < dets ((2 + s) * p - a) (- b) (- c) ((2 + s) * p - d) (- e) ((2 + s) * p - f)).
    { apply definite_det. intros x y z HN. pose proof (traceless_quad x y z) as Q.
      replace (quad3 ((2 + s) * p - a) (- b) (- c) ((2 + s) * p - d) (- e) ((2 + s) * p - f) x y z) with ((2 + s) * p * norm3 x y z - quad3 a b c d e f x y z) by (unfold quad3, norm3; ring).
      assert (0 < s * p * norm3 x y z) by (apply Rmult_lt_0_compat; [apply Rmult_lt_0_compat|]; lra). lra. }
    rewrite traceless_det in G. fold D in G.
    assert (E : (2 + s) * p * ((2 + s) * p) * ((2 + s) * p) - 3 * (p * p) * ((2 + s) * p) = (p * p * p) * (2 + 9 * s + 6 * (s * s) + s * s * s)) by ring.
    rewrite E in G. assert (9 * s + 6 * (s * s) + s * s * s <= 16 * s) by nra.
    assert ((p * p * p) * (2 + 9 * s + 6 * (s * s) + s * s * s) <= (p * p * p) * (2 + 16 * k)) by (apply Rmult_le_compat_l; lra). lra.
  Qed.
End Traceless.

Lemma traceless_det_ge : forall a b c d e f p, a + d + f = 0 -> a * a + d * d + f * f + 2 * (b * b + c * c + e * e) = 6 * (p * p) -> 0 < p -> - 2 * (p * p * p) <= dets a b c d e f.
Proof.
  intros a b c d e f p H1 H2 H3. pose proof (traceless_det_le (- a) (- b) (- c) (- d) (- e) (- f) p) as Q.
  replace (dets (- a) (- b) (- c) (- d) (- e) (- f)) with (- dets a b c d e f) in Q by (unfold dets; ring).
  assert (- dets a b c d e f <= 2 * (p * p * p)) by (apply Q; [lra| |exact H3]; rewrite <- H2; ring). lra.
Qed.

(** ** The direction computed from the columns *)
Definition scale3 (k : R) (v : vec3) : vec3 := V3 (k * vx v) (k * vy v) (k * vz v).
Section Columns.
  Variable C : nat -> nat -> R.
  Notation a := (C 0%nat 0%nat). Notation b := (C 0%nat 1%nat). Notation c := (C 0%nat 2%nat).
  Notation d := (C 1%nat 1%nat). Notation e := (C 1%nat 2%nat). Notation f := (C 2%nat 2%nat).
  Hypothesis S01 : C 1%nat 0%nat = b.
  Hypothesis S02 : C 2%nat 0%nat = c.
  Hypothesis S12 : C 2%nat 1%nat = e.
  Notation E0 := (first_eig C).
  (** The columns of the adjugate of C - E0 I. *)
  Definition adj0 : vec3 := V3 ((d - E0) * (f - E0) - e * e) (c * e - b * (f - E0)) (b * e - c * (d - E0)).
  Definition adj1 : vec3 := V3 (c * e - b * (f - E0)) ((a - E0) * (f - E0) - c * c) (b * c - (a - E0) * e).
  Definition adj2 : vec3 := V3 (b * e - c * (d - E0)) (b * c - (a - E0) * e) ((a - E0) * (d - E0) - b * b).

  Lemma general_cases : exists w k, (w = adj0 \/ w = adj1 \/ w = adj2) /\ k * k = 1 /\
    dot3 adj0 adj0 <= dot3 w w /\ dot3 adj1 adj1 <= dot3 w w /\ dot3 adj2 adj2 <= dot3 w w /\
    general_direction C = divide3 (scale3 k w) (sqrt (dot3 w w)).
  Proof.
    assert (E01 : cross (V3 (C 0%nat 0%nat - E0 * id3 0 0) (C 1%nat 0%nat - E0 * id3 1 0) (C 2%nat 0%nat - E0 * id3 2 0))
                        (V3 (C 0%nat 1%nat - E0 * id3 0 1) (C 1%nat 1%nat - E0 * id3 1 1) (C 2%nat 1%nat - E0 * id3 2 1)) = scale3 1 adj2).
    { unfold cross, scale3, adj2, id3. cbn [vx vy vz Nat.eqb]. rewrite S01, S02, S12. f_equal; ring. }
    assert (E02 : cross (V3 (C 0%nat 0%nat - E0 * id3 0 0) (C 1%nat 0%nat - E0 * id3 1 0) (C 2%nat 0%nat - E0 * id3 2 0))
                        (V3 (C 0%nat 2%nat - E0 * id3 0 2) (C 1%nat 2%nat - E0 * id3 1 2) (C 2%nat 2%nat - E0 * id3 2 2)) = scale3 (-1) adj1).
    { unfold cross, scale3, adj1, id3. cbn [vx vy vz Nat.eqb]. rewrite S01, S02. f_equal; ring. }
    assert (E12 : cross (V3 (C 0%nat 1%nat - E0 * id3 0 1) (C 1%nat 1%nat - E0 * id3 1 1) (C 2%nat 1%nat - E0 * id3 2 1))
                        (V3 (C 0%nat 2%nat - E0 * id3 0 2) (C 1%nat 2%nat - E0 * id3 1 2) (C 2%nat 2%nat - E0 * id3 2 2)) = scale3 1 adj0).
    { unfold cross, scale3, adj0, id3. cbn [vx vy vz Nat.eqb]. rewrite S12. f_equal; ring. }
    assert (D : forall k v, k * k = 1 -> dot3 (scale3 k v) (scale3 k v) = dot3 v v).
    { intros k v Hk. unfold dot3, scale3. cbn [vx vy vz].
      replace (k * vx v * (k * vx v) + k * vy v * (k * vy v) + k * vz v * (k * vz v)) with ((k * k) * (vx v * vx v + vy v * vy v + vz v * vz v)) by ring. rewrite Hk. ring. }
    unfold general_direction. cbv zeta beta. rewrite E01, E02, E12, !D by ring.
    destruct (Rltb_spec (dot3 adj2 adj2) (dot3 adj1 adj1)) as [L|L].
    - destruct (Rltb_spec (dot3 adj1 adj1) (dot3 adj0 adj0)) as [L'|L'].
      + exists adj0, 1. split; [auto|]. split; [ring|]. split; [lra|]. split; [lra|]. split; [lra|]. reflexivity.
      + exists adj1, (-1). split; [auto|]. split; [ring|]. split; [lra|]. split; [lra|]. split; [lra|]. reflexivity.
    - destruct (Rltb_spec (dot3 adj2 adj2) (dot3 adj0 adj0)) as [L'|L'].
      + exists adj0, 1. split; [auto|]. split; [ring|]. split; [lra|]. split; [lra|]. split; [lra|]. reflexivity.
      + exists adj2, 1. split; [auto|]. split; [ring|]. split; [lra|]. split; [lra|]. split; [lra|]. reflexivity.
  Qed.

  Definition formC (v : vec3) : R := quad3 a b c d e f (vx v) (vy v) (vz v).
  Lemma divided : forall w k, k * k = 1 -> 0 < dot3 w w -> exists n, divide3 (scale3 k w) (sqrt (dot3 w w)) = Some n /\ unit3 n /\ formC n = formC w / dot3 w w.
  Proof.
    intros w k Hk Hw. pose proof (sqrt_lt_R0 _ Hw) as Hs. pose proof (sqrt_sqrt (dot3 w w) (Rlt_le _ _ Hw)) as Es.
    unfold divide3. destruct (Req_EM_T (sqrt (dot3 w w)) 0) as [Z|Z]; [lra|]. eexists. split; [reflexivity|].
    set (s := sqrt (dot3 w w)) in *. unfold unit3, formC, scale3, quad3. cbn [vx vy vz]. split.
    - replace (k * vx w / s * (k * vx w / s) + k * vy w / s * (k * vy w / s) + k * vz w / s * (k * vz w / s)) with ((k * k) * dot3 w w / (s * s)) by (unfold dot3; field; exact Z).
      rewrite Hk, Es. field. lra.
    - rewrite <- Es. replace (quad3 a b c d e f (vx w) (vy w) (vz w)) with ((k * k) * quad3 a b c d e f (vx w) (vy w) (vz w)) by (rewrite Hk; ring).
      unfold quad3. rewrite <- (Rmult_1_l (a * (vx w * vx w) + _ + _ + _ + _ + _)). rewrite <- Hk. field. exact Z.
  Qed.

  (** A simple largest eigenvalue. *)
  Lemma simple_direction : dets (E0 - a) (- b) (- c) (E0 - d) (- e) (E0 - f) = 0 -> 0 < minors (E0 - a) (- b) (- c) (E0 - d) (- e) (E0 - f) -> 0 < 3 * E0 - (a + d + f) ->
    exists n, general_direction C = Some n /\ unit3 n /\ formC n = E0 /\ forall u, unit3 u -> formC u <= E0.
  Proof.
    intros Hd Hm Ht. destruct general_cases as (w & k & Hw & Hk & L0 & L1 & L2 & EQ). set (A := E0 - a) in *. set (D := E0 - d) in *. set (F := E0 - f) in *.
    destruct (minors_signs _ _ _ _ _ _ Hd Hm) as (P0 & P1 & P2).
    pose proof (sing01 _ _ _ _ _ _ Hd) as Q01. pose proof (sing02 _ _ _ _ _ _ Hd) as Q02. pose proof (sing12 _ _ _ _ _ _ Hd) as Q12.
    assert (N0 : dot3 adj0 adj0 = (D * F - - e * - e) * minors A (- b) (- c) D (- e) F).
    { unfold minors. rewrite !Rmult_plus_distr_l, Q01, Q02. unfold dot3, adj0, A, D, F. cbn [vx vy vz]. ring. }
    assert (N1 : dot3 adj1 adj1 = (A * F - - c * - c) * minors A (- b) (- c) D (- e) F).
    { unfold minors. rewrite !Rmult_plus_distr_l, Q12, (Rmult_comm (A * F - - c * - c) (D * F - _)), Q01. unfold dot3, adj1, A, D, F. cbn [vx vy vz]. ring. }
    assert (N2 : dot3 adj2 adj2 = (A * D - - b * - b) * minors A (- b) (- c) D (- e) F).
    { unfold minors. rewrite !Rmult_plus_distr_l, (Rmult_comm (A * D - - b * - b) (D * F - _)), Q02, (Rmult_comm (A * D - - b * - b) (A * F - _)), Q12.
      unfold dot3, adj2, A, D, F. cbn [vx vy vz]. ring. }
    assert (HW : 0 < dot3 w w).
    { assert (S : 0 < dot3 adj0 adj0 + dot3 adj1 adj1 + dot3 adj2 adj2).
      { rewrite N0, N1, N2. rewrite <- !Rmult_plus_distr_r. apply Rmult_lt_0_compat; exact Hm. }
      lra. }
    destruct (divided w k Hk HW) as (n & E1 & E2 & E3). exists n. rewrite EQ. split; [exact E1|]. split; [exact E2|].
    assert (Form : forall v, formC v = E0 * dot3 v v - quad3 A (- b) (- c) D (- e) F (vx v) (vy v) (vz v)).
    { intros v. unfold formC, dot3, quad3, A, D, F. ring. }
    split.
    - rewrite E3, Form. assert (Z : quad3 A (- b) (- c) D (- e) F (vx w) (vy w) (vz w) = 0).
      { destruct Hw as [Hw|[Hw|Hw]]; subst w.
        - replace (quad3 A (- b) (- c) D (- e) F (vx adj0) (vy adj0) (vz adj0)) with (dets A (- b) (- c) D (- e) F * (D * F - e * e)) by (unfold quad3, dets, adj0, A, D, F; cbn [vx vy vz]; ring). rewrite Hd. ring.
        - replace (quad3 A (- b) (- c) D (- e) F (vx adj1) (vy adj1) (vz adj1)) with (dets A (- b) (- c) D (- e) F * (A * F - c * c)) by (unfold quad3, dets, adj1, A, D, F; cbn [vx vy vz]; ring). rewrite Hd. ring.
        - replace (quad3 A (- b) (- c) D (- e) F (vx adj2) (vy adj2) (vz adj2)) with (dets A (- b) (- c) D (- e) F * (A * D - b * b)) by (unfold quad3, dets, adj2, A, D, F; cbn [vx vy vz]; ring). rewrite Hd. ring. }
      rewrite Z. field. lra.
    - intros u Hu. rewrite Form. unfold unit3 in Hu. unfold dot3. rewrite Hu.
      pose proof (singular_nonneg _ _ _ _ _ _ Hd Hm ltac:(unfold A, D, F; lra) (vx u) (vy u) (vz u)). lra.
  Qed.
End Columns.

(** ** Symmetric matrices of rank one *)
Lemma rank_one : forall A B C D E F, dets A B C D E F = 0 -> minors A B C D E F = 0 -> 0 < A + D + F ->
  exists g h k, A = g * g /\ B = g * h /\ C = g * k /\ D = h * h /\ E = h * k /\ F = k * k.
Proof.
  intros A B C D E F Hd Hm Ht. unfold minors in Hm.
  pose proof (sing01 _ _ _ _ _ _ Hd) as Q1. pose proof (sing02 _ _ _ _ _ _ Hd) as Q2. pose proof (sing12 _ _ _ _ _ _ Hd) as Q3.
  assert (Z : D * F - E * E = 0 /\ A * F - C * C = 0 /\ A * D - B * B = 0).
  { pose proof (Rle_0_sqr (C * E - B * F)). pose proof (Rle_0_sqr (B * E - C * D)). pose proof (Rle_0_sqr (B * C - A * E)). unfold Rsqr in *.
    set (x := D * F - E * E) in *. set (y := A * F - C * C) in *. set (z := A * D - B * B) in *.
    assert (0 <= x * y) by lra. assert (0 <= x * z) by lra. assert (0 <= y * z) by lra.
    assert (x * x + y * y + z * z + 2 * (x * y) + 2 * (x * z) + 2 * (y * z) = 0) by (replace 0 with ((x + y + z) * (x + y + z)) by (rewrite Hm; ring); ring).
    repeat split; nra. }
  destruct Z as (Z1 & Z2 & Z3). rewrite Z1, Z2 in Q1. rewrite Z1, Z3 in Q2. rewrite Z2, Z3 in Q3.
  assert (Y1 : C * E = B * F) by nra. assert (Y2 : B * E = C * D) by nra. assert (Y3 : B * C = A * E) by nra. clear Q1 Q2 Q3.
  assert (X1 : D * F = E * E) by lra. assert (X2 : A * F = C * C) by lra. assert (X3 : A * D = B * B) by lra. clear Z1 Z2 Z3 Hm Hd.
  assert (0 <= D * F) by nra. assert (0 <= A * F) by nra. assert (0 <= A * D) by nra.
  destruct (Rlt_le_dec 0 A) as [PA|NA].
  - pose proof (sqrt_lt_R0 _ PA) as Hs. pose proof (sqrt_sqrt A (Rlt_le _ _ PA)) as Es. set (s := sqrt A) in *. exists s, (B / s), (C / s).
    repeat split; [lra|field; lra|field; lra| | |].
    + apply Rmult_eq_reg_l with A; [|lra]. rewrite X3, <- Es. field. lra.
    + apply Rmult_eq_reg_l with A; [|lra]. rewrite <- Y3, <- Es. field. lra.
    + apply Rmult_eq_reg_l with A; [|lra]. rewrite X2, <- Es. field. lra.
  - destruct (Rlt_le_dec 0 D) as [PD|ND].
    + pose proof (sqrt_lt_R0 _ PD) as Hs. pose proof (sqrt_sqrt D (Rlt_le _ _ PD)) as Es. set (s := sqrt D) in *. exists (B / s), s, (E / s).
      repeat split; [|field; lra| |lra|field; lra|].
      * apply Rmult_eq_reg_l with D; [|lra]. rewrite (Rmult_comm D A), X3, <- Es. field. lra.
      * apply Rmult_eq_reg_l with D; [|lra]. rewrite (Rmult_comm D C), <- Y2, <- Es. field. lra.
      * apply Rmult_eq_reg_l with D; [|lra]. rewrite X1, <- Es. field. lra.
    + assert (PF : 0 < F) by lra. pose proof (sqrt_lt_R0 _ PF) as Hs. pose proof (sqrt_sqrt F (Rlt_le _ _ PF)) as Es. set (s := sqrt F) in *. exists (C / s), (E / s), s.
      repeat split; [| |field; lra| |field; lra|lra].
      * apply Rmult_eq_reg_l with F; [|lra]. rewrite (Rmult_comm F A), X2, <- Es. field. lra.
      * apply Rmult_eq_reg_l with F; [|lra]. rewrite (Rmult_comm F B), <- Y1, <- Es. field. lra.
      * apply Rmult_eq_reg_l with F; [|lra]. rewrite (Rmult_comm F D), X1, <- Es. field. lra.
Qed.

Section Double.
  Variable C : nat -> nat -> R.
  Notation a := (C 0%nat 0%nat). Notation b := (C 0%nat 1%nat). Notation c := (C 0%nat 2%nat).
  Notation d := (C 1%nat 1%nat). Notation e := (C 1%nat 2%nat). Notation f := (C 2%nat 2%nat).
  Hypothesis S01 : C 1%nat 0%nat = b.
  Hypothesis S02 : C 2%nat 0%nat = c.
  Hypothesis S12 : C 2%nat 1%nat = e.
  Notation E0 := (first_eig C).
  Variables (q p dl g h k : R).
  Hypothesis Hp : 0 < p.
  Hypothesis Hdl : 0 < dl <= 1.
  Hypothesis HE : E0 = q + p * (1 - dl).
  Hypothesis Ha : q + p - a = g * g.
  Hypothesis Hb : - b = g * h.
  Hypothesis Hc : - c = g * k.
  Hypothesis Hd : q + p - d = h * h.
  Hypothesis He : - e = h * k.
  Hypothesis Hf : q + p - f = k * k.
  Hypothesis Htr : g * g + h * h + k * k = 3 * p.

  Lemma double_form : forall v, formC C v = (q + p) * dot3 v v - (g * vx v + h * vy v + k * vz v) * (g * vx v + h * vy v + k * vz v).
  Proof.
    intros v. unfold formC, quad3, dot3. replace a with (q + p - g * g) by lra. replace b with (- (g * h)) by lra. replace c with (- (g * k)) by lra.
    replace d with (q + p - h * h) by lra. replace e with (- (h * k)) by lra. replace f with (q + p - k * k) by lra. ring.
  Qed.
  Let kp := p * dl.
  Definition colnorm (x : R) : R := kp * kp * ((3 * p - kp) * (3 * p - kp) - (3 * p - 2 * kp) * (x * x)).
  Definition colform (x : R) : R := kp * kp * (kp * kp) * (x * x).
  Let dotg (w : vec3) : R := g * vx w + h * vy w + k * vz w.
  Lemma double_columns :
    (dot3 (adj0 C) (adj0 C) = colnorm g /\ dotg (adj0 C) * dotg (adj0 C) = colform g) /\
    (dot3 (adj1 C) (adj1 C) = colnorm h /\ dotg (adj1 C) * dotg (adj1 C) = colform h) /\
    (dot3 (adj2 C) (adj2 C) = colnorm k /\ dotg (adj2 C) * dotg (adj2 C) = colform k).
  Proof.
    assert (A0 : a - E0 = p * dl - g * g) by lra. assert (A1 : d - E0 = p * dl - h * h) by lra. assert (A2 : f - E0 = p * dl - k * k) by lra.
    assert (B0 : b = - (g * h)) by lra. assert (B1 : c = - (g * k)) by lra. assert (B2 : e = - (h * k)) by lra.
    assert (P3 : p = (g * g + h * h + k * k) / 3) by lra.
    unfold colnorm, colform, dotg, dot3, adj0, adj1, adj2, kp. cbn [vx vy vz]. rewrite A0, A1, A2, B0, B1, B2, P3.
    repeat split; field.
  Qed.
  Lemma double_direction : exists n, general_direction C = Some n /\ unit3 n /\ q + p - p * (dl * dl) / 2 <= formC C n /\ forall u, unit3 u -> formC C u <= q + p.
  Proof.
    destruct (general_cases C S01 S02 S12) as (w & z & Hw & Hz & L0 & L1 & L2 & EQ). destruct double_columns as ((N0 & F0) & (N1 & F1) & (N2 & F2)).
    assert (Hk : 0 < kp) by (apply Rmult_lt_0_compat; lra). assert (Hk' : kp <= p) by (unfold kp; nra).
    assert (X : exists x, dot3 w w = colnorm x /\ dotg w * dotg w = colform x).
    { destruct Hw as [Hw|[Hw|Hw]]; subst w; eauto. }
    destruct X as (x & Nx & Fx).
    assert (K2 : 0 < kp * kp) by (apply Rmult_lt_0_compat; exact Hk).
    assert (Min : forall y, colnorm y <= colnorm x -> x * x <= y * y).
    { intros y Hy. unfold colnorm in Hy. apply Rmult_le_reg_l in Hy; [|exact K2]. apply Rmult_le_reg_l with (3 * p - 2 * kp); lra. }
    assert (Hx : x * x <= p).
    { pose proof (Min g ltac:(lra)). pose proof (Min h ltac:(lra)). pose proof (Min k ltac:(lra)). lra. }
    assert (Big : 2 * (kp * kp) * (p * p) <= dot3 w w).
    { rewrite Nx. unfold colnorm. replace (2 * (kp * kp) * (p * p)) with (kp * kp * (2 * (p * p))) by ring. apply Rmult_le_compat_l; [lra|].
      assert ((3 * p - 2 * kp) * (x * x) <= (3 * p - 2 * kp) * p) by (apply Rmult_le_compat_l; lra). nra. }
    assert (Pos : 0 < 2 * (kp * kp) * (p * p)). { apply Rmult_lt_0_compat; [lra|apply Rmult_lt_0_compat; lra]. }
    destruct (divided C w z Hz ltac:(lra)) as (n & E1 & E2 & E3). exists n. rewrite EQ. split; [exact E1|]. split; [exact E2|]. split.
    - rewrite E3, double_form. fold (dotg w). rewrite Fx. apply Rmult_le_reg_r with (dot3 w w); [lra|].
      replace (((q + p) * dot3 w w - colform x) / dot3 w w * dot3 w w) with ((q + p) * dot3 w w - colform x) by (field; lra).
      assert (colform x <= p * (dl * dl) / 2 * dot3 w w); [|lra].
      apply Rle_trans with (p * (dl * dl) / 2 * (2 * (kp * kp) * (p * p))).
      + unfold colform. replace (p * (dl * dl) / 2 * (2 * (kp * kp) * (p * p))) with (kp * kp * (kp * kp) * p) by (unfold kp; field).
        apply Rmult_le_compat_l; [|exact Hx]. apply Rmult_le_pos; lra.
      + apply Rmult_le_compat_l; [|exact Big]. pose proof (Rle_0_sqr dl) as Q. unfold Rsqr in Q. assert (0 <= p * (dl * dl)) by (apply Rmult_le_pos; lra). lra.
    - intros u Hu. rewrite double_form. unfold unit3 in Hu. unfold dot3. rewrite Hu. pose proof (Rle_0_sqr (g * vx u + h * vy u + k * vz u)) as Q. unfold Rsqr in Q. lra.
  Qed.
  (** The smallest eigenvalue is q - 2 p. *)
  Lemma double_small : (forall v, 0 <= formC C v) -> 2 * p <= q.
  Proof.
    intros H. pose proof (H (V3 g h k)) as Q. rewrite double_form in Q. unfold dot3 in Q. cbn [vx vy vz] in Q. rewrite Htr in Q.
    assert (0 <= 3 * p * (q - 2 * p)) by lra. assert (0 <= q - 2 * p); [|lra]. apply Rmult_le_reg_l with (3 * p); [lra|]. lra.
  Qed.
End Double.

(** ** The eigenvalue *)
Lemma cos_triple : forall x, cos (3 * x) = 4 * (cos x * cos x * cos x) - 3 * cos x.
Proof.
  intros x. replace (3 * x) with (x + 2 * x) by ring. rewrite cos_plus, cos_2a_cos, sin_2a.
  pose proof (sin2_cos2 x) as H. unfold Rsqr in H. replace (sin x * (2 * sin x * cos x)) with (2 * (sin x * sin x) * cos x) by ring.
  replace (sin x * sin x) with (1 - cos x * cos x) by lra. ring.
Qed.

Section Eig.
  Variable C : nat -> nat -> R.
  Notation a := (C 0%nat 0%nat). Notation b := (C 0%nat 1%nat). Notation c := (C 0%nat 2%nat).
  Notation d := (C 1%nat 1%nat). Notation e := (C 1%nat 2%nat). Notation f := (C 2%nat 2%nat).
  Hypothesis S01 : C 1%nat 0%nat = b.
  Hypothesis S02 : C 2%nat 0%nat = c.
  Hypothesis S12 : C 2%nat 1%nat = e.
  Hypothesis Hoff : 0 < off_diagonal C.
  Notation q := (mean3 C).
  Notation p := (spread3 C).
  Lemma spread_sq : (a - q) * (a - q) + (d - q) * (d - q) + (f - q) * (f - q) + 2 * (b * b + c * c + e * e) = 6 * (p * p).
  Proof.
    unfold spread3. rewrite sqrt_sqrt; [unfold off_diagonal; field|]. unfold off_diagonal in Hoff.
    pose proof (pow2_ge_0 (a - q)). pose proof (pow2_ge_0 (d - q)). pose proof (pow2_ge_0 (f - q)). unfold off_diagonal. lra.
  Qed.
  Lemma spread_pos : 0 < p.
  Proof.
    unfold spread3. apply sqrt_lt_R0. pose proof (pow2_ge_0 (a - q)). pose proof (pow2_ge_0 (d - q)). pose proof (pow2_ge_0 (f - q)). lra.
  Qed.
  Lemma mean_trace : (a - q) + (d - q) + (f - q) = 0.
  Proof. unfold mean3. field. Qed.
  Notation DD := (dets (a - q) b c (d - q) e (f - q)).
  Definition ratio : R := det3 (scaled3 C) / 2.
  Lemma ratio_det : DD = 2 * ratio * (p * p * p).
  Proof.
    pose proof spread_pos. unfold ratio, det3, scaled3, id3, dets. cbn [Nat.eqb]. rewrite S01, S02, S12. field. lra.
  Qed.
  Lemma ratio_bounds : -1 <= ratio <= 1.
  Proof.
    pose proof spread_pos as P. assert (P3 : 0 < p * p * p) by (apply Rmult_lt_0_compat; [apply Rmult_lt_0_compat|]; exact P).
    pose proof (traceless_det_le _ _ _ _ _ _ _ mean_trace spread_sq P) as U. pose proof (traceless_det_ge _ _ _ _ _ _ _ mean_trace spread_sq P) as L.
    rewrite ratio_det in U, L. split; apply Rmult_le_reg_r with (p * p * p); lra.
  Qed.
  (** det(s I - C) for s = q + p t. *)
  Lemma det_at : forall t, dets (q + p * t - a) (- b) (- c) (q + p * t - d) (- e) (q + p * t - f) = p * p * p * (t * t * t - 3 * t - 2 * ratio).
  Proof.
    intros t. pose proof (traceless_det _ _ _ _ _ _ _ mean_trace spread_sq (p * t)) as H.
    replace (q + p * t - a) with (p * t - (a - q)) by ring. replace (q + p * t - d) with (p * t - (d - q)) by ring. replace (q + p * t - f) with (p * t - (f - q)) by ring.
    rewrite H, ratio_det. ring.
  Qed.
  Lemma minors_at : forall t, minors (q + p * t - a) (- b) (- c) (q + p * t - d) (- e) (q + p * t - f) = 3 * (p * p) * (t * t - 1).
  Proof.
    intros t. pose proof (traceless_minors _ _ _ _ _ _ _ mean_trace spread_sq) as H. pose proof mean_trace as T.
    assert (E : minors (q + p * t - a) (- b) (- c) (q + p * t - d) (- e) (q + p * t - f) =
      3 * (p * t * (p * t)) - 2 * (p * t) * ((a - q) + (d - q) + (f - q)) + (((d - q) * (f - q) - e * e) + ((a - q) * (f - q) - c * c) + ((a - q) * (d - q) - b * b))) by (unfold minors; ring).
    rewrite E, H, T. ring.
  Qed.
  (** The largest eigenvalue is simple. *)
  Lemma general_simple : -1 < ratio -> exists n, general_direction C = Some n /\ unit3 n /\ q <= first_eig C /\ formC C n = first_eig C /\ forall u, unit3 u -> formC C u <= first_eig C.
  Proof.
    intros Hr. pose proof ratio_bounds as Rb. pose proof spread_pos as P.
    assert (T : exists t, first_eig C = q + p * t /\ 1 < t /\ t * t * t - 3 * t - 2 * ratio = 0).
    { unfold first_eig, angle3. fold ratio. destruct (Rle_dec ratio (-1)) as [L|L]; [lra|]. destruct (Rle_dec 1 ratio) as [L'|L'].
      - exists 2. rewrite cos_0. split; [ring|]. split; [lra|]. replace ratio with 1 by lra. ring.
      - exists (2 * cos (acos ratio / 3)). split; [ring|]. pose proof (acos_bound_lt ratio ltac:(lra)) as B. pose proof (cos_acos ratio ltac:(lra)) as E.
        split.
        + assert (cos (PI / 3) < cos (acos ratio / 3)); [|rewrite cos_PI3 in *; lra]. pose proof PI_RGT_0. apply cos_decreasing_1; lra.
        + pose proof (cos_triple (acos ratio / 3)) as T. replace (3 * (acos ratio / 3)) with (acos ratio) in T by field. rewrite E in T. lra. }
    destruct T as (t & E & Ht & Z). destruct (simple_direction C S01 S02 S12) as (n & H1 & H2 & H3 & H4).
    - rewrite E, det_at, Z. ring.
    - rewrite E, minors_at. apply Rmult_lt_0_compat; [apply Rmult_lt_0_compat; [lra|apply Rmult_lt_0_compat; exact P]|nra].
    - rewrite E. assert (0 < p * t) by (apply Rmult_lt_0_compat; lra). pose proof mean_trace. lra.
    - exists n. repeat split; try assumption. rewrite E. assert (0 < p * t) by (apply Rmult_lt_0_compat; lra). lra.
  Qed.
  (** The largest eigenvalue is double; the angle is the literal of the code. *)
  Lemma general_double : ratio = -1 -> 0 < 1 - 2 * cos third_of_pi <= 1 -> (forall v, 0 <= formC C v) ->
    exists n, general_direction C = Some n /\ unit3 n /\ q <= first_eig C /\
      (forall u, unit3 u -> formC C u <= q + p) /\ (q + p) * (1 - (1 - 2 * cos third_of_pi) * (1 - 2 * cos third_of_pi) / 6) <= formC C n.
  Proof.
    intros Hr Hd Hpsd. pose proof spread_pos as P. set (dl := 1 - 2 * cos third_of_pi) in *.
    assert (E : first_eig C = q + p * (1 - dl)).
    { unfold first_eig, angle3. fold ratio. destruct (Rle_dec ratio (-1)) as [L|L]; [|lra]. unfold dl. ring. }
    destruct (rank_one (q + p * 1 - a) (- b) (- c) (q + p * 1 - d) (- e) (q + p * 1 - f)) as (g & h & k & H1 & H2 & H3 & H4 & H5 & H6).
    { rewrite det_at, Hr. ring. } { rewrite minors_at. ring. } { pose proof mean_trace. lra. }
    rewrite Rmult_1_r in *.
    assert (Htr : g * g + h * h + k * k = 3 * p) by (pose proof mean_trace; lra).
    destruct (double_direction C S01 S02 S12 q p dl g h k P Hd E H1 H2 H3 H4 H5 H6 Htr) as (n & G1 & G2 & G3 & G4).
    pose proof (double_small C q p g h k P H1 H2 H3 H4 H5 H6 Htr Hpsd) as G5.
    exists n. split; [exact G1|]. split; [exact G2|]. split; [|split; [exact G4|]].
    - rewrite E. assert (0 <= p * (1 - dl)) by (apply Rmult_le_pos; lra). lra.
    - apply Rle_trans with (q + p - p * (dl * dl) / 2); [|exact G3]. pose proof (Rle_0_sqr dl) as Q. unfold Rsqr in Q.
      assert (p * (dl * dl) <= (q + p) / 3 * (dl * dl)) by (apply Rmult_le_compat_r; lra). lra.
  Qed.
End Eig.

(** ** The literal of the code *)
Lemma pi_upper : PI < 3.141592653589794.
Proof.
  pose proof (proj2 (PI_2_3_7_ineq 8)) as H.
  cbn [sum_f_R0 Nat.mul Nat.add] in H. unfold tg_alt, PI_2_3_7_tg, Ratan_seq in H. rewrite !INR_IZR_INZ in H.
  cbn [Nat.mul Nat.add Init.Nat.add Init.Nat.mul Z.of_nat Pos.of_succ_nat Pos.succ pow] in H. lra.
Qed.
Lemma pi_lower : 3.14159265358979 < PI.
Proof.
  pose proof (proj1 (PI_2_3_7_ineq 8)) as H.
  cbn [sum_f_R0 Nat.mul Nat.add] in H. unfold tg_alt, PI_2_3_7_tg, Ratan_seq in H. rewrite !INR_IZR_INZ in H.
  cbn [Nat.mul Nat.add Init.Nat.add Init.Nat.mul Z.of_nat Pos.of_succ_nat Pos.succ pow] in H. lra.
Qed.
Lemma third_gap : 0 < 1 - 2 * cos third_of_pi <= 3 / 10 ^ 15.
Proof.
  pose proof pi_upper as U. pose proof pi_lower as L. split.
  - assert (cos third_of_pi < cos (PI / 3)); [|rewrite cos_PI3 in *; lra]. unfold third_of_pi. apply cos_decreasing_1; lra.
  - pose proof (form2 (PI / 3) third_of_pi) as F. rewrite cos_PI3 in F.
    assert (S : sin ((PI / 3 - third_of_pi) / 2) = - sin ((third_of_pi - PI / 3) / 2)) by (rewrite <- sin_neg; f_equal; field).
    rewrite S in F. set (x := (third_of_pi - PI / 3) / 2) in *.
    assert (Hx : 0 < x) by (unfold x, third_of_pi; lra). pose proof (sin_lt_x x Hx) as Q.
    assert (Sx : 0 < sin x) by (apply sin_gt_0; [exact Hx|unfold x, third_of_pi; lra]).
    pose proof (SIN_bound ((PI / 3 + third_of_pi) / 2)) as B. set (z := sin ((PI / 3 + third_of_pi) / 2)) in *.
    assert (sin x * z <= x) by nra. assert (x <= 3 / 4 / 10 ^ 15) by (unfold x, third_of_pi; lra). lra.
Qed.

(** ** The quadratic form is the variance *)
Lemma over_add : forall l f g, over l (fun i => f i + g i) = over l f + over l g.
Proof. induction l as [|x l IH]; intros; cbn; [ring|rewrite IH; ring]. Qed.
Lemma over_mul : forall l k f, over l (fun i => k * f i) = k * over l f.
Proof. induction l as [|x l IH]; intros; cbn; [ring|rewrite IH; ring]. Qed.
Lemma correlation_form : forall X W center pts u v,
  let C := covariance 3 X W center pts in
  correlation X W center pts u v =
    C 0%nat 0%nat * (vx u * vx v) + C 1%nat 1%nat * (vy u * vy v) + C 2%nat 2%nat * (vz u * vz v)
    + C 0%nat 1%nat * (vx u * vy v + vy u * vx v) + C 0%nat 2%nat * (vx u * vz v + vz u * vx v) + C 1%nat 2%nat * (vy u * vz v + vz u * vy v).
Proof.
  intros X W center pts u v C. unfold C. rewrite !covariance_over.
  rewrite !(Rmult_comm (over _ _)), <- !over_mul, <- !over_add. unfold correlation. apply over_ext. intros i Hi. unfold along3, coord.
  replace (3 * i + 0)%nat with (3 * i)%nat by ring. ring.
Qed.
Lemma variance3_form : forall X W center pts v, variance3 X W center pts v = formC (covariance 3 X W center pts) v.
Proof.
  intros X W center pts v. change (variance3 X W center pts v) with (correlation X W center pts v v). rewrite correlation_form. unfold formC, quad3. ring.
Qed.
Lemma variance3_nonneg : forall X W center pts v, (forall i, In i pts -> 0 <= nth i W 0) -> 0 <= variance3 X W center pts v.
Proof. intros. unfold variance3. apply over_nonneg. intros i Hi. apply Rmult_le_pos; [auto|apply Rle_0_sqr]. Qed.

(** ** Orthogonal vectors *)
Lemma normalised : forall w, 0 < dot3 w w -> exists v k, unit3 v /\ v = scale3 k w.
Proof.
  intros w H. pose proof (sqrt_lt_R0 _ H) as Hs. pose proof (sqrt_sqrt _ (Rlt_le _ _ H)) as Es. set (s := sqrt (dot3 w w)) in *.
  exists (scale3 (/ s) w), (/ s). split; [|reflexivity]. unfold unit3, scale3. cbn [vx vy vz].
  replace (/ s * vx w * (/ s * vx w) + / s * vy w * (/ s * vy w) + / s * vz w * (/ s * vz w)) with (dot3 w w / (s * s)) by (unfold dot3; field; lra).
  rewrite Es. field. lra.
Qed.
Lemma orthogonal_to : forall u g, unit3 u -> exists v, unit3 v /\ dot3 u v = 0 /\ dot3 g v = 0.
Proof.
  intros u g Hu. unfold unit3 in Hu.
  destruct (Rlt_le_dec 0 (dot3 (cross u g) (cross u g))) as [P|N].
  - destruct (normalised _ P) as (v & k & Hv & Ev). exists v. split; [exact Hv|]. subst v. unfold dot3, scale3, cross. cbn [vx vy vz]. split; ring.
  - assert (Z : vy u * vz g - vz u * vy g = 0 /\ vz u * vx g - vx u * vz g = 0 /\ vx u * vy g - vy u * vx g = 0).
    { unfold dot3, cross in N. cbn [vx vy vz] in N.
      pose proof (Rle_0_sqr (vy u * vz g - vz u * vy g)). pose proof (Rle_0_sqr (vz u * vx g - vx u * vz g)). pose proof (Rle_0_sqr (vx u * vy g - vy u * vx g)). unfold Rsqr in *.
      repeat split; apply Rsqr_0_uniq; unfold Rsqr; lra. }
    destruct Z as (Z1 & Z2 & Z3).
    assert (G : forall v, dot3 u v = 0 -> dot3 g v = 0).
    { intros v Hv. unfold dot3 in *. 
      replace (vx g * vx v + vy g * vy v + vz g * vz v) with ((vx u * vx u + vy u * vy u + vz u * vz u) * (vx g * vx v + vy g * vy v + vz g * vz v)) by (rewrite Hu; ring).
      replace ((vx u * vx u + vy u * vy u + vz u * vz u) * (vx g * vx v + vy g * vy v + vz g * vz v)) with
        ((vx u * vx g + vy u * vy g + vz u * vz g) * (vx u * vx v + vy u * vy v + vz u * vz v)
         + (vy u * vz g - vz u * vy g) * (vy u * vz v - vz u * vy v) + (vz u * vx g - vx u * vz g) * (vz u * vx v - vx u * vz v) + (vx u * vy g - vy u * vx g) * (vx u * vy v - vy u * vx v)) by ring.
      rewrite Hv, Z1, Z2, Z3. ring. }
    assert (O : exists w, 0 < dot3 w w /\ dot3 u w = 0).
    { destruct (Rlt_le_dec 0 (vx u * vx u + vy u * vy u)) as [Q|Q].
      - exists (V3 (vy u) (- vx u) 0). unfold dot3. cbn [vx vy vz]. split; [|ring]. lra.
      - exists (V3 (vz u) 0 (- vx u)). unfold dot3. cbn [vx vy vz]. split; [|ring]. pose proof (Rle_0_sqr (vx u)) as A1. pose proof (Rle_0_sqr (vy u)) as A2. unfold Rsqr in *. lra. }
    destruct O as (w & Pw & Ow). destruct (normalised _ Pw) as (v & k & Hv & Ev). exists v.
    assert (Dv : dot3 u v = 0). { subst v. unfold dot3, scale3 in *. cbn [vx vy vz]. replace (vx u * (k * vx w) + vy u * (k * vy w) + vz u * (k * vz w)) with (k * (vx u * vx w + vy u * vy w + vz u * vz w)) by ring. rewrite Ow. ring. }
    split; [exact Hv|]. split; [exact Dv|apply G, Dv].
Qed.

(** ** solve_EVP_3 *)
Section Solve.
  Variable C : nat -> nat -> R.
  Notation a := (C 0%nat 0%nat). Notation b := (C 0%nat 1%nat). Notation c := (C 0%nat 2%nat).
  Notation d := (C 1%nat 1%nat). Notation e := (C 1%nat 2%nat). Notation f := (C 2%nat 2%nat).
  Hypothesis S01 : C 1%nat 0%nat = b.
  Hypothesis S02 : C 2%nat 0%nat = c.
  Hypothesis S12 : C 2%nat 1%nat = e.
  Hypothesis Hpsd : forall v, 0 <= formC C v.
  Variable eps : R.
  Hypothesis Heps : 0 < eps <= 2 / 9.
  Lemma mean_large : eps <= off_diagonal C -> eps <= mean3 C.
  Proof.
    intros H. pose proof (Hpsd (V3 1 1 0)) as A1. pose proof (Hpsd (V3 1 (-1) 0)) as A2. pose proof (Hpsd (V3 1 0 1)) as A3. pose proof (Hpsd (V3 1 0 (-1))) as A4.
    pose proof (Hpsd (V3 0 1 1)) as A5. pose proof (Hpsd (V3 0 1 (-1))) as A6. pose proof (Hpsd (V3 1 0 0)) as A7. pose proof (Hpsd (V3 0 1 0)) as A8. pose proof (Hpsd (V3 0 0 1)) as A9.
    unfold formC, quad3 in *. cbn [vx vy vz] in *. unfold off_diagonal in H.
    assert (Ha : 0 <= a) by lra. assert (Hd : 0 <= d) by lra. assert (Hf : 0 <= f) by lra.
    assert (L1 : 4 * (b * b) <= (a + d) * (a + d)) by nra. assert (L2 : 4 * (c * c) <= (a + f) * (a + f)) by nra. assert (L3 : 4 * (e * e) <= (d + f) * (d + f)) by nra.
    assert (0 <= a * d) by nra. assert (0 <= a * f) by nra. assert (0 <= d * f) by nra.
    assert (T : 2 * eps <= (a + d + f) * (a + d + f)) by nra.
    unfold mean3. assert (eps * eps <= 2 / 9 * eps) by nra. assert (9 * (eps * eps) <= (a + d + f) * (a + d + f)) by lra.
    assert (3 * eps <= a + d + f); [|lra]. apply Rnot_lt_le. intros N. nra.
  Qed.
  Lemma diagonal_case : unit3 (diagonal_direction C) /\ forall u, unit3 u -> formC C u <= formC C (diagonal_direction C) + 2 * sqrt (off_diagonal C / 3).
  Proof.
    assert (G : unit3 (diagonal_direction C) /\ a <= formC C (diagonal_direction C) /\ d <= formC C (diagonal_direction C) /\ f <= formC C (diagonal_direction C)).
    { unfold diagonal_direction. destruct (Rltb_spec a d); [destruct (Rltb_spec d f)|destruct (Rltb_spec a f)]; unfold unit3, formC, quad3; cbn [vx vy vz]; repeat split; lra. }
    destruct G as (G0 & G1 & G2 & G3). split; [exact G0|]. set (m := formC C (diagonal_direction C)) in *. intros u Hu. unfold unit3 in Hu. unfold formC, quad3.
    set (x := vx u) in *. set (y := vy u) in *. set (z := vz u) in *.
    assert (Po : 0 <= off_diagonal C) by (unfold off_diagonal; pose proof (pow2_ge_0 b); pose proof (pow2_ge_0 c); pose proof (pow2_ge_0 e); lra).
    assert (M : a * (x * x) + d * (y * y) + f * (z * z) <= m).
    { pose proof (Rle_0_sqr x). pose proof (Rle_0_sqr y). pose proof (Rle_0_sqr z). unfold Rsqr in *.
      assert (a * (x * x) <= m * (x * x)) by (apply Rmult_le_compat_r; lra). assert (d * (y * y) <= m * (y * y)) by (apply Rmult_le_compat_r; lra). assert (f * (z * z) <= m * (z * z)) by (apply Rmult_le_compat_r; lra).
      replace m with (m * (x * x + y * y + z * z)) by (rewrite Hu; ring). lra. }
    assert (L : b * (x * y) + c * (x * z) + e * (y * z) <= sqrt (off_diagonal C / 3)).
    { apply Rle_trans with (sqrt ((b * (x * y) + c * (x * z) + e * (y * z)) * (b * (x * y) + c * (x * z) + e * (y * z)))).
      - change (b * (x * y) + c * (x * z) + e * (y * z) <= sqrt (Rsqr (b * (x * y) + c * (x * z) + e * (y * z)))). rewrite sqrt_Rsqr_abs. apply RRle_abs.
      - apply sqrt_le_1_alt. set (X := x * y). set (Y := x * z). set (Z := y * z).
        apply Rle_trans with ((b * b + c * c + e * e) * (X * X + Y * Y + Z * Z)).
        + pose proof (Rle_0_sqr (b * Y - c * X)). pose proof (Rle_0_sqr (b * Z - e * X)). pose proof (Rle_0_sqr (c * Z - e * Y)). unfold Rsqr in *. nra.
        + replace (off_diagonal C / 3) with ((b * b + c * c + e * e) * (1 / 3)) by (unfold off_diagonal; field). apply Rmult_le_compat_l; [unfold off_diagonal in Po; lra|].
          unfold X, Y, Z. assert (E : (x * x + y * y + z * z) * (x * x + y * y + z * z) = 1) by (rewrite Hu; ring).
          pose proof (Rle_0_sqr (x * x - y * y)). pose proof (Rle_0_sqr (x * x - z * z)). pose proof (Rle_0_sqr (y * y - z * z)). unfold Rsqr in *. nra. }
    lra.
  Qed.
  Lemma solve_general : eps <= off_diagonal C -> exists n, solve_evp_3 C eps = Some n /\ unit3 n /\
    (forall u, unit3 u -> formC C u * (1 - 2 / 10 ^ 30) <= formC C n) /\
    ((exists u, unit3 u /\ forall v, unit3 v -> dot3 u v = 0 -> formC C v < formC C u) -> forall u, unit3 u -> formC C u <= formC C n).
  Proof.
    intros H. pose proof (mean_large H) as M. assert (P : 0 < off_diagonal C) by lra. pose proof (ratio_bounds C S01 S02 S12 P) as Rb.
    unfold solve_evp_3. destruct (Rltb_spec (off_diagonal C) eps) as [L|L]; [lra|].
    destruct (Rle_lt_dec (ratio C) (-1)) as [Q|Q].
    - assert (Er : ratio C = -1) by lra. pose proof third_gap as Tg.
      destruct (general_double C S01 S02 S12 P Er ltac:(lra) Hpsd) as (n & H1 & H2 & H3 & H4 & H5).
      destruct (Rltb_spec (Rabs (first_eig C)) eps) as [L'|L']; [rewrite Rabs_right in L'; lra|]. exists n. split; [exact H1|]. split; [exact H2|].
      set (dl := 1 - 2 * cos third_of_pi) in *. split.
      + intros u Hu. apply Rle_trans with ((mean3 C + spread3 C) * (1 - 2 / 10 ^ 30)).
        * apply Rmult_le_compat_r; [lra|]. apply H4, Hu.
        * apply Rle_trans with ((mean3 C + spread3 C) * (1 - dl * dl / 6)); [|exact H5]. apply Rmult_le_compat_l; [pose proof (spread_pos C P); lra|]. assert (dl * dl <= 3 / 10 ^ 15 * (3 / 10 ^ 15)) by (apply Rmult_le_compat; lra). lra.
      + intros (u & Hu & Hs). exfalso.
        destruct (rank_one (mean3 C + spread3 C * 1 - a) (- b) (- c) (mean3 C + spread3 C * 1 - d) (- e) (mean3 C + spread3 C * 1 - f)) as (g & h & k & G1 & G2 & G3 & G4 & G5 & G6).
        { rewrite (det_at C S01 S02 S12 P), Er. ring. } { rewrite (minors_at C P). ring. } { pose proof (mean_trace C). pose proof (spread_pos C P). lra. }
        rewrite Rmult_1_r in *.
        destruct (orthogonal_to u (V3 g h k) Hu) as (v & Hv & O1 & O2). pose proof (Hs v Hv O1) as Lt.
        rewrite (double_form C _ _ g h k G1 G2 G3 G4 G5 G6 v) in Lt. unfold dot3 in O2. cbn [vx vy vz] in O2. rewrite O2 in Lt. unfold unit3 in Hv. unfold dot3 in Lt. rewrite Hv in Lt.
        pose proof (H4 u Hu). lra.
    - destruct (general_simple C S01 S02 S12 P Q) as (n & H1 & H2 & H3 & H4 & H5).
      destruct (Rltb_spec (Rabs (first_eig C)) eps) as [L'|L']; [rewrite Rabs_right in L'; lra|]. exists n. split; [exact H1|]. split; [exact H2|].
      assert (G : forall u, unit3 u -> formC C u <= formC C n) by (intros u Hu; rewrite H4; apply H5, Hu).
      split; [|intros _; exact G]. intros u Hu. pose proof (G u Hu). pose proof (Hpsd u). nra.
  Qed.
End Solve.
