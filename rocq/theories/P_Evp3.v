(** * Property C64: the splitting direction in space maximises the variance. *)

From Coq Require Import List Arith Reals Lra Psatz.
From Verif Require Import RealNum ClusterModel GeomModel GeomSpec GeomProofs Evp3Model Evp3Spec Evp3Proofs.
Import ListNotations.
Local Open Scope R_scope.

Definition e_x : vec3 := V3 1 0 0.
Definition e_y : vec3 := V3 0 1 0.
Definition e_z : vec3 := V3 0 0 1.
(** Sum of the squares of the correlations of the coordinates: zero when the axes are principal. *)
Definition cross_correlation (X W center : list R) (pts : list nat) : R :=
  correlation X W center pts e_x e_y ^ 2 + correlation X W center pts e_x e_z ^ 2 + correlation X W center pts e_y e_z ^ 2.

Lemma off_diagonal_is : forall X W center pts, off_diagonal (covariance 3 X W center pts) = cross_correlation X W center pts.
Proof.
  intros. unfold off_diagonal, cross_correlation. rewrite !correlation_form. unfold e_x, e_y, e_z. cbn [vx vy vz]. ring.
Qed.

Section C64.
  Variables (eps : R) (X W center : list R) (pts : list nat).
  Hypothesis Heps : 0 < eps <= 2 / 9.
  Hypothesis HW : forall i, In i pts -> 0 <= nth i W 0.
  Notation var := (variance3 X W center pts).
  Notation C := (covariance 3 X W center pts).
  Lemma psd : forall v, 0 <= formC C v.
  Proof. intros v. rewrite <- variance3_form. apply variance3_nonneg, HW. Qed.

  (** Correlated coordinates: a unit vector along which the variance is the largest, up to the relative error 2e-30 due to the literal
      approximation of PI/3 in the code. *)
  Theorem C64_largest_extent_3d : eps <= cross_correlation X W center pts ->
    exists n, largest_extent_3 eps X W center pts = Some n /\ unit3 n /\ forall u, unit3 u -> var u * (1 - 2 / 10 ^ 30) <= var n.
  Proof.
    intros H. rewrite <- off_diagonal_is in H.
    destruct (solve_general C (covariance_sym _ _ _ _ _ _ _) (covariance_sym _ _ _ _ _ _ _) (covariance_sym _ _ _ _ _ _ _) psd eps Heps H) as (n & H1 & H2 & H3 & _).
    exists n. split; [exact H1|]. split; [exact H2|]. intros u Hu. rewrite !variance3_form. apply H3, Hu.
  Qed.
  (** Exactly the largest when some direction strictly dominates those orthogonal to it. *)
  Theorem C64_dominant_direction : eps <= cross_correlation X W center pts ->
    (exists u, unit3 u /\ forall v, unit3 v -> dot3 u v = 0 -> var v < var u) ->
    exists n, largest_extent_3 eps X W center pts = Some n /\ unit3 n /\ forall u, unit3 u -> var u <= var n.
  Proof.
    intros H (u & Hu & Hs). rewrite <- off_diagonal_is in H.
    destruct (solve_general C (covariance_sym _ _ _ _ _ _ _) (covariance_sym _ _ _ _ _ _ _) (covariance_sym _ _ _ _ _ _ _) psd eps Heps H) as (n & H1 & H2 & _ & H4).
    exists n. split; [exact H1|]. split; [exact H2|]. intros w Hw. rewrite !variance3_form. apply H4; [|exact Hw].
    exists u. split; [exact Hu|]. intros v Hv O. rewrite <- !variance3_form. apply Hs; assumption.
  Qed.
  (** Nearly uncorrelated coordinates: an axis along which the variance is the largest up to an absolute error. *)
  Theorem C64_axis : cross_correlation X W center pts < eps ->
    exists n, largest_extent_3 eps X W center pts = Some n /\ (n = e_x \/ n = e_y \/ n = e_z) /\
      forall u, unit3 u -> var u <= var n + 2 * sqrt (cross_correlation X W center pts / 3).
  Proof.
    intros H. rewrite <- off_diagonal_is in *. destruct (diagonal_case C) as (H1 & H2). exists (diagonal_direction C).
    split; [unfold largest_extent_3, solve_evp_3; destruct (Rltb_spec (off_diagonal C) eps); [reflexivity|lra]|]. split.
    - unfold diagonal_direction, e_x, e_y, e_z. destruct (Rltb (C 0%nat 0%nat) (C 1%nat 1%nat)); destruct (Rltb _ (C 2%nat 2%nat)); auto.
    - intros u Hu. rewrite !variance3_form. apply H2, Hu.
  Qed.
  (** Always a unit vector, whose variance is close to the largest one. *)
  Theorem C64_always_a_direction : exists n, largest_extent_3 eps X W center pts = Some n /\ unit3 n /\
    forall u, unit3 u -> var u * (1 - 2 / 10 ^ 30) <= var n + 2 * sqrt (eps / 3).
  Proof.
    destruct (Rle_lt_dec eps (cross_correlation X W center pts)) as [L|L].
    - destruct (C64_largest_extent_3d L) as (n & H1 & H2 & H3). exists n. split; [exact H1|]. split; [exact H2|]. intros u Hu. pose proof (H3 u Hu). pose proof (sqrt_pos (eps / 3)). lra.
    - destruct (C64_axis L) as (n & H1 & H2 & H3). exists n. split; [exact H1|]. split.
      + destruct H2 as [-> | [-> | ->]]; unfold unit3, e_x, e_y, e_z; cbn [vx vy vz]; lra.
      + intros u Hu. pose proof (H3 u Hu). assert (sqrt (cross_correlation X W center pts / 3) <= sqrt (eps / 3)) by (apply sqrt_le_1_alt; lra).
        pose proof (variance3_nonneg X W center pts u HW). lra.
  Qed.
End C64.
Print Assumptions C64_largest_extent_3d.
Print Assumptions C64_dominant_direction.
Print Assumptions C64_axis.
Print Assumptions C64_always_a_direction.

(** ** Small geometries *)
(** Two points (h,h,0) and (-h,-h,0). *)
Definition two_points (h : R) : list R := [h; h; 0; - h; - h; 0].
Lemma two_points_variance : forall h v, variance3 (two_points h) [1; 1] [0; 0; 0] [0; 1]%nat v = 2 * (h * h) * ((vx v + vy v) * (vx v + vy v)).
Proof. intros h v. unfold variance3, over, along3, two_points. cbn [Nat.mul Nat.add nth]. ring. Qed.
Lemma two_points_correlation : forall h, cross_correlation (two_points h) [1; 1] [0; 0; 0] [0; 1]%nat = 4 * (h * h * (h * h)).
Proof. intros h. unfold cross_correlation, correlation, over, along3, two_points, e_x, e_y, e_z. cbn [Nat.mul Nat.add nth vx vy vz]. ring. Qed.

(** The test on the correlations is absolute, not relative to the size of the geometry: for every small enough h the direction returned
    is an axis although the points are on the diagonal of the plane: only half of the largest variance. *)
Theorem C64_small_geometry_refuted : forall eps h, 0 < h -> 4 * (h * h * (h * h)) < eps ->
  exists n u, largest_extent_3 eps (two_points h) [1; 1] [0; 0; 0] [0; 1]%nat = Some n /\ unit3 u /\
    0 < variance3 (two_points h) [1; 1] [0; 0; 0] [0; 1]%nat u /\
    variance3 (two_points h) [1; 1] [0; 0; 0] [0; 1]%nat n = variance3 (two_points h) [1; 1] [0; 0; 0] [0; 1]%nat u / 2.
Proof.
  intros eps h Hh He. exists e_x, (V3 (/ sqrt 2) (/ sqrt 2) 0). pose proof (sqrt_sqrt 2 ltac:(lra)) as S2. pose proof (sqrt_lt_R0 2 ltac:(lra)) as P2.
  assert (I2 : / sqrt 2 * / sqrt 2 = 1 / 2) by (rewrite <- Rinv_mult, S2; field).
  split; [|split; [|split]].
  - unfold largest_extent_3, solve_evp_3. rewrite off_diagonal_is, two_points_correlation. destruct (Rltb_spec (4 * (h * h * (h * h))) eps); [|lra]. f_equal.
    unfold diagonal_direction. rewrite !covariance_over. unfold over, coord, two_points. cbn [Nat.mul Nat.add nth].
    match goal with |- context [Rltb ?x ?y] => destruct (Rltb_spec x y) as [L|L]; [lra|] end.
    match goal with |- context [Rltb ?x ?y] => destruct (Rltb_spec x y) as [L'|L'] end; [|reflexivity]. nra.
  - unfold unit3. cbn [vx vy vz]. lra.
  - rewrite two_points_variance. cbn [vx vy]. replace ((/ sqrt 2 + / sqrt 2) * (/ sqrt 2 + / sqrt 2)) with (4 * (/ sqrt 2 * / sqrt 2)) by ring. rewrite I2. nra.
  - rewrite !two_points_variance. cbn [vx vy e_x]. unfold e_x. cbn [vx vy]. replace ((/ sqrt 2 + / sqrt 2) * (/ sqrt 2 + / sqrt 2)) with (4 * (/ sqrt 2 * / sqrt 2)) by ring. rewrite I2. lra.
Qed.
Print Assumptions C64_small_geometry_refuted.

(** ** Examples: the hypotheses hold of actual sets of points *)
(** A dominant direction: the two points (1,1,0) and (-1,-1,0). *)
Example two_points_dominant : 2 / 10 ^ 16 <= cross_correlation (two_points 1) [1; 1] [0; 0; 0] [0; 1]%nat /\
  exists u, unit3 u /\ forall v, unit3 v -> dot3 u v = 0 -> variance3 (two_points 1) [1; 1] [0; 0; 0] [0; 1]%nat v < variance3 (two_points 1) [1; 1] [0; 0; 0] [0; 1]%nat u.
Proof.
  pose proof (sqrt_sqrt 2 ltac:(lra)) as S2. pose proof (sqrt_lt_R0 2 ltac:(lra)) as P2. assert (I2 : / sqrt 2 * / sqrt 2 = 1 / 2) by (rewrite <- Rinv_mult, S2; field).
  split; [rewrite two_points_correlation; lra|]. exists (V3 (/ sqrt 2) (/ sqrt 2) 0). split; [unfold unit3; cbn [vx vy vz]; lra|].
  intros v Hv O. rewrite !two_points_variance. unfold dot3 in O. cbn [vx vy vz] in *. assert (0 < / sqrt 2) by (apply Rinv_0_lt_compat, P2).
  assert (Z : vx v + vy v = 0) by nra. rewrite Z. replace ((/ sqrt 2 + / sqrt 2) * (/ sqrt 2 + / sqrt 2)) with (4 * (/ sqrt 2 * / sqrt 2)) by ring. rewrite I2. lra.
Qed.
(** No dominant direction: three points in the plane orthogonal to (1,1,1); the covariance 3 I - 1 1^T has the eigenvalues 3, 3, 0. *)
Example three_points : list R := [1; -1; 0; 0; 1; -1; -1; 0; 1].
Example three_points_double : 2 / 10 ^ 16 <= cross_correlation three_points [1; 1; 1] [0; 0; 0] [0; 1; 2]%nat /\
  forall v, unit3 v -> variance3 three_points [1; 1; 1] [0; 0; 0] [0; 1; 2]%nat v = 3 - (vx v + vy v + vz v) * (vx v + vy v + vz v).
Proof.
  split.
  - unfold cross_correlation, correlation, over, along3, three_points, e_x, e_y, e_z. cbn [Nat.mul Nat.add nth vx vy vz]. lra.
  - intros v Hv. unfold unit3 in Hv. unfold variance3, over, along3, three_points. cbn [Nat.mul Nat.add nth].
    replace 3 with (3 * (vx v * vx v + vy v * vy v + vz v * vz v)) at 1 by (rewrite Hv; ring). ring.
Qed.
(** The direction returned there is orthogonal to (1,1,1) up to rounding: its component along it is below 1e-14. *)
Example three_points_direction : exists n, largest_extent_3 (2 / 10 ^ 16) three_points [1; 1; 1] [0; 0; 0] [0; 1; 2]%nat = Some n /\ unit3 n /\
  (vx n + vy n + vz n) * (vx n + vy n + vz n) <= 6 / 10 ^ 30.
Proof.
  destruct three_points_double as (H1 & H2).
  destruct (C64_largest_extent_3d (2 / 10 ^ 16) three_points [1; 1; 1] [0; 0; 0] [0; 1; 2]%nat ltac:(lra)) as (n & E & U & M).
  { intros i [<-|[<-|[<-|[]]]]; cbn; lra. } { exact H1. }
  exists n. split; [exact E|]. split; [exact U|]. pose proof (sqrt_sqrt 2 ltac:(lra)) as S2. pose proof (sqrt_lt_R0 2 ltac:(lra)) as P2.
  assert (I2 : / sqrt 2 * / sqrt 2 = 1 / 2) by (rewrite <- Rinv_mult, S2; field).
  assert (Uu : unit3 (V3 (/ sqrt 2) (- / sqrt 2) 0)) by (unfold unit3; cbn [vx vy vz]; lra).
  pose proof (M _ Uu) as Q. rewrite !H2 in Q by assumption. cbn [vx vy vz] in Q. replace (/ sqrt 2 + - / sqrt 2 + 0) with 0 in Q by ring. lra.
Qed.
