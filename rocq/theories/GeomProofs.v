(** * Proofs about the geometry of clusters. *)

From Coq Require Import List Arith ZArith Bool Lia Reals Lra Permutation.
From Verif Require Import ClusterModel RealNum GeomModel GeomSpec.
Import ListNotations.
Local Open Scope R_scope.

Lemma rs_ext : forall n f g, (forall i, (i < n)%nat -> f i = g i) -> rs n f = rs n g.
Proof. induction n as [|n IH]; intros f g H; cbn; [reflexivity|]. rewrite (IH f g) by auto with arith. rewrite H by lia. reflexivity. Qed.
Lemma rs_nonneg : forall n f, (forall i, (i < n)%nat -> 0 <= f i) -> 0 <= rs n f.
Proof. induction n as [|n IH]; intros f H; cbn; [lra|]. specialize (IH f ltac:(auto with arith)). specialize (H n ltac:(lia)). lra. Qed.
Lemma rs_add : forall n f g, rs n (fun i => f i + g i) = rs n f + rs n g.
Proof. induction n as [|n IH]; intros f g; cbn; [lra|]. rewrite IH. lra. Qed.
Lemma rs_scal : forall n f c, rs n (fun i => c * f i) = c * rs n f.
Proof. induction n as [|n IH]; intros f c; cbn; [lra|]. rewrite IH. lra. Qed.

(** ** Cauchy-Schwarz and the triangle inequality *)
Lemma sq_le : forall x y, 0 <= y -> x * x <= y * y -> x <= y.
Proof. intros x y Hy H. apply Rnot_lt_le. intros L. nra. Qed.
Lemma cauchy_schwarz : forall n f g, rs n (fun i => f i * g i) * rs n (fun i => f i * g i) <= rs n (fun i => f i * f i) * rs n (fun i => g i * g i).
Proof.
  induction n as [|n IH]; intros f g; cbn; [lra|].
  specialize (IH f g). set (A := rs n (fun i => f i * f i)) in *. set (B := rs n (fun i => g i * g i)) in *. set (C := rs n (fun i => f i * g i)) in *.
  assert (HA : 0 <= A) by (apply rs_nonneg; intros; nra). assert (HB : 0 <= B) by (apply rs_nonneg; intros; nra).
  set (a := f n). set (b := g n).
  assert (K : 2 * C * (a * b) <= A * (b * b) + B * (a * a)).
  { apply sq_le; [nra|].
    assert (E : 2 * C * (a * b) * (2 * C * (a * b)) = 4 * (C * C) * ((a * b) * (a * b))) by ring. rewrite E.
    assert (0 <= (a * b) * (a * b)) by nra.
    apply Rle_trans with (4 * (A * B) * ((a * b) * (a * b))); [nra|].
    assert (Q : 0 <= (A * (b * b) - B * (a * a)) * (A * (b * b) - B * (a * a))) by apply Rle_0_sqr. nra. }
  replace ((C + a * b) * (C + a * b)) with (C * C + 2 * C * (a * b) + a * b * (a * b)) by ring.
  replace ((A + a * a) * (B + b * b)) with (A * B + (A * (b * b) + B * (a * a)) + a * b * (a * b)) by ring. lra.
Qed.

Lemma dist_triangle : forall d x y z, dist d x z <= dist d x y + dist d y z.
Proof.
  intros d x y z. unfold dist.
  set (f := fun p => x p - y p). set (g := fun p => y p - z p).
  assert (E : rs d (fun p => (x p - z p) * (x p - z p)) = rs d (fun p => f p * f p) + 2 * rs d (fun p => f p * g p) + rs d (fun p => g p * g p)).
  { rewrite <- rs_scal, <- !rs_add. apply rs_ext. intros p _. unfold f, g. ring. }
  rewrite E. change (rs d (fun p => (x p - y p) * (x p - y p))) with (rs d (fun p => f p * f p)).
  change (rs d (fun p => (y p - z p) * (y p - z p))) with (rs d (fun p => g p * g p)).
  pose proof (cauchy_schwarz d f g) as CS.
  set (A := rs d (fun i => f i * f i)) in *. set (B := rs d (fun i => g i * g i)) in *. set (C := rs d (fun i => f i * g i)) in *.
  assert (HA : 0 <= A) by (apply rs_nonneg; intros; nra). assert (HB : 0 <= B) by (apply rs_nonneg; intros; nra).
  pose proof (sqrt_pos A) as PA. pose proof (sqrt_pos B) as PB. pose proof (sqrt_sqrt A HA) as SA. pose proof (sqrt_sqrt B HB) as SB.
  assert (HC : C <= sqrt A * sqrt B).
  { apply sq_le; [nra|]. replace (sqrt A * sqrt B * (sqrt A * sqrt B)) with (sqrt A * sqrt A * (sqrt B * sqrt B)) by ring. rewrite SA, SB. exact CS. }
  rewrite <- (sqrt_square (sqrt A + sqrt B)) by lra. apply sqrt_le_1_alt. nra.
Qed.
Lemma dist_sym : forall d x y, dist d x y = dist d y x.
Proof. intros. unfold dist. f_equal. apply rs_ext. intros. ring. Qed.
Lemma dist_nonneg : forall d x y, 0 <= dist d x y.
Proof. intros. apply sqrt_pos. Qed.

(** ** norm2 of the model is the Euclidean distance *)
Lemma dprod_rs : forall a b, length a = length b -> dprod a b = rs (length a) (fun p => pt a p * pt b p).
Proof.
  intros a b H. unfold dprod.
  assert (G : forall a b s, length a = length b -> fold_left (fun s xy => s + fst xy * snd xy) (combine a b) s = s + rs (length a) (fun p => pt a p * pt b p)).
  { clear. intros a. induction a as [|x a IH]; intros [|y b] s H; try discriminate; [cbn; lra|].
    cbn [combine fold_left fst snd]. rewrite IH by (cbn in H; lia).
    assert (S : forall n (f : nat -> R), rs (S n) f = f 0%nat + rs n (fun i => f (S i))) by (induction n as [|n IHn]; intros f; [cbn; lra|]; cbn [rs] in *; rewrite IHn; lra).
    cbn [length]. rewrite S. unfold pt. cbn [nth]. lra. }
  rewrite G by assumption. lra.
Qed.
Lemma norm2_dist : forall u, norm2 u = dist (length u) (pt u) (fun _ => 0).
Proof.
  intros u. unfold norm2, dist. rewrite dprod_rs by reflexivity. rewrite Rabs_pos_eq by (apply rs_nonneg; intros; nra).
  f_equal. apply rs_ext. intros. ring.
Qed.
Lemma norm2_offset : forall d X c i, norm2 (offset_vector d X c i) = dist d (coord d X i) (pt c).
Proof.
  intros. rewrite norm2_dist. unfold offset_vector. rewrite map_length, seq_length. unfold dist. f_equal. apply rs_ext. intros p Hp.
  unfold pt at 1 2. rewrite (nth_indep _ 0 (coord d X i 0 - nth 0 c 0)) by (rewrite map_length, seq_length; lia).
  rewrite (map_nth (fun p => coord d X i p - nth p c 0) (seq 0 d) 0%nat p), seq_nth by lia. cbn [plus]. unfold pt. ring.
Qed.
Lemma norm2_vsub : forall d a b, length a = d -> length b = d -> norm2 (vsub a b) = dist d (pt a) (pt b).
Proof.
  intros d a b Ha Hb. rewrite norm2_dist. unfold vsub. rewrite map_length, combine_length, Ha, Hb, Nat.min_id. unfold dist. f_equal. apply rs_ext. intros p Hp.
  unfold pt at 1 2. rewrite (nth_indep _ 0 (fst (0, 0) - snd (0, 0))) by (rewrite map_length, combine_length; lia).
  rewrite (map_nth (fun xy : R * R => fst xy - snd xy) (combine a b) (0, 0) p). rewrite combine_nth by lia. cbn [fst snd]. unfold pt. ring.
Qed.

(** ** The radius *)
Lemma fold_max_ge : forall (f : nat -> R) l s, s <= fold_left (fun r i => Rmax r (f i)) l s.
Proof. intros f. induction l as [|x l IH]; intros s; cbn; [lra|]. eapply Rle_trans; [apply Rmax_l|apply IH]. Qed.
Lemma fold_max_in : forall (f : nat -> R) l s i, In i l -> f i <= fold_left (fun r i => Rmax r (f i)) l s.
Proof.
  intros f. induction l as [|x l IH]; intros s i; [intros []|]. cbn. intros [->|H]; [|apply IH, H].
  eapply Rle_trans; [apply Rmax_r|apply (fold_max_ge f)].
Qed.
Lemma fold_max_attained : forall (f : nat -> R) l s, fold_left (fun r i => Rmax r (f i)) l s = s \/ exists i, In i l /\ fold_left (fun r i => Rmax r (f i)) l s = f i.
Proof.
  intros f. induction l as [|x l IH]; intros s; cbn; [left; reflexivity|].
  destruct (IH (Rmax s (f x))) as [E|[i [Hi E]]]; [|right; exists i; auto].
  rewrite E. unfold Rmax. destruct (Rle_dec s (f x)); [right; exists x; auto|left; reflexivity].
Qed.

Lemma radius_covers : forall d X Rad c pts i, In i pts -> dist d (coord d X i) (pt c) + nth i Rad 0 <= compute_radius d X Rad c pts.
Proof. intros. rewrite <- norm2_offset. unfold compute_radius. apply (fold_max_in (fun i => norm2 (offset_vector d X c i) + nth i Rad 0)). assumption. Qed.
Lemma radius_attained : forall d X Rad c pts, pts <> [] -> (forall i, In i pts -> 0 <= nth i Rad 0) ->
  exists i, In i pts /\ compute_radius d X Rad c pts = dist d (coord d X i) (pt c) + nth i Rad 0.
Proof.
  intros d X Rad c pts Hne Hr. unfold compute_radius.
  destruct (fold_max_attained (fun i => norm2 (offset_vector d X c i) + nth i Rad 0) pts 0) as [E|[i [Hi E]]].
  - destruct pts as [|i l]; [contradiction|]. exists i. split; [left; reflexivity|]. rewrite E.
    pose proof (fold_max_in (fun i => norm2 (offset_vector d X c i) + nth i Rad 0) (i :: l) 0 i ltac:(left; reflexivity)) as G. cbv beta in E, G. rewrite E in G.
    rewrite norm2_offset in G. pose proof (dist_nonneg d (coord d X i) (pt c)). specialize (Hr i ltac:(left; reflexivity)). lra.
  - exists i. split; [assumption|]. rewrite E, norm2_offset. reflexivity.
Qed.
Lemma radius_nonneg : forall d X Rad c pts, 0 <= compute_radius d X Rad c pts.
Proof. intros. unfold compute_radius. apply (fold_max_ge (fun i => norm2 (offset_vector d X c i) + nth i Rad 0)). Qed.

(** ** The center *)
Lemma fold_over : forall (f : nat -> R) l s, fold_left (fun s i => s + f i) l s = s + over l f.
Proof. intros f. induction l as [|x l IH]; intros s; cbn; [lra|]. rewrite IH. lra. Qed.
Lemma over_perm : forall l l' f, Permutation l l' -> over l f = over l' f.
Proof. intros l l' f H. induction H; cbn; lra. Qed.
Lemma center_length : forall d X W pts, length (compute_center d X W pts) = d.
Proof. intros. unfold compute_center. rewrite map_length, seq_length. reflexivity. Qed.
Lemma center_mean : forall d X W pts p, (p < d)%nat -> over pts (fun i => nth i W 0) <> 0 ->
  pt (compute_center d X W pts) p * over pts (fun i => nth i W 0) = over pts (fun i => nth i W 0 * coord d X i p).
Proof.
  intros d X W pts p Hp Hw. unfold pt, compute_center.
  set (g := fun p => _). rewrite (nth_indep _ 0 (g 0%nat)) by (rewrite map_length, seq_length; lia).
  rewrite (map_nth g (seq 0 d) 0%nat p), seq_nth by lia. unfold g. cbn [plus].
  rewrite (fold_over (fun i => nth i W 0)), (fold_over (fun i => nth i W 0 * coord d X i p)). field. lra.
Qed.

(** ** Admissibility *)
Lemma ball_pair_far : forall d x y ct cs rt rs,
  dist d x ct <= rt -> dist d y cs <= rs -> dist d ct cs - rt - rs <= dist d x y.
Proof.
  intros d x y ct cs rt rs Hx Hy.
  pose proof (dist_triangle d ct x cs). pose proof (dist_triangle d x y cs). rewrite (dist_sym d ct x) in *. lra.
Qed.
Lemma ball_diameter : forall d x y c r, dist d x c <= r -> dist d y c <= r -> dist d x y <= 2 * r.
Proof. intros d x y c r Hx Hy. pose proof (dist_triangle d x c y). rewrite (dist_sym d c y) in *. lra. Qed.

Lemma rjasanow_spec : forall d ct cs rt rs eta, length ct = d -> length cs = d -> 0 <= rt -> 0 <= rs -> 0 <= eta ->
  rjasanow_steinbach ct cs rt rs eta = true <-> 2 * Rmin rt rs < eta * (dist d (pt ct) (pt cs) - rt - rs).
Proof.
  intros d ct cs rt rs eta H1 H2 Hrt Hrs He. unfold rjasanow_steinbach. rewrite (norm2_vsub d) by assumption.
  set (D := dist d (pt ct) (pt cs) - rt - rs). assert (0 <= Rmin rt rs) by (apply Rmin_glb; assumption).
  unfold Rmax. destruct (Rltb_spec (2 * Rmin rt rs) (eta * (if Rle_dec D 0 then 0 else D))) as [L|L]; destruct (Rle_dec D 0); split; intros; try discriminate; try reflexivity; nra.
Qed.

(** ** Bounding box *)
Lemma fold_min_le : forall (f : nat -> R) l s, fold_left (fun m i => if Rltb (f i) m then f i else m) l s <= s /\
  (forall i, In i l -> fold_left (fun m i => if Rltb (f i) m then f i else m) l s <= f i) /\
  (fold_left (fun m i => if Rltb (f i) m then f i else m) l s = s \/ exists i, In i l /\ fold_left (fun m i => if Rltb (f i) m then f i else m) l s = f i).
Proof.
  intros f. induction l as [|x l IH]; intros s; cbn [fold_left].
  - split; [lra|]. split; [intros i []|]. left; reflexivity.
  - destruct (IH (if Rltb (f x) s then f x else s)) as (A & B & C). set (r := fold_left _ l _) in *.
    assert (L : (if Rltb (f x) s then f x else s) <= s /\ (if Rltb (f x) s then f x else s) <= f x) by (destruct (Rltb_spec (f x) s); lra).
    split; [lra|]. split; [intros i [->|Hi]; [lra|apply B, Hi]|].
    destruct C as [C|[i [Hi C]]]; [|right; exists i; split; [right; assumption|assumption]].
    rewrite C. destruct (Rltb_spec (f x) s); [right; exists x; split; [left; reflexivity|reflexivity]|left; reflexivity].
Qed.
Lemma fold_max_le : forall (f : nat -> R) l s, s <= fold_left (fun m i => if Rltb m (f i) then f i else m) l s /\
  (forall i, In i l -> f i <= fold_left (fun m i => if Rltb m (f i) then f i else m) l s) /\
  (fold_left (fun m i => if Rltb m (f i) then f i else m) l s = s \/ exists i, In i l /\ fold_left (fun m i => if Rltb m (f i) then f i else m) l s = f i).
Proof.
  intros f. induction l as [|x l IH]; intros s; cbn [fold_left].
  - split; [lra|]. split; [intros i []|]. left; reflexivity.
  - destruct (IH (if Rltb s (f x) then f x else s)) as (A & B & C). set (r := fold_left _ l _) in *.
    assert (L : s <= (if Rltb s (f x) then f x else s) /\ f x <= (if Rltb s (f x) then f x else s)) by (destruct (Rltb_spec s (f x)); lra).
    split; [lra|]. split; [intros i [->|Hi]; [lra|apply B, Hi]|].
    destruct C as [C|[i [Hi C]]]; [|right; exists i; split; [right; assumption|assumption]].
    rewrite C. destruct (Rltb_spec s (f x)); [right; exists x; split; [left; reflexivity|reflexivity]|left; reflexivity].
Qed.

(** The loop that keeps the axis of largest extent. *)
Lemma axis_loop : forall (e : nat -> R) l m0 a0,
  let r := fold_left (fun st p => if Rltb (fst st) (e p) then (e p, p) else st) l (m0, a0) in
  m0 <= fst r /\ (forall p, In p l -> e p <= fst r) /\ (r = (m0, a0) \/ (In (snd r) l /\ fst r = e (snd r))).
Proof.
  intros e. induction l as [|p l IH]; intros m0 a0; cbn [fold_left].
  - split; [cbn; lra|]. split; [intros q []|]. left; reflexivity.
  - cbv zeta in IH |- *. cbn [fst]. destruct (Rltb_spec m0 (e p)) as [L|L].
    + destruct (IH (e p) p) as (A & B & C). split; [lra|]. split; [intros q [->|Hq]; [lra|apply B, Hq]|].
      right. destruct C as [C|[C1 C2]]; [rewrite C; cbn; auto|split; [right; assumption|assumption]].
    + destruct (IH m0 a0) as (A & B & C). split; [lra|]. split; [intros q [->|Hq]; [lra|apply B, Hq]|].
      destruct C as [C|[C1 C2]]; [left; assumption|right; split; [right; assumption|assumption]].
Qed.

(** ** The direction of largest variance in the plane *)
Definition quad (a b d : R) (v : R * R) : R := a * (fst v * fst v) + 2 * b * (fst v * snd v) + d * (snd v * snd v).

Lemma evp_2_max : forall eps a b d v, 0 < eps -> 0 <= a -> 0 <= d -> fst v * fst v + snd v * snd v = 1 ->
  let dir := solve_evp_2 eps a b b d in
  quad a b d v <= quad a b d dir + 3 * eps /\
  (dir = (0, 0) \/ fst dir * fst dir + snd dir * snd dir = 1) /\
  (dir = (0, 0) -> quad a b d v <= eps).
Proof.
  intros eps a b d [x y] He Ha Hd Hv. cbn [fst snd] in Hv.
  unfold solve_evp_2. cbv zeta.
  set (D := (a + d) * (a + d) / 4 - (a * d - b * b)).
  assert (HD : D = (a - d) / 2 * ((a - d) / 2) + b * b) by (unfold D; field).
  assert (HD0 : 0 <= D) by (rewrite HD; pose proof (Rle_0_sqr ((a - d) / 2)); pose proof (Rle_0_sqr b); unfold Rsqr in *; lra).
  set (s := sqrt D). assert (Hs : 0 <= s) by apply sqrt_pos. assert (Hss : s * s = D) by (apply sqrt_sqrt, HD0).
  set (e0 := (a + d) / 2 + s). set (e1 := (a + d) / 2 - s).
  assert (P0 : 0 <= e0) by (unfold e0; lra).
  (* the largest eigenvalue bounds the quadratic form *)
  assert (B : forall x y, x * x + y * y = 1 -> a * (x * x) + 2 * b * (x * y) + d * (y * y) <= e0).
  { clear x y Hv. intros x y Hv.
    assert (Q : a * (x * x) + 2 * b * (x * y) + d * (y * y) - (a + d) / 2 * (x * x + y * y) = (a - d) / 2 * (x * x - y * y) + b * (2 * x * y)) by field.
    rewrite Hv in Q. assert (L : (a - d) / 2 * (x * x - y * y) + b * (2 * x * y) <= s); [|unfold e0; lra].
    apply sq_le; [assumption|]. rewrite Hss, HD.
    set (u := (a - d) / 2). set (p := x * x - y * y). set (q := 2 * x * y).
    assert (N : p * p + q * q = 1) by (unfold p, q; replace ((x * x - y * y) * (x * x - y * y) + 2 * x * y * (2 * x * y)) with ((x * x + y * y) * (x * x + y * y)) by ring; rewrite Hv; ring).
    assert (0 <= (u * q - b * p) * (u * q - b * p)) by apply Rle_0_sqr.
    replace (u * u + b * b) with ((u * u + b * b) * (p * p + q * q)) by (rewrite N; ring). nra. }
  assert (E : forall c0 c1, (a - e0) * c0 + b * c1 = 0 -> b * c0 + (d - e0) * c1 = 0 -> a * (c0 * c0) + 2 * b * (c0 * c1) + d * (c1 * c1) = e0 * (c0 * c0 + c1 * c1)).
  { intros c0 c1 H1 H2. assert (c0 * ((a - e0) * c0 + b * c1) + c1 * (b * c0 + (d - e0) * c1) = 0) by (rewrite H1, H2; ring). lra. }
  assert (CH : (a - e0) * (a - e1) + b * b = 0 /\ (a + d) = e0 + e1 /\ (d - e0) * (d - e1) + b * b = 0).
  { split; [|split; [unfold e0, e1; field|]].
    - replace ((a - e0) * (a - e1)) with ((a - d) / 2 * ((a - d) / 2) - s * s) by (unfold e0, e1; field). rewrite Hss, HD. ring.
    - replace ((d - e0) * (d - e1)) with ((a - d) / 2 * ((a - d) / 2) - s * s) by (unfold e0, e1; field). rewrite Hss, HD. ring. }
  destruct CH as (CH1 & CH2 & CH3).
  unfold quad. cbn [fst snd]. specialize (B x y Hv).
  destruct (Rltb_spec eps (Rabs e0)) as [L|L].
  2:{ rewrite Rabs_pos_eq in L by assumption. cbn [fst snd]. split; [|split; [left; reflexivity|intros _; lra]]. lra. }
  cbn [fst snd].
  set (c0 := (a - e1 * 1, b - e1 * 0)). set (c1 := (b - e1 * 0, d - e1 * 1)).
  set (nrm := fun c : R * R => sqrt (fst c * fst c + snd c * snd c)).
  assert (K0 : (a - e0) * fst c0 + b * snd c0 = 0 /\ b * fst c0 + (d - e0) * snd c0 = 0).
  { unfold c0; cbn [fst snd]. split; [etransitivity; [|exact CH1]; ring|]. replace (d - e0) with (e1 - a) by lra. ring. }
  assert (K1 : (a - e0) * fst c1 + b * snd c1 = 0 /\ b * fst c1 + (d - e0) * snd c1 = 0).
  { unfold c1; cbn [fst snd]. split; [replace (a - e0) with (e1 - d) by lra; ring|]. etransitivity; [|exact CH3]; ring. }
  change (sqrt ((a - e1 * 1) * (a - e1 * 1) + (b - e1 * 0) * (b - e1 * 0))) with (nrm c0).
  assert (G : forall c, (a - e0) * fst c + b * snd c = 0 /\ b * fst c + (d - e0) * snd c = 0 -> ~ nrm c < eps ->
     let dir := (fst c / nrm c, snd c / nrm c) in
     a * (fst dir * fst dir) + 2 * b * (fst dir * snd dir) + d * (snd dir * snd dir) = e0 /\ fst dir * fst dir + snd dir * snd dir = 1).
  { intros c [H1 H2] Hn. cbn [fst snd]. assert (Hp : 0 < nrm c) by lra.
    assert (Hq : nrm c * nrm c = fst c * fst c + snd c * snd c) by (apply sqrt_sqrt; nra).
    assert (U : fst c / nrm c * (fst c / nrm c) + snd c / nrm c * (snd c / nrm c) = 1).
    { replace (fst c / nrm c * (fst c / nrm c) + snd c / nrm c * (snd c / nrm c)) with ((fst c * fst c + snd c * snd c) / (nrm c * nrm c)) by (field; lra).
      rewrite <- Hq. field. lra. }
    split; [|exact U]. rewrite E; [rewrite U; ring| |].
    - replace ((a - e0) * (fst c / nrm c) + b * (snd c / nrm c)) with (((a - e0) * fst c + b * snd c) / nrm c) by (field; lra). rewrite H1. field. lra.
    - replace (b * (fst c / nrm c) + (d - e0) * (snd c / nrm c)) with ((b * fst c + (d - e0) * snd c) / nrm c) by (field; lra). rewrite H2. field. lra. }
  cbn [fst snd] in G.
  assert (NZ : forall p q : R, p * p + q * q = 1 -> (p, q) <> (0, 0)) by (intros p q H C; inversion C; subst; lra).
  destruct (Rltb_spec (nrm c0) eps) as [L0|L0].
  - change (sqrt (fst c1 * fst c1 + snd c1 * snd c1)) with (nrm c1).
    destruct (Rltb_spec (nrm c1) eps) as [L1|L1]; cbn [fst snd].
    + split; [|split; [right; lra|intros C; inversion C; lra]].
      assert (A0 : a - e1 <= eps).
      { apply Rle_trans with (nrm c0); [|lra]. apply Rle_trans with (sqrt ((a - e1) * (a - e1))); [destruct (Rle_dec 0 (a - e1)); [rewrite sqrt_square by assumption; lra|pose proof (sqrt_pos ((a - e1) * (a - e1))); lra]|].
        apply sqrt_le_1_alt. unfold c0; cbn [fst snd]. nra. }
      assert (A1 : d - e1 <= eps).
      { apply Rle_trans with (nrm c1); [|lra]. apply Rle_trans with (sqrt ((d - e1) * (d - e1))); [destruct (Rle_dec 0 (d - e1)); [rewrite sqrt_square by assumption; lra|pose proof (sqrt_pos ((d - e1) * (d - e1))); lra]|].
        apply sqrt_le_1_alt. unfold c1; cbn [fst snd]. nra. }
      assert (e0 - a <= eps) by lra. lra.
    + destruct (G c1 K1 L1) as [G1 G2]. split; [lra|]. split; [right; exact G2|]. intros C. exfalso. exact (NZ _ _ G2 C).
  - change (sqrt (fst c0 * fst c0 + snd c0 * snd c0)) with (nrm c0).
    destruct (Rltb_spec (nrm c0) eps) as [L1|_]; [contradiction|]. cbn [fst snd].
    destruct (G c0 K0 L0) as [G1 G2]. split; [lra|]. split; [right; exact G2|]. intros C. exfalso. exact (NZ _ _ G2 C).
Qed.

Lemma over_add : forall l f g, over l (fun i => f i + g i) = over l f + over l g.
Proof. induction l as [|x l IH]; intros; cbn; [lra|]. rewrite IH. lra. Qed.
Lemma over_scal : forall l c f, over l (fun i => c * f i) = c * over l f.
Proof. induction l as [|x l IH]; intros; cbn; [lra|]. rewrite IH. lra. Qed.
Lemma over_ext : forall l f g, (forall i, In i l -> f i = g i) -> over l f = over l g.
Proof. induction l as [|x l IH]; intros f g H; cbn; [reflexivity|]. rewrite (IH f g) by (intros; apply H; right; assumption). rewrite H by (left; reflexivity). reflexivity. Qed.
Lemma over_nonneg : forall l f, (forall i, In i l -> 0 <= f i) -> 0 <= over l f.
Proof. induction l as [|x l IH]; intros f H; cbn; [lra|]. specialize (IH f ltac:(intros; apply H; right; assumption)). specialize (H x ltac:(left; reflexivity)). lra. Qed.
Lemma covariance_over : forall d X W c pts p q, covariance d X W c pts p q = over pts (fun i => nth i W 0 * ((coord d X i p - nth p c 0) * (coord d X i q - nth q c 0))).
Proof.
  intros. unfold covariance. rewrite (fold_over (fun i => nth i W 0 * (coord d X i p - nth p c 0) * (coord d X i q - nth q c 0))).
  rewrite Rplus_0_l. apply over_ext. intros. ring.
Qed.
Lemma variance2_quad : forall X W c pts v,
  variance2 X W c pts v = quad (covariance 2 X W c pts 0 0) (covariance 2 X W c pts 0 1) (covariance 2 X W c pts 1 1) v.
Proof.
  intros. unfold quad, variance2. rewrite !covariance_over. unfold coord.
  rewrite (Rmult_comm (over _ _) (fst v * fst v)), (Rmult_comm (over _ _) (snd v * snd v)).
  replace (2 * over pts (fun i => nth i W 0 * ((nth (2 * i + 0) X 0 - nth 0 c 0) * (nth (2 * i + 1) X 0 - nth 1 c 0))) * (fst v * snd v))
    with (2 * (fst v * snd v) * over pts (fun i => nth i W 0 * ((nth (2 * i + 0) X 0 - nth 0 c 0) * (nth (2 * i + 1) X 0 - nth 1 c 0)))) by ring.
  rewrite <- !over_scal, <- !over_add. apply over_ext. intros i _. rewrite Nat.add_0_r. ring.
Qed.
Lemma covariance_sym : forall d X W c pts p q, covariance d X W c pts p q = covariance d X W c pts q p.
Proof. intros. rewrite !covariance_over. apply over_ext. intros. ring. Qed.
Lemma covariance_diag : forall d X W c pts p, (forall i, In i pts -> 0 <= nth i W 0) -> 0 <= covariance d X W c pts p p.
Proof. intros. rewrite covariance_over. apply over_nonneg. intros i Hi. specialize (H i Hi). apply Rmult_le_pos; [assumption|apply Rle_0_sqr]. Qed.
