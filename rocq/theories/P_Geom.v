(** * Properties C12, C51-C53: center and radius of clusters, admissibility, splitting directions.

    Vocabulary: GeomModel.v (model, exact real arithmetic), GeomSpec.v (distance, sums, points of a cluster).
    These theorems use the axioms of the real numbers of the standard library. *)

From Coq Require Import List Arith ZArith Bool Lia Reals Lra Permutation.
From Verif Require Import ClusterModel ClusterSpec ClusterFinal P_Cluster RealNum GeomModel GeomSpec GeomProofs.
Import ListNotations.
Local Open Scope R_scope.

Lemma pts_final : forall sorter strat P fuel s t loc u,
  sorter_ok sorter -> (forall part, bp_given P = Some part -> tiles 0 (bp_n P) part) ->
  cluster_tree sorter strat P fuel = Some (s, t, loc) -> In u (ct_nodes t) ->
  Permutation (ci_pts (ct_info u)) (points_of (st_perm s) (ct_info u)).
Proof. intros sorter strat P fuel s t loc u Hs Hg H Hu. exact (proj2 (proj2 (proj2 (C02_children_tile sorter strat P fuel s t loc Hs Hg H))) u Hu). Qed.

(** C12.  [points_of (st_perm s) c] are the user indices of the points of [c] in the finished tree.  The ball
    contains every point together with its own radius; it is the smallest one around its center; the center is the
    weighted mean of the points. *)
Theorem C12_ball_contains_points :
  forall sorter strat P fuel s t loc u d X W Rad,
    sorter_ok sorter ->
    (forall part, bp_given P = Some part -> tiles 0 (bp_n P) part) ->
    cluster_tree sorter strat P fuel = Some (s, t, loc) -> In u (ct_nodes t) ->
    let pts := points_of (st_perm s) (ct_info u) in
    let center := cluster_center d X W (ct_info u) in
    let radius := cluster_radius d X W Rad (ct_info u) in
    (forall i, In i pts -> dist d (coord d X i) (pt center) + nth i Rad 0 <= radius) /\
    (pts <> [] -> (forall i, In i pts -> 0 <= nth i Rad 0) ->
       exists i, In i pts /\ radius = dist d (coord d X i) (pt center) + nth i Rad 0) /\
    (over pts (fun i => nth i W 0) <> 0 ->
       forall p, (p < d)%nat -> pt center p * over pts (fun i => nth i W 0) = over pts (fun i => nth i W 0 * coord d X i p)).
Proof.
  intros sorter strat P fuel s t loc u d X W Rad Hs Hg H Hu pts center radius.
  pose proof (pts_final sorter strat P fuel s t loc u Hs Hg H Hu) as Hp. fold pts in Hp.
  split; [|split].
  - intros i Hi. apply radius_covers. apply (Permutation_in _ (Permutation_sym Hp)), Hi.
  - intros Hne Hr. destruct (radius_attained d X Rad center (ci_pts (ct_info u))) as [i [Hi E]].
    + intros C. rewrite C in Hp. apply Hne. apply Permutation_nil, Hp.
    + intros i Hi. apply Hr. apply (Permutation_in _ Hp), Hi.
    + exists i. split; [apply (Permutation_in _ Hp), Hi|exact E].
  - intros Hw p Hpd. rewrite <- (over_perm _ _ _ Hp) in Hw |- *. rewrite <- (over_perm _ _ _ Hp). unfold center, cluster_center. apply center_mean; assumption.
Qed.
Print Assumptions C12_ball_contains_points.

(** C51.  A block accepted by the Rjasanow-Steinbach condition: the smaller of the diameters of the two clusters is
    less than eta times the distance between any two of their points (each point taken with its own radius).
    The trees, the dimension and the two sets of points are arbitrary. *)
Theorem C51_admissible_blocks_are_separated :
  forall sorter strat P fuel s t loc u sorter' strat' P' fuel' s' t' loc' v d X W Rad X' W' Rad' eta,
    sorter_ok sorter -> (forall part, bp_given P = Some part -> tiles 0 (bp_n P) part) ->
    cluster_tree sorter strat P fuel = Some (s, t, loc) -> In u (ct_nodes t) ->
    sorter_ok sorter' -> (forall part, bp_given P' = Some part -> tiles 0 (bp_n P') part) ->
    cluster_tree sorter' strat' P' fuel' = Some (s', t', loc') -> In v (ct_nodes t') ->
    0 < eta -> (forall i, 0 <= nth i Rad 0) -> (forall i, 0 <= nth i Rad' 0) ->
    rjasanow_steinbach (cluster_center d X W (ct_info u)) (cluster_center d X' W' (ct_info v))
      (cluster_radius d X W Rad (ct_info u)) (cluster_radius d X' W' Rad' (ct_info v)) eta = true ->
    forall i i2 j j2,
      In i (points_of (st_perm s) (ct_info u)) -> In i2 (points_of (st_perm s) (ct_info u)) ->
      In j (points_of (st_perm s') (ct_info v)) -> In j2 (points_of (st_perm s') (ct_info v)) ->
      Rmin (dist d (coord d X i) (coord d X i2) + nth i Rad 0 + nth i2 Rad 0)
           (dist d (coord d X' j) (coord d X' j2) + nth j Rad' 0 + nth j2 Rad' 0)
      < eta * (dist d (coord d X i) (coord d X' j) - nth i Rad 0 - nth j Rad' 0).
Proof.
  intros sorter strat P fuel s t loc u sorter' strat' P' fuel' s' t' loc' v d X W Rad X' W' Rad' eta Hs Hg H Hu Hs' Hg' H' Hv He HR HR' Ha i i2 j j2 Hi Hi2 Hj Hj2.
  pose proof (proj1 (C12_ball_contains_points sorter strat P fuel s t loc u d X W Rad Hs Hg H Hu)) as B.
  pose proof (proj1 (C12_ball_contains_points sorter' strat' P' fuel' s' t' loc' v d X' W' Rad' Hs' Hg' H' Hv)) as B'.
  cbv zeta in B, B'.
  set (ct := cluster_center d X W (ct_info u)) in *. set (cs := cluster_center d X' W' (ct_info v)) in *.
  set (rt := cluster_radius d X W Rad (ct_info u)) in *. set (rs := cluster_radius d X' W' Rad' (ct_info v)) in *.
  assert (0 <= rt) by apply radius_nonneg. assert (0 <= rs) by apply radius_nonneg.
  apply (rjasanow_spec d) in Ha; [|apply center_length|apply center_length|assumption|assumption|lra].
  pose proof (B i Hi) as Bi. pose proof (B i2 Hi2) as Bi2. pose proof (B' j Hj) as Bj. pose proof (B' j2 Hj2) as Bj2.
  pose proof (dist_triangle d (coord d X i) (pt ct) (coord d X i2)) as T1. rewrite (dist_sym d (pt ct)) in T1.
  pose proof (dist_triangle d (coord d X' j) (pt cs) (coord d X' j2)) as T2. rewrite (dist_sym d (pt cs) (coord d X' j2)) in T2.
  pose proof (ball_pair_far d (coord d X i) (coord d X' j) (pt ct) (pt cs) (rt - nth i Rad 0) (rs - nth j Rad' 0) ltac:(lra) ltac:(lra)) as F.
  apply Rle_lt_trans with (2 * Rmin rt rs).
  - unfold Rmin. destruct (Rle_dec _ _); destruct (Rle_dec rt rs); lra.
  - apply Rlt_le_trans with (1 := Ha). apply Rmult_le_compat_l; lra.
Qed.
Print Assumptions C51_admissible_blocks_are_separated.

(** The test itself, for non-negative radii: the formula of Rjasanow and Steinbach; it is symmetric in the two
    clusters, and larger eta admits more blocks. *)
Theorem C51_condition_symmetric_and_monotone :
  forall d ct cs rt rs eta eta', length ct = d -> length cs = d -> 0 <= rt -> 0 <= rs -> 0 <= eta <= eta' ->
    (rjasanow_steinbach ct cs rt rs eta = true <-> 2 * Rmin rt rs < eta * (dist d (pt ct) (pt cs) - rt - rs)) /\
    rjasanow_steinbach ct cs rt rs eta = rjasanow_steinbach cs ct rs rt eta /\
    (rjasanow_steinbach ct cs rt rs eta = true -> rjasanow_steinbach ct cs rt rs eta' = true).
Proof.
  intros d ct cs rt rs eta eta' H1 H2 Hrt Hrs He.
  pose proof (rjasanow_spec d ct cs rt rs eta H1 H2 Hrt Hrs ltac:(lra)) as S1.
  pose proof (rjasanow_spec d cs ct rs rt eta H2 H1 Hrs Hrt ltac:(lra)) as S2.
  pose proof (rjasanow_spec d ct cs rt rs eta' H1 H2 Hrt Hrs ltac:(lra)) as S3.
  split; [assumption|]. split.
  - rewrite Rmin_comm, dist_sym in S2.
    destruct (rjasanow_steinbach ct cs rt rs eta), (rjasanow_steinbach cs ct rs rt eta); try reflexivity; exfalso.
    + destruct S1 as [S1 _], S2 as [_ S2]. specialize (S1 eq_refl). assert (K : false = true) by (apply S2; lra). discriminate.
    + destruct S1 as [_ S1], S2 as [S2 _]. specialize (S2 eq_refl). assert (K : false = true) by (apply S1; lra). discriminate.
  - intros A. apply S3. apply S1 in A. assert (0 <= Rmin rt rs) by (apply Rmin_glb; assumption).
    set (D := dist d (pt ct) (pt cs) - rt - rs) in *. assert (0 < D) by (apply Rnot_le_lt; intros C; nra). nra.
Qed.
Print Assumptions C51_condition_symmetric_and_monotone.

(** C52.  ComputeBoundingBox returns an axis along which the cluster is at least as long as along any other axis,
    provided no coordinate exceeds numeric_limits::max() and every axis has a point whose coordinate is at least
    numeric_limits::min() (the smallest positive number). *)
Theorem C52_bounding_box_longest_axis :
  forall d X big tiny pts,
    0 < tiny ->
    (forall i p, In i pts -> (p < d)%nat -> coord d X i p <= big) ->
    (forall p, (p < d)%nat -> exists i, In i pts /\ tiny <= coord d X i p) ->
    let a := bounding_box_axis d X big tiny pts in
    forall p i j, (p < d)%nat -> In i pts -> In j pts ->
      coord d X i p - coord d X j p <= tiny \/
      ((a < d)%nat /\ exists i' j', In i' pts /\ In j' pts /\ coord d X i p - coord d X j p <= coord d X i' a - coord d X j' a).
Proof.
  intros d X big tiny pts Ht Hb Hm a p i j Hp Hi Hj.
  unfold bounding_box_axis in a.
  pose proof (axis_loop (fun p => box_max d X tiny pts p - box_min d X big pts p) (seq 0 d) tiny 0%nat) as A.
  cbv zeta in A. set (r := fold_left _ (seq 0 d) (tiny, 0%nat)) in A.
  assert (E : a = snd r) by reflexivity. clearbody a r. subst a.
  destruct A as (A1 & A2 & A3).
  assert (EX : coord d X i p - coord d X j p <= fst r).
  { eapply Rle_trans; [|apply (A2 p); apply in_seq; lia]. unfold box_max, box_min.
    pose proof (proj1 (proj2 (fold_max_le (fun i => coord d X i p) pts tiny)) i Hi).
    pose proof (proj1 (proj2 (fold_min_le (fun i => coord d X i p) pts big)) j Hj). cbv beta in *. lra. }
  destruct A3 as [A3|[A3 A4]].
  - left. rewrite A3 in EX. exact EX.
  - right. apply in_seq in A3. split; [lia|]. rewrite A4 in EX. set (q := snd r) in *. assert (Hq : (q < d)%nat) by lia.
    unfold box_max, box_min in EX.
    pose proof (fold_max_le (fun i => coord d X i q) pts tiny) as (M1 & M2 & M3).
    pose proof (fold_min_le (fun i => coord d X i q) pts big) as (N1 & N2 & N3). cbv beta in *.
    assert (I1 : exists i', In i' pts /\ fold_left (fun m k => if Rltb m (coord d X k q) then coord d X k q else m) pts tiny <= coord d X i' q).
    { destruct M3 as [M3|[k [Hk M3]]]; [|exists k; split; [assumption|lra]]. destruct (Hm q Hq) as [k [Hk L]]. exists k. split; [assumption|]. lra. }
    assert (J1 : exists j', In j' pts /\ coord d X j' q <= fold_left (fun m k => if Rltb (coord d X k q) m then coord d X k q else m) pts big).
    { destruct N3 as [N3|[k [Hk N3]]]; [|exists k; split; [assumption|lra]]. exists j. split; [assumption|]. rewrite N3. apply Hb; assumption. }
    destruct I1 as [i' [Hi' I1]], J1 as [j' [Hj' J1]]. exists i', j'. repeat split; try assumption. lra.
Qed.
Print Assumptions C52_bounding_box_longest_axis.

(** Outside these bounds the answer can be wrong: two points with negative coordinates, (-10,-1) and (-10,-5), differ
    along the second axis only, but the first axis is returned. *)
Theorem C52_negative_coordinates_refuted :
  forall big tiny, 0 < tiny < 1 -> 0 <= big ->
    bounding_box_axis 2 [-10; -1; -10; -5] big tiny [0; 1]%nat = 0%nat.
Proof.
  intros big tiny Ht Hb. unfold bounding_box_axis, box_max, box_min, coord. cbn [seq fold_left Nat.mul Nat.add nth fst snd].
  repeat match goal with
         | |- context [Rltb ?x ?y] =>
             lazymatch x with context [Rltb _ _] => fail | _ => idtac end;
             lazymatch y with context [Rltb _ _] => fail | _ => idtac end;
             destruct (Rltb_spec x y); cbn [fst snd]; try lra
         end; reflexivity.
Qed.
Print Assumptions C52_negative_coordinates_refuted.

(** C53.  In the plane ComputeLargestExtent returns a unit vector along which the (weighted) variance of the points is
    maximal up to 3 epsilon, or the zero vector when the variance is at most epsilon in every direction. *)
Theorem C53_largest_extent_2d :
  forall eps X W center pts, 0 < eps -> (forall i, In i pts -> 0 <= nth i W 0) ->
    let dir := largest_extent_2 eps X W center pts in
    (forall v, fst v * fst v + snd v * snd v = 1 ->
       variance2 X W center pts v <= variance2 X W center pts dir + 3 * eps) /\
    (dir = (0, 0) \/ fst dir * fst dir + snd dir * snd dir = 1) /\
    (dir = (0, 0) -> forall v, fst v * fst v + snd v * snd v = 1 -> variance2 X W center pts v <= eps).
Proof.
  intros eps X W center pts He HW. unfold largest_extent_2. cbv zeta.
  rewrite (covariance_sym 2 X W center pts 1 0).
  pose proof (covariance_diag 2 X W center pts 0 HW) as D0. pose proof (covariance_diag 2 X W center pts 1 HW) as D1.
  split; [|split].
  - intros v Hv. rewrite !variance2_quad. apply (evp_2_max eps _ _ _ v); assumption.
  - apply (evp_2_max eps _ (covariance 2 X W center pts 0 1) _ (1, 0)); try assumption. cbn. lra.
  - intros Z v Hv. rewrite variance2_quad. apply (evp_2_max eps _ (covariance 2 X W center pts 0 1) _ v); assumption.
Qed.
Print Assumptions C53_largest_extent_2d.

(** ** Concrete cases *)

(** Four points 0, 1, 10, 11 on a line: two clusters {0,1} and {10,11} of radius 1/2, admissible for eta = 1. *)
Definition lineP : bparams := mkBparams 4 2 2 1 None 1.
Definition line_key (c : cinfo) (i : nat) : Z := Z.of_nat i.
Definition lineX : list R := [0; 1; 10; 11].
Definition ones : list R := [1; 1; 1; 1].
Definition zeros : list R := [0; 0; 0; 0].

Example line_clusters : exists s t loc u v, cluster_tree (isort line_key) Regular lineP 6 = Some (s, t, loc) /\
  In u (ct_nodes t) /\ In v (ct_nodes t) /\ ci_pts (ct_info u) = [0; 1]%nat /\ ci_pts (ct_info v) = [2; 3]%nat /\
  points_of (st_perm s) (ct_info u) = [0; 1]%nat.
Proof.
  destruct (cluster_tree (isort line_key) Regular lineP 6) as [[[s t] loc]|] eqn:E; vm_compute in E; inversion E; subst.
  do 3 eexists. match goal with |- context [CNode _ [?u; ?v]] => exists u, v end.
  split; [reflexivity|]. split; [right; left; reflexivity|]. split; [right; right; left; reflexivity|]. repeat split.
Qed.
Lemma line_ball : forall c pts a b, pts = [a; b]%nat -> ci_pts c = pts -> nth a lineX 0 + 1 = nth b lineX 0 -> (a < 4)%nat -> (b < 4)%nat ->
  cluster_center 1 lineX ones c = [nth a lineX 0 + 1 / 2] /\ cluster_radius 1 lineX ones zeros c = 1 / 2.
Proof.
  intros c pts a b -> Hp Hn Ha Hb.
  assert (O : forall i, (i < 4)%nat -> nth i ones 0 = 1) by (intros i Hi; do 4 (destruct i as [|i]; [reflexivity|]); lia).
  assert (Zr : forall i, nth i zeros 0 = 0) by (intros i; do 5 (destruct i as [|i]; [reflexivity|]); reflexivity).
  assert (E : cluster_center 1 lineX ones c = [nth a lineX 0 + 1 / 2]).
  { unfold cluster_center, compute_center. rewrite Hp. cbn [seq map fold_left]. unfold coord. cbn [Nat.mul]. rewrite !Nat.add_0_r, !O by assumption. f_equal. rewrite <- Hn. field. }
  split; [exact E|]. unfold cluster_radius. rewrite E, Hp.
  destruct (radius_attained 1 lineX zeros [nth a lineX 0 + 1 / 2] [a; b]) as [i [Hi Er]]; [discriminate|intros i _; rewrite Zr; lra|].
  rewrite Er, Zr. unfold dist, rs, coord, pt. cbn [Nat.mul nth]. rewrite !Nat.add_0_r.
  assert (Q : (nth i lineX 0 - (nth a lineX 0 + 1 / 2)) * (nth i lineX 0 - (nth a lineX 0 + 1 / 2)) = 1 / 2 * (1 / 2)).
  { destruct Hi as [<-|[<-|[]]]; [field|]. rewrite <- Hn. field. }
  rewrite Q, Rplus_0_l, Rplus_0_r. apply sqrt_square. lra.
Qed.
Example line_admissible : forall c c', ci_pts c = [0; 1]%nat -> ci_pts c' = [2; 3]%nat ->
  rjasanow_steinbach (cluster_center 1 lineX ones c) (cluster_center 1 lineX ones c')
    (cluster_radius 1 lineX ones zeros c) (cluster_radius 1 lineX ones zeros c') 1 = true.
Proof.
  intros c c' H H'.
  destruct (line_ball c _ 0 1 eq_refl H ltac:(cbn; lra) ltac:(lia) ltac:(lia)) as [E1 E2].
  destruct (line_ball c' _ 2 3 eq_refl H' ltac:(cbn; lra) ltac:(lia) ltac:(lia)) as [E3 E4].
  rewrite E1, E2, E3, E4. apply (rjasanow_spec 1); try reflexivity; try lra.
  unfold dist, rs, pt. cbn [nth lineX].
  replace (0 + (0 + 1 / 2 - (10 + 1 / 2)) * (0 + 1 / 2 - (10 + 1 / 2))) with (10 * 10) by field. rewrite sqrt_square by lra.
  unfold Rmin. destruct (Rle_dec (1 / 2) (1 / 2)); lra.
Qed.

(** A box that is longer along the second axis. *)
Example box_example : bounding_box_axis 2 [1; 1; 2; 5] 100 (1 / 1000) [0; 1]%nat = 1%nat.
Proof.
  unfold bounding_box_axis, box_max, box_min, coord. cbn [seq fold_left Nat.mul Nat.add nth fst snd].
  repeat match goal with
         | |- context [Rltb ?x ?y] =>
             lazymatch x with context [Rltb _ _] => fail | _ => idtac end;
             lazymatch y with context [Rltb _ _] => fail | _ => idtac end;
             destruct (Rltb_spec x y); cbn [fst snd]; try lra
         end; reflexivity.
Qed.

(** The points (-1,0) and (1,0): the direction is (1,0). *)
Example extent_example : largest_extent_2 (1 / 1000) [-1; 0; 1; 0] [1; 1] [0; 0] [0; 1]%nat = (1, 0).
Proof.
  unfold largest_extent_2, covariance, coord. cbn [fold_left Nat.mul Nat.add nth].
  match goal with |- solve_evp_2 _ ?a ?b ?c ?d = _ => replace a with 2 by field; replace b with 0 by field; replace c with 0 by field; replace d with 0 by field end.
  unfold solve_evp_2. cbv zeta.
  assert (S : sqrt ((2 + 0) * (2 + 0) / 4 - (2 * 0 - 0 * 0)) = 1).
  { match goal with |- sqrt ?x = 1 => replace x with (1 * 1) by field end. apply sqrt_square. lra. }
  rewrite !S. cbn [fst snd].
  assert (N : sqrt ((2 - ((2 + 0) / 2 - 1) * 1) * (2 - ((2 + 0) / 2 - 1) * 1) + (0 - ((2 + 0) / 2 - 1) * 0) * (0 - ((2 + 0) / 2 - 1) * 0)) = 2).
  { match goal with |- sqrt ?x = 2 => replace x with (2 * 2) by field end. apply sqrt_square. lra. }
  rewrite !N. destruct (Rltb_spec (1 / 1000) (Rabs ((2 + 0) / 2 + 1))) as [|L]; [|exfalso; apply L; rewrite Rabs_pos_eq; lra].
  destruct (Rltb_spec 2 (1 / 1000)); [lra|]. cbn [fst snd]. rewrite !N. destruct (Rltb_spec 2 (1 / 1000)); [lra|]. f_equal; field.
Qed.
