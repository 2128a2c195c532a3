(** * Model of the geometry of clusters: center, radius, admissibility, direction of the splitting.

    Source: include/htool/clustering/tree_builder/recursive_build.hpp 174-222 (compute_center, compute_radius),
    include/htool/clustering/tree_builder/direction_computation.hpp, include/htool/misc/evp.hpp,
    include/htool/hmatrix/interfaces/virtual_admissibility_condition.hpp, include/htool/basic_types/vector.hpp.

    Floating point numbers are the real numbers of Coq's standard library (no rounding, no overflow).
    Arrays are lists, read with default 0 (the theorems speak about points whose data exist).  No proofs in this file. *)

From Coq Require Import List Arith ZArith Bool Reals.
From Verif Require Import ClusterModel RealNum.
Import ListNotations.
Local Open Scope R_scope.

(** coordinates[spatial_dimension * i + p]. *)
Definition coord (d : nat) (X : list R) (i p : nat) : R := nth (d * i + p) X 0.

(** vector.hpp 86-88, 94-95: dprod and norm2 of a vector with real entries. *)
Definition dprod (a b : list R) : R := fold_left (fun s xy => s + fst xy * snd xy) (combine a b) 0.
Definition norm2 (u : list R) : R := sqrt (Rabs (dprod u u)).

(** vector.hpp 55-61: difference of two vectors. *)
Definition vsub (a b : list R) : list R := map (fun xy => fst xy - snd xy) (combine a b).

(** recursive_build.hpp 174-199 (compute_center).  [pts] is permutation[offset], ..., permutation[offset+size-1].
    The loops over the coordinates p are independent of each other, so the accumulations are written coordinate by
    coordinate. *)
Definition compute_center (d : nat) (X W : list R) (pts : list nat) : list R :=
  let total_weight := fold_left (fun s i => s + nth i W 0) pts 0 in
  map (fun p => fold_left (fun s i => s + nth i W 0 * coord d X i p) pts 0 * (1 / total_weight)) (seq 0 d).

(** recursive_build.hpp 201-219 (compute_radius). *)
Definition offset_vector (d : nat) (X : list R) (center : list R) (i : nat) : list R :=
  map (fun p => coord d X i p - nth p center 0) (seq 0 d).
Definition compute_radius (d : nat) (X Rad : list R) (center : list R) (pts : list nat) : R :=
  fold_left (fun radius i => Rmax radius (norm2 (offset_vector d X center i) + nth i Rad 0)) pts 0.

(** recursive_build.hpp 68-69, 88-89, 139-140: the center and the radius of a cluster are computed from the points
    in its range at the moment it is created. *)
Definition cluster_center (d : nat) (X W : list R) (c : cinfo) : list R := compute_center d X W (ci_pts c).
Definition cluster_radius (d : nat) (X W Rad : list R) (c : cinfo) : R :=
  compute_radius d X Rad (cluster_center d X W c) (ci_pts c).

(** virtual_admissibility_condition.hpp 20-23 (RjasanowSteinbach::ComputeAdmissibility), for the centers and radii of the
    target and the source. *)
Definition rjasanow_steinbach (ct cs : list R) (rt rs eta : R) : bool :=
  Rltb (2 * Rmin rt rs) (eta * Rmax (norm2 (vsub ct cs) - rt - rs) 0).

(** direction_computation.hpp 63-91 (ComputeBoundingBox).  [big] and [tiny] are numeric_limits::max() and
    numeric_limits::min() (the latter is the smallest positive normal number, not the lowest one).
    The result is dir_axis; the direction is the corresponding vector of the canonical basis. *)
Definition box_min (d : nat) (X : list R) (big : R) (pts : list nat) (p : nat) : R :=
  fold_left (fun m i => if Rltb (coord d X i p) m then coord d X i p else m) pts big.
Definition box_max (d : nat) (X : list R) (tiny : R) (pts : list nat) (p : nat) : R :=
  fold_left (fun m i => if Rltb m (coord d X i p) then coord d X i p else m) pts tiny.
Definition bounding_box_axis (d : nat) (X : list R) (big tiny : R) (pts : list nat) : nat :=
  snd (fold_left (fun st p =>
                    let e := box_max d X tiny pts p - box_min d X big pts p in
                    if Rltb (fst st) e then (e, p) else st)
                 (seq 0 d) (tiny, 0%nat)).

(** evp.hpp 11-44 (solve_EVP_2).  [eps] is numeric_limits::epsilon(); the matrix is given by its entries.
    The loop of lines 27-33 runs once or twice. *)
Definition solve_evp_2 (eps : R) (a00 a01 a10 a11 : R) : R * R :=
  let trace := a00 + a11 in
  let det := a00 * a11 - a01 * a10 in
  let e0 := trace / 2 + sqrt (trace * trace / 4 - det) in
  let e1 := trace / 2 - sqrt (trace * trace / 4 - det) in
  if Rltb eps (Rabs e0) then
    let col0 := (a00 - e1 * 1, a10 - e1 * 0) in
    let col1 := (a01 - e1 * 0, a11 - e1 * 1) in
    let nrm := fun c : R * R => sqrt (fst c * fst c + snd c * snd c) in
    let dir := if Rltb (nrm col0) eps then col1 else col0 in
    if Rltb (nrm dir) eps then (1, 0) else (fst dir / nrm dir, snd dir / nrm dir)
  else (0, 0).

(** direction_computation.hpp 38-49: the covariance matrix of the points of a cluster. *)
Definition covariance (d : nat) (X W center : list R) (pts : list nat) (p q : nat) : R :=
  fold_left (fun s i => s + nth i W 0 * (coord d X i p - nth p center 0) * (coord d X i q - nth q center 0)) pts 0.

(** direction_computation.hpp 26-57 (ComputeLargestExtent) in two dimensions. *)
Definition largest_extent_2 (eps : R) (X W center : list R) (pts : list nat) : R * R :=
  let C := covariance 2 X W center pts in
  solve_evp_2 eps (C 0%nat 0%nat)%nat (C 0%nat 1%nat)%nat (C 1%nat 0%nat)%nat (C 1%nat 1%nat)%nat.
