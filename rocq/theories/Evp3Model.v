(** * The direction of largest extent in space.

    Source: misc/evp.hpp 46-148 (solve_EVP_3), clustering/tree_builder/direction_computation.hpp 22-57.  No proofs in this file.

    Exact real arithmetic; the two literals are the decimal numbers written in the code. *)

From Coq Require Import List Reals.
From Verif Require Import ClusterModel RealNum GeomModel.
Import ListNotations.
Local Open Scope R_scope.

(** The literal of line 95 (approximation of PI/3). *)
Definition third_of_pi : R := 1.047197551196598.

Record vec3 : Type := V3 { vx : R; vy : R; vz : R }.
(** Lines 115-125 (the three cross products), dprod (basic_types/vector.hpp). *)
Definition cross (a b : vec3) : vec3 := V3 (vy a * vz b - vz a * vy b) (vz a * vx b - vx a * vz b) (vx a * vy b - vy a * vx b).
Definition dot3 (a b : vec3) : R := vx a * vx b + vy a * vy b + vz a * vz b.
(** Division by a norm, lines 138-144; division by zero gives entries that are not numbers: [None]. *)
Definition divide3 (a : vec3) (x : R) : option vec3 := if Req_EM_T x 0 then None else Some (V3 (vx a / x) (vy a / x) (vz a / x)).
(** The identity matrix, lines 51-54. *)
Definition id3 (i j : nat) : R := if (i =? j)%nat then 1 else 0.

Section Evp.
  Variable C : nat -> nat -> R.
  Notation c_ i j := (C i%nat j%nat).
  (** Line 49. *)
  Definition off_diagonal : R := (c_ 0 1) ^ 2 + (c_ 0 2) ^ 2 + (c_ 1 2) ^ 2.
  (** Lines 80-84. *)
  Definition mean3 : R := (c_ 0 0 + c_ 1 1 + c_ 2 2) / 3.
  Definition spread3 : R := sqrt (((c_ 0 0 - mean3) ^ 2 + (c_ 1 1 - mean3) ^ 2 + (c_ 2 2 - mean3) ^ 2 + 2 * off_diagonal) / 6).
  Definition scaled3 (i j : nat) : R := 1 / spread3 * (C i j - mean3 * id3 i j).
  (** Lines 85-88. *)
  Definition det3 (B : nat -> nat -> R) : R :=
    B 0%nat 0%nat * (B 1%nat 1%nat * B 2%nat 2%nat - B 1%nat 2%nat * B 2%nat 1%nat)
    - B 0%nat 1%nat * (B 1%nat 0%nat * B 2%nat 2%nat - B 1%nat 2%nat * B 2%nat 0%nat)
    + B 0%nat 2%nat * (B 1%nat 0%nat * B 2%nat 1%nat - B 1%nat 1%nat * B 2%nat 0%nat).
  (** Lines 92-98. *)
  Definition angle3 : R :=
    let r := det3 scaled3 / 2 in
    if Rle_dec r (-1) then third_of_pi else if Rle_dec 1 r then 0 else acos r / 3.
  (** eigs[0], line 101; eigs[1] and eigs[2] are not used afterwards. *)
  Definition first_eig : R := mean3 + 2 * spread3 * cos angle3.
  (** Lines 55-78: the matrix is taken as diagonal. *)
  Definition diagonal_direction : vec3 :=
    let (e0, dir) := if Rltb (c_ 0 0) (c_ 1 1) then (c_ 1 1, V3 0 1 0) else (c_ 0 0, V3 1 0 0) in
    if Rltb e0 (c_ 2 2) then V3 0 0 1 else dir.
  (** Lines 108-144. *)
  Definition general_direction : option vec3 :=
    let prod := fun i j => C i j - first_eig * id3 i j in
    let col := fun j => V3 (prod 0%nat j) (prod 1%nat j) (prod 2%nat j) in
    let c01 := cross (col 0%nat) (col 1%nat) in
    let c02 := cross (col 0%nat) (col 2%nat) in
    let c12 := cross (col 1%nat) (col 2%nat) in
    let d0 := dot3 c01 c01 in
    let d1 := dot3 c02 c02 in
    let d2 := dot3 c12 c12 in
    let (dmax, imax) := if Rltb d0 d1 then (d1, 1%nat) else (d0, 0%nat) in
    let imax := if Rltb dmax d2 then 2%nat else imax in
    match imax with
    | 0%nat => divide3 c01 (sqrt d0)
    | 1%nat => divide3 c02 (sqrt d1)
    | _ => divide3 c12 (sqrt d2)
    end.
  (** solve_EVP_3, lines 46-148; [eps]: numeric_limits::epsilon(). *)
  Definition solve_evp_3 (eps : R) : option vec3 :=
    if Rltb off_diagonal eps then Some diagonal_direction
    else if Rltb (Rabs first_eig) eps then Some (V3 0 0 0)
    else general_direction.
End Evp.

(** ComputeLargestExtent::compute_direction, direction_computation.hpp 26-57, in three dimensions. *)
Definition largest_extent_3 (eps : R) (X W center : list R) (pts : list nat) : option vec3 :=
  solve_evp_3 (covariance 3 X W center pts) eps.
