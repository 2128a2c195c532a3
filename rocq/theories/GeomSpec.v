(** * Specification vocabulary for the geometry of clusters. *)

From Coq Require Import List Arith ZArith Bool Reals.
From Verif Require Import ClusterModel RealNum.
Import ListNotations.
Local Open Scope R_scope.

(** Sum of f 0, ..., f (n-1). *)
Fixpoint rs (n : nat) (f : nat -> R) : R := match n with 0%nat => 0 | S k => rs k f + f k end.

(** Sum over a list of points. *)
Fixpoint over (l : list nat) (f : nat -> R) : R := match l with [] => 0 | i :: l' => f i + over l' f end.

(** Euclidean distance in dimension [d]; a point is given by its coordinates. *)
Definition dist (d : nat) (x y : nat -> R) : R := sqrt (rs d (fun p => (x p - y p) * (x p - y p))).

(** The vector [v] read as a point. *)
Definition pt (v : list R) (p : nat) : R := nth p v 0.

(** The user indices of the points of a cluster, read from the final permutation. *)
Definition points_of (perm : list nat) (c : cinfo) : list nat := slice (ci_off c) (ci_size c) perm.

(** Weighted sum of squares of the components along (v0,v1) of the points of a list, relative to a center. *)
Definition variance2 (X W center : list R) (pts : list nat) (v : R * R) : R :=
  over pts (fun i => nth i W 0 *
    (((nth (2 * i) X 0 - nth 0 center 0) * fst v + (nth (2 * i + 1) X 0 - nth 1 center 0) * snd v) *
     ((nth (2 * i) X 0 - nth 0 center 0) * fst v + (nth (2 * i + 1) X 0 - nth 1 center 0) * snd v))).
