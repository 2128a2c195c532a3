(** * Specification of the direction of largest extent in space (C64). *)

From Coq Require Import List Reals.
From Verif Require Import GeomSpec Evp3Model.
Import ListNotations.
Local Open Scope R_scope.

Definition unit3 (v : vec3) : Prop := vx v * vx v + vy v * vy v + vz v * vz v = 1.
(** Component along v of the point i, relative to the center. *)
Definition along3 (X center : list R) (v : vec3) (i : nat) : R :=
  (nth (3 * i) X 0 - nth 0 center 0) * vx v + (nth (3 * i + 1) X 0 - nth 1 center 0) * vy v + (nth (3 * i + 2) X 0 - nth 2 center 0) * vz v.
(** Weighted sum of squares of the components along v of the points of a list. *)
Definition variance3 (X W center : list R) (pts : list nat) (v : vec3) : R :=
  over pts (fun i => nth i W 0 * (along3 X center v i * along3 X center v i)).
(** Weighted sum of the products of the components along two axes. *)
Definition correlation (X W center : list R) (pts : list nat) (u v : vec3) : R :=
  over pts (fun i => nth i W 0 * (along3 X center u i * along3 X center v i)).
