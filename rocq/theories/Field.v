(** * Fields of coefficients.

    float, double and their complex versions also divide; the model divides exactly.  [Num] adds the modulus std::abs
    and the comparison of moduli, as operations without laws: the theorems state the laws that they use. *)

From Coq Require Import List Arith ZArith Bool Lia Ring Qcanon QArith.
From Verif Require Import Algebra.
Import ListNotations.

Record Fld : Type := mkFld {
  fk : Coef;
  finv : car fk -> car fk;
  finv_r : forall x, x <> c0 fk -> cmul fk x (finv x) = c1 fk;
  f_10 : c1 fk <> c0 fk
}.

Record Num : Type := mkNum {
  nfd : Fld;
  nabs : car (fk nfd) -> car (fk nfd);
  (** operator< on the underlying real type. *)
  nltb : car (fk nfd) -> car (fk nfd) -> bool
}.

Section F.
  Variable F : Fld.
  Notation K := (fk F).
  Notation C := (car K).
  Notation "0" := (c0 K).
  Notation "1" := (c1 K).
  Notation "x * y" := (cmul K x y).
  Add Ring FKring : (c_ring K).
  Definition fdiv (x y : C) : C := x * finv F y.

  Lemma finv_l : forall x, x <> 0 -> finv F x * x = 1.
  Proof. intros x H. rewrite <- (finv_r F x H). ring. Qed.
  Lemma fdiv_mul : forall x y, y <> 0 -> fdiv x y * y = x.
  Proof. intros x y H. unfold fdiv. transitivity (x * (y * finv F y)); [ring|]. rewrite finv_r by exact H. ring. Qed.
  Lemma f_integral : forall x y, x * y = 0 -> x = 0 \/ y = 0.
  Proof.
    intros x y H. destruct (ceqb_spec K x 0) as [E|E]; [left; exact E|right].
    transitivity (finv F x * (x * y)); [|rewrite H; ring]. transitivity (finv F x * x * y); [|ring]. rewrite finv_l by exact E. ring.
  Qed.
  Lemma f_cancel : forall a x y, a <> 0 -> a * x = a * y -> x = y.
  Proof.
    intros a x y Ha E. transitivity (finv F a * (a * x)).
    - transitivity (finv F a * a * x); [rewrite finv_l by exact Ha; ring|ring].
    - rewrite E. transitivity (finv F a * a * y); [ring|rewrite finv_l by exact Ha; ring].
  Qed.
End F.

(** Rational numbers: exact and computable. *)
Definition Qc_ring : ring_theory 0%Qc 1%Qc Qcplus Qcmult Qcminus Qcopp (@eq Qc) := Qcrt.
Lemma Qc_eqb_spec : forall x y : Qc, reflect (x = y) (Qc_eq_bool x y).
Proof.
  intros x y. unfold Qc_eq_bool. destruct (Qc_eq_dec x y); constructor; assumption.
Qed.
Definition Qcc : Coef.
Proof.
  refine (mkCoef Qc 0%Qc 1%Qc Qcplus Qcmult Qcminus Qcopp (fun x => x) (fun x => x) Qc_eq_bool Qc_ring _ _ _ _ _ Qc_eqb_spec false _);
    reflexivity || (intros; assumption) || (intros; reflexivity).
Defined.
Definition Qf : Fld.
Proof.
  refine (mkFld Qcc Qcinv _ _).
  - intros x H. cbn in *. apply Qcmult_inv_r. exact H.
  - cbn. intros H. discriminate H.
Defined.
Definition Qc_abs (x : Qc) : Qc := if Qclt_le_dec x 0 then Qcopp x else x.
Definition Qc_ltb (x y : Qc) : bool := if Qclt_le_dec x y then true else false.
Definition Qn : Num := mkNum Qf Qc_abs Qc_ltb.
