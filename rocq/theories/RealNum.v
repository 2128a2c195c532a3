(** * Real and complex numbers as coefficients (exact double and std::complex<double>).

    Uses the axioms of Coq's standard real numbers. *)

From Coq Require Import List Arith ZArith Bool Lia Ring Reals Lra.
From Verif Require Import Algebra Field.
Import ListNotations.
Local Open Scope R_scope.

Definition R_eqb (x y : R) : bool := if Req_EM_T x y then true else false.
Lemma R_eqb_spec : forall x y, reflect (x = y) (R_eqb x y).
Proof. intros x y. unfold R_eqb. destruct (Req_EM_T x y); constructor; assumption. Qed.
Definition Rltb (x y : R) : bool := if Rlt_dec x y then true else false.
Lemma Rltb_spec : forall x y, reflect (x < y) (Rltb x y).
Proof. intros x y. unfold Rltb. destruct (Rlt_dec x y); constructor; assumption. Qed.

Lemma Rltb_true : forall x y, Rltb x y = true -> x < y.
Proof. intros x y H. destruct (Rltb_spec x y); [assumption|discriminate]. Qed.

Lemma R_ring : ring_theory 0 1 Rplus Rmult Rminus Ropp (@eq R).
Proof. constructor; intros; ring. Qed.
Definition Rc : Coef.
Proof.
  refine (mkCoef R 0 1 Rplus Rmult Rminus Ropp (fun x => x) (fun x => x) R_eqb R_ring _ _ _ _ _ R_eqb_spec false _);
    reflexivity || (intros; assumption) || (intros; reflexivity).
Defined.
Definition Rf : Fld.
Proof.
  refine (mkFld Rc Rinv _ _); cbn; [intros x H; apply Rinv_r, H|apply R1_neq_R0].
Defined.
Definition Rn : Num := mkNum Rf Rabs Rltb.

(** Complex numbers. *)
Definition Cadd (x y : R * R) : R * R := (fst x + fst y, snd x + snd y).
Definition Cmul (x y : R * R) : R * R := (fst x * fst y - snd x * snd y, fst x * snd y + snd x * fst y).
Definition Csub (x y : R * R) : R * R := (fst x - fst y, snd x - snd y).
Definition Copp (x : R * R) : R * R := (- fst x, - snd x).
Definition Cconj (x : R * R) : R * R := (fst x, - snd x).
Definition Cre (x : R * R) : R * R := (fst x, 0).
Definition Ceqb (x y : R * R) : bool := R_eqb (fst x) (fst y) && R_eqb (snd x) (snd y).
Lemma C_ring : ring_theory (0, 0) (1, 0) Cadd Cmul Csub Copp (@eq (R * R)).
Proof. constructor; intros; unfold Cadd, Cmul, Csub, Copp; repeat match goal with x : (R * R)%type |- _ => destruct x end; cbn; f_equal; ring. Qed.
Lemma Ceqb_spec : forall x y, reflect (x = y) (Ceqb x y).
Proof.
  intros [a b] [c d]. unfold Ceqb. cbn. destruct (R_eqb_spec a c) as [->|N]; [destruct (R_eqb_spec b d) as [->|N]|]; constructor; congruence.
Qed.
Definition Cc : Coef.
Proof.
  refine (mkCoef (R * R) (0, 0) (1, 0) Cadd Cmul Csub Copp Cconj Cre Ceqb C_ring _ _ _ _ _ Ceqb_spec true _).
  - intros [a b] [c d]. unfold Cconj, Cadd. cbn. f_equal; ring.
  - intros [a b] [c d]. unfold Cconj, Cmul. cbn. f_equal; ring.
  - intros [a b]. unfold Cconj. cbn. f_equal; ring.
  - intros [a b] H. unfold Cconj, Cre in *. cbn in *. injection H. intros H1. f_equal. lra.
  - intros [a b]. unfold Cconj, Cre. cbn. f_equal. ring.
  - discriminate.
Defined.
Definition Cinv (x : R * R) : R * R := (fst x / (fst x * fst x + snd x * snd x), - snd x / (fst x * fst x + snd x * snd x)).
Definition Cf : Fld.
Proof.
  refine (mkFld Cc Cinv _ _); cbn.
  - intros [a b] H. unfold Cinv, Cmul. cbn.
    assert (a * a + b * b <> 0).
    { intros E. apply H. assert (a = 0) by nra. assert (b = 0) by nra. subst. reflexivity. }
    f_equal; field; assumption.
  - intros H. injection H. lra.
Defined.
(** std::abs of a complex number, as a complex number with no imaginary part. *)
Definition Cmod (x : R * R) : R := sqrt (fst x * fst x + snd x * snd x).
Definition Cabs (x : R * R) : R * R := (Cmod x, 0).
Definition Cltb (x y : R * R) : bool := Rltb (fst x) (fst y).
Definition Cn : Num := mkNum Cf Cabs Cltb.
