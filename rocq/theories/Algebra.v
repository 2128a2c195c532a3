(** * Coefficients and finite sums.

    Coefficients: a commutative ring with a conjugation.  The code uses float, double and their complex versions; the
    model computes exactly (no rounding).  Real types: conjugation is the identity. *)

From Coq Require Import List Arith ZArith Bool Lia Ring Permutation.
Import ListNotations.

Record Coef : Type := mkCoef {
  car : Type;
  c0 : car;
  c1 : car;
  cadd : car -> car -> car;
  cmul : car -> car -> car;
  csub : car -> car -> car;
  copp : car -> car;
  cconj : car -> car;
  (** Real part, as read by hemv/hemm on the diagonal. *)
  cre : car -> car;
  ceqb : car -> car -> bool;
  c_ring : ring_theory c0 c1 cadd cmul csub copp (@eq car);
  cconj_add : forall x y, cconj (cadd x y) = cadd (cconj x) (cconj y);
  cconj_mul : forall x y, cconj (cmul x y) = cmul (cconj x) (cconj y);
  cconj_invol : forall x, cconj (cconj x) = x;
  cre_real : forall x, cconj x = x -> cre x = x;
  cre_conj : forall x, cconj (cre x) = cre x;
  ceqb_spec : forall x y, reflect (x = y) (ceqb x y);
  (** is_complex<T>(), misc.hpp 24-28. *)
  cplx : bool;
  cplx_real : cplx = false -> forall x, cconj x = x
}.

Section Sums.
  Variable K : Coef.
  Notation C := (car K).
  Notation "0" := (c0 K).
  Notation "1" := (c1 K).
  Notation "x + y" := (cadd K x y).
  Notation "x * y" := (cmul K x y).
  Notation "x - y" := (csub K x y).
  Add Ring Kring : (c_ring K).

  (** sum over 0..n-1 *)
  Fixpoint sum (n : nat) (f : nat -> C) : C := match n with O => 0 | S k => sum k f + f k end.
  (** sum over a list *)
  Fixpoint lsum {A} (l : list A) (f : A -> C) : C := match l with [] => 0 | a :: t => f a + lsum t f end.

  Lemma sum_ext : forall n f g, (forall i, i < n -> f i = g i) -> sum n f = sum n g.
  Proof. induction n as [|n IH]; intros f g H; cbn; [reflexivity|]. rewrite (IH f g), H; auto with arith. Qed.
  Lemma sum_0 : forall n f, (forall i, i < n -> f i = 0) -> sum n f = 0.
  Proof. induction n as [|n IH]; intros f H; cbn; [reflexivity|]. rewrite IH, H; auto with arith. ring. Qed.
  Lemma sum_add : forall n f g, sum n (fun i => f i + g i) = sum n f + sum n g.
  Proof. induction n as [|n IH]; intros f g; cbn; [ring|]. rewrite IH. ring. Qed.
  Lemma sum_mul_l : forall n a f, sum n (fun i => a * f i) = a * sum n f.
  Proof. induction n as [|n IH]; intros a f; cbn; [ring|]. rewrite IH. ring. Qed.
  Lemma sum_mul_r : forall n a f, sum n (fun i => f i * a) = sum n f * a.
  Proof. induction n as [|n IH]; intros a f; cbn; [ring|]. rewrite IH. ring. Qed.
  Lemma sum_sub : forall n f g, sum n (fun i => f i - g i) = sum n f - sum n g.
  Proof. induction n as [|n IH]; intros f g; cbn; [ring|]. rewrite IH. ring. Qed.
  Lemma sum_split : forall n m f, sum (n + m)%nat f = sum n f + sum m (fun i => f (n + i)%nat).
  Proof.
    intros n m; induction m as [|m IH]; intros f; cbn.
    - rewrite Nat.add_0_r. ring.
    - rewrite Nat.add_succ_r. cbn. rewrite IH. ring.
  Qed.
  Lemma sum_swap : forall n m f, sum n (fun i => sum m (fun j => f i j)) = sum m (fun j => sum n (fun i => f i j)).
  Proof.
    induction n as [|n IH]; intros m f; cbn.
    - symmetry. apply sum_0. reflexivity.
    - rewrite IH, <- sum_add. reflexivity.
  Qed.
  (** the terms outside [a, a+m) vanish *)
  Lemma sum_window : forall n a m f, (a + m <= n)%nat ->
    sum n (fun i => if (a <=? i) && (i <? a + m)%nat then f i else 0) = sum m (fun i => f (a + i)%nat).
  Proof.
    intros n a m f H. replace n with (a + (m + (n - a - m)))%nat by lia. rewrite !sum_split.
    rewrite (sum_0 a), (sum_0 (n - a - m)).
    - rewrite (sum_ext m _ (fun i => f (a + i)%nat)); [ring|].
      intros i Hi. destruct (Nat.leb_spec a (a + i)); [|lia]. destruct (Nat.ltb_spec (a + i) (a + m)); [reflexivity|lia].
    - intros i Hi. destruct (Nat.ltb_spec (a + (m + i)) (a + m)); [lia|]. rewrite andb_false_r. reflexivity.
    - intros i Hi. destruct (Nat.leb_spec a i); [lia|reflexivity].
  Qed.
  Lemma sum_single : forall n k f, k < n -> (forall i, i < n -> i <> k -> f i = 0) -> sum n f = f k.
  Proof.
    intros n k f Hk H. replace n with (k + (1 + (n - k - 1)))%nat by lia. rewrite !sum_split. cbn [sum].
    rewrite (sum_0 k), (sum_0 (n - k - 1)).
    - rewrite Nat.add_0_r. ring.
    - intros i Hi. apply H; lia.
    - intros i Hi. apply H; lia.
  Qed.
  Lemma conj_0 : cconj K 0 = 0.
  Proof.
    assert (E : cconj K 0 + cconj K 0 = cconj K 0) by (rewrite <- cconj_add; f_equal; ring).
    transitivity (cconj K 0 + cconj K 0 - cconj K 0); [ring|]. rewrite E. ring.
  Qed.
  Lemma conj_1 : cconj K 1 = 1.
  Proof.
    assert (E : cconj K (1 * cconj K 1) = 1) by (replace (1 * cconj K 1) with (cconj K 1) by ring; apply cconj_invol).
    rewrite cconj_mul, cconj_invol in E. transitivity (cconj K 1 * 1); [ring|exact E].
  Qed.
  Lemma conj_sum : forall n f, cconj K (sum n f) = sum n (fun i => cconj K (f i)).
  Proof. induction n as [|n IH]; intros f; cbn; [apply conj_0|]. rewrite cconj_add, IH. reflexivity. Qed.
  Lemma conj_opp : forall x, cconj K (copp K x) = copp K (cconj K x).
  Proof.
    intros x. assert (E : cconj K (copp K x) + cconj K x = 0).
    { rewrite <- cconj_add. replace (copp K x + x) with 0 by ring. apply conj_0. }
    transitivity (cconj K (copp K x) + cconj K x - cconj K x); [ring|]. rewrite E. ring.
  Qed.
  Lemma conj_sub : forall x y, cconj K (x - y) = cconj K x - cconj K y.
  Proof.
    intros x y. replace (x - y) with (x + copp K y) by ring. rewrite cconj_add, conj_opp. ring.
  Qed.

  Lemma lsum_ext : forall A (l : list A) f g, (forall a, In a l -> f a = g a) -> lsum l f = lsum l g.
  Proof.
    induction l as [|a l IH]; intros f g H; cbn; [reflexivity|].
    rewrite (H a), (IH f g); [reflexivity| |left; reflexivity]. intros b Hb. apply H. right. exact Hb.
  Qed.
  Lemma lsum_app : forall A (l1 l2 : list A) f, lsum (l1 ++ l2) f = lsum l1 f + lsum l2 f.
  Proof. induction l1 as [|a l IH]; intros l2 f; cbn; [ring|]. rewrite IH. ring. Qed.
  Lemma lsum_perm : forall A (l1 l2 : list A) f, Permutation l1 l2 -> lsum l1 f = lsum l2 f.
  Proof. induction 1; cbn; try ring; congruence. Qed.
  Lemma lsum_0 : forall A (l : list A) f, (forall a, In a l -> f a = 0) -> lsum l f = 0.
  Proof.
    induction l as [|a l IH]; intros f H; cbn; [reflexivity|]. rewrite (H a), IH; [ring| |left; reflexivity].
    intros b Hb. apply H. right. exact Hb.
  Qed.
  Lemma lsum_add : forall A (l : list A) f g, lsum l (fun a => f a + g a) = lsum l f + lsum l g.
  Proof. induction l as [|a l IH]; intros f g; cbn; [ring|]. rewrite IH. ring. Qed.
  Lemma lsum_mul_l : forall A (l : list A) c f, lsum l (fun a => c * f a) = c * lsum l f.
  Proof. induction l as [|a l IH]; intros c f; cbn; [ring|]. rewrite IH. ring. Qed.
  Lemma lsum_map : forall A B (g : A -> B) l f, lsum (map g l) f = lsum l (fun a => f (g a)).
  Proof. induction l as [|a l IH]; intros f; cbn; [reflexivity|]. rewrite IH. reflexivity. Qed.
  Lemma lsum_sum : forall A (l : list A) n f, lsum l (fun a => sum n (f a)) = sum n (fun j => lsum l (fun a => f a j)).
  Proof.
    induction l as [|a l IH]; intros n f; cbn.
    - symmetry. apply sum_0. reflexivity.
    - rewrite IH, <- sum_add. reflexivity.
  Qed.
  Lemma lsum_concat : forall A (l : list (list A)) f, lsum (concat l) f = lsum l (fun x => lsum x f).
  Proof. induction l as [|a l IH]; intros f; cbn; [reflexivity|]. rewrite lsum_app, IH. reflexivity. Qed.
  Lemma sum_lsum : forall n f, sum n f = lsum (seq 0 n) f.
  Proof. induction n as [|n IH]; intros f; [reflexivity|]. rewrite seq_S, lsum_app, <- IH. cbn. ring. Qed.

  (** sum of a value over the elements that satisfy [p] *)
  Fixpoint nmul (n : nat) (x : C) : C := match n with O => 0 | S k => x + nmul k x end.
  Lemma lsum_filter : forall A (l : list A) (p : A -> bool) x,
    lsum l (fun a => if p a then x else 0) = nmul (length (filter p l)) x.
  Proof. induction l as [|a l IH]; intros p x; cbn; [reflexivity|]. rewrite IH. destruct (p a); cbn; ring. Qed.
  Lemma nmul_add : forall n m x, nmul (n + m) x = nmul n x + nmul m x.
  Proof. induction n as [|n IH]; intros m x; cbn; [ring|]. rewrite IH. ring. Qed.
  Lemma nmul_1 : forall x, nmul 1%nat x = x.
  Proof. intros x. cbn. ring. Qed.
End Sums.
Arguments sum {K} n f.
Arguments lsum {K A} l f.

(** ** Instances *)
Lemma Zr : ring_theory 0%Z 1%Z Z.add Z.mul Z.sub Z.opp (@eq Z).
Proof. constructor; intros; ring. Qed.
(** Integers: a real type. *)
Definition Zc : Coef.
Proof.
  refine (mkCoef Z 0%Z 1%Z Z.add Z.mul Z.sub Z.opp (fun x => x) (fun x => x) Z.eqb Zr _ _ _ _ _ Z.eqb_spec false _); auto.
Defined.

(** Gaussian integers: a complex type. *)
Definition gz : Type := (Z * Z)%type.
Definition gadd (x y : gz) : gz := (fst x + fst y, snd x + snd y)%Z.
Definition gmul (x y : gz) : gz := (fst x * fst y - snd x * snd y, fst x * snd y + snd x * fst y)%Z.
Definition gopp (x : gz) : gz := (- fst x, - snd x)%Z.
Definition gsub (x y : gz) : gz := (fst x - fst y, snd x - snd y)%Z.
Definition gconj (x : gz) : gz := (fst x, - snd x)%Z.
Definition gre (x : gz) : gz := (fst x, 0)%Z.
Definition geqb (x y : gz) : bool := (fst x =? fst y)%Z && (snd x =? snd y)%Z.
Lemma pair_eq : forall a b c d : Z, a = c -> b = d -> (a, b) = (c, d).
Proof. congruence. Qed.
Lemma Gr : ring_theory (0, 0)%Z (1, 0)%Z gadd gmul gsub gopp (@eq gz).
Proof.
  constructor; intros; repeat match goal with x : gz |- _ => destruct x | x : (Z * Z)%type |- _ => destruct x end; unfold gadd, gmul, gsub, gopp; cbn [fst snd];
    apply pair_eq; ring.
Qed.
Lemma geqb_spec : forall x y, reflect (x = y) (geqb x y).
Proof.
  intros [a b] [c d]. unfold geqb. cbn. destruct (Z.eqb_spec a c), (Z.eqb_spec b d); cbn; constructor; congruence.
Qed.
Definition Gc : Coef.
Proof.
  refine (mkCoef gz (0, 0)%Z (1, 0)%Z gadd gmul gsub gopp gconj gre geqb Gr _ _ _ _ _ geqb_spec true _); try discriminate;
    intros; repeat match goal with x : gz |- _ => destruct x | x : (Z * Z)%type |- _ => destruct x end; unfold gadd, gmul, gconj, gre in *; cbn in *;
    try injection H; intros; apply pair_eq; lia.
Defined.
