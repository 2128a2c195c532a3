(** * A hierarchical matrix holds the triangle of its entries: proofs. *)

From Coq Require Import List Arith ZArith Bool Permutation Lia.
From Verif Require Import ClusterModel ClusterSpec IOModel IOSpec BlockModel BlockSpec BlockSym Algebra BlasModel HMatModel HMatSpec HMatBuild HMatTop Field
  DenseModel DenseSpec DenseProofs DistModel ArithModel ArithSpec ArithDense ArithLr ArithTree ArithHier ArithProd ArithDest HFactModel HFactSpec HFactSubst HFactSolve HFactHH.
Import ListNotations.

Section P.
  Variable F : Fld.
  Notation K := (fk F).
  Notation C := (car K).
  Notation hmat := (rtree (hinfo K)).
  Notation hv := rt_val.
  Variable parts : ctree -> list ctree.
  Notation ct := (cluster_tree parts).
  Notation hrep := (hrep parts).
  Notation htri := (htri parts).

  Lemma kid_lt : forall c o j a b, ct c -> In o (ckids c) -> In j (ckids c) -> c_off o < c_off j -> inc o a -> inc j b -> a < b.
  Proof.
    intros c o j a b Hc Ho Hj Hl Ha Hb. destruct (tiles_pair _ _ _ o j (ckids_tiles parts c Hc) Ho Hj) as [E|E]; [subst; lia|].
    unfold disj, inc in *. lia.
  Qed.
  Lemma triangle_in : forall u d (M : nat -> nat -> C) a b, match u with UpU => a < b | _ => b < a end -> triangle_of u d M a b = M a b.
  Proof.
    intros u d M a b H. unfold triangle_of. destruct (Nat.eqb_spec a b) as [E|E]; [destruct u; lia|].
    destruct u; apply Nat.ltb_lt in H; rewrite H; reflexivity.
  Qed.
  Lemma triangle_out : forall u d (M : nat -> nat -> C) a b, match u with UpU => b < a | _ => a < b end -> triangle_of u d M a b = c0 K.
  Proof.
    intros u d M a b H. unfold triangle_of. destruct (Nat.eqb_spec a b) as [E|E]; [destruct u; lia|].
    destruct u; (replace (_ <? _) with false by (symmetry; apply Nat.ltb_ge; lia)); reflexivity.
  Qed.
  Lemma target_nil : forall n i, target_row n [] i = i.
  Proof. reflexivity. Qed.

  Theorem hrep_htri : forall u d M (A : hmat), hrep M A -> h_s (hv A) = h_t (hv A) -> dense_diagonal A ->
    (d = DgN -> forall i, inc (h_t (hv A)) i -> M i i <> c0 K) -> htri u d (triangle_of u d M) A.
  Proof.
    intros u d M A H. induction H as [i H1 H2 H3 H4 H5 H6|i cs H1 H2 H3 H4 H5 H6 H7 H8 IH]; cbn [rt_val]; intros HS HD HN.
    - inversion HD as [i' D E1 E2|i' cs' E1 E2]; subst; [|unfold leaf_ok in H5; rewrite E1 in H5; contradiction].
      unfold leaf_ok in H5. rewrite E1 in H5. unfold stored in H6. rewrite E1 in H6. rewrite HS in *. apply htri_leaf with D; try assumption; auto.
      + intros Ed k Hk. rewrite H6 by assumption. apply HN; [exact Ed|]. unfold inc. lia.
      + intros a b Ha Hb. unfold factor. rewrite E2, target_nil. replace (if is_L u then a else a) with a by (destruct (is_L u); reflexivity).
        unfold triangle_of, triangle. replace (_ + a =? _ + b) with (a =? b) by (destruct (Nat.eqb_spec a b); symmetry; [apply Nat.eqb_eq|apply Nat.eqb_neq]; lia).
        replace (_ + a <? _ + b) with (a <? b) by (destruct (Nat.ltb_spec a b); symmetry; [apply Nat.ltb_lt|apply Nat.ltb_ge]; lia).
        replace (_ + b <? _ + a) with (b <? a) by (destruct (Nat.ltb_spec b a); symmetry; [apply Nat.ltb_lt|apply Nat.ltb_ge]; lia).
        destruct (Nat.eqb_spec a b) as [<-|_]; [destruct d; [reflexivity|symmetry; apply H6; assumption]|]. rewrite (H6 a b) by assumption. reflexivity.
    - inversion HD as [i' D E1 E2|i' cs' E1 E2]; subst; [congruence|]. rewrite HS in *. rewrite andb_diag in H6.
      assert (BK : forall c o j, In c cs -> block_of c = (o, j) -> In o (ckids (h_t i)) /\ In j (ckids (h_t i))).
      { intros c o j Hc Hb. apply in_prod_iff. rewrite <- Hb. eapply Permutation_in; [exact H7|apply in_map, Hc]. }
      apply htri_node; try assumption.
      + auto.
      + eapply Permutation_NoDup; [apply Permutation_sym, H7|apply prod_nodup with parts; assumption].
      + intros p Hp. eapply Permutation_in; eassumption.
      + intros k Hk. eapply Permutation_in; [apply Permutation_sym, H7|]. apply in_prod; exact Hk.
      + intros c k Hc Hb. destruct (BK c k k Hc Hb) as [B1 _]. unfold block_of in Hb. apply IH; [exact Hc|congruence|eapply E2; eassumption|].
        intros Ed x Hx. apply HN; [exact Ed|]. replace (h_t (hv c)) with k in Hx by congruence. eapply kid_inc; eassumption.
      + intros o j Ho Hj _. eapply Permutation_in; [apply Permutation_sym, H7|]. apply in_prod; assumption.
      + intros c o j Hc Hb Hst. destruct (BK c o j Hc Hb) as [B1 B2]. eapply hrep_ext; [apply H8, Hc|]. intros a b Ha Hb'. apply inc_iv in Ha, Hb'.
        unfold block_of in Hb. replace (h_t (hv c)) with o in Ha by congruence. replace (h_s (hv c)) with j in Hb' by congruence. symmetry. apply triangle_in.
        destruct u; cbn [strictly] in Hst; (apply (kid_lt (h_t i) o j a b) || apply (kid_lt (h_t i) j o b a)); assumption.
      + intros o j a b Ho Hj Hst Ha Hb. apply triangle_out. destruct u; cbn [strictly] in Hst; (apply (kid_lt (h_t i) o j a b) || apply (kid_lt (h_t i) j o b a)); assumption.
  Qed.
End P.
