(** * The copies of hierarchical matrices can be factorised. *)

From Coq Require Import List Arith Bool Lia Permutation.
From Verif Require Import ClusterModel ClusterSpec IOModel IOSpec IOProofs BlockModel BlockSpec Algebra BlasModel BlasProofs HMatModel HMatSpec
  Field ArithModel ArithSpec ArithTree HFactModel HFactSpec CopyModel CopySpec CopyProofs.
Import ListNotations.

Section F.
  Variable K : Coef.
  Notation cp := (hcopy K).
  Lemma block_copy : forall A : hmat K, block_of (cp A) = block_of A.
  Proof. intros [i cs]. reflexivity. Qed.
  Lemma blocks_copy : forall cs : list (hmat K), map block_of (map cp cs) = map block_of cs.
  Proof. intros cs. rewrite map_map. apply map_ext, block_copy. Qed.
  Lemma hrep_copy : forall parts M (A : hmat K), hrep parts M A -> hrep parts M (cp A).
  Proof.
    intros parts M A. induction A as [i cs IH] using rtree_ind'. intros H. inversion H as [i' H1 H2 H3 H4 H5 H6|i' cs' H1 H2 H3 H4 H5 H6 H7 H8]; subst.
    - cbn [hcopy map]. apply (hrep_leaf K); try assumption. reflexivity.
    - cbn [hcopy]. apply (hrep_node K); try assumption; [reflexivity|rewrite blocks_copy; exact H7|].
      intros c Hc. apply in_map_iff in Hc. destruct Hc as (c0 & <- & Hc0). apply IH; [exact Hc0|]. apply H8, Hc0.
  Qed.
  Lemma hdest_copy : forall A : hmat K, hdest A -> hdest (cp A).
  Proof.
    intros A. induction A as [i cs IH] using rtree_ind'. intros H. inversion H as [i' H1|i' cs' H1 H2 H3 H4 H5]; subst.
    - cbn [hcopy map]. apply hdest_leaf. exact H1.
    - cbn [hcopy]. apply hdest_node; try assumption; rewrite ?blocks_copy; try assumption.
      intros c Hc. apply in_map_iff in Hc. destruct Hc as (c0 & <- & Hc0). apply IH; [exact Hc0|]. apply H5, Hc0.
  Qed.
End F.
Section G.
  Variable F : Fld.
  Notation K := (fk F).
  Notation cp := (hcopy K).
  Lemma factorable_copy : forall M first (A : hmat K), factorable (F := F) M first A -> factorable (F := F) M first (cp A).
  Proof.
    intros M first A. induction A as [i cs IH] using rtree_ind'. intros H. inversion H as [i' D H1 H2|i' cs' H1 H2]; subst.
    - cbn [hcopy map]. apply (factorable_leaf F M first _ D); assumption.
    - cbn [hcopy]. apply factorable_node; [exact H1|]. intros c k Hc Hk. apply in_map_iff in Hc. destruct Hc as (c0 & <- & Hc0).
      rewrite block_copy in Hk. apply IH; [exact Hc0|]. exact (H2 c0 k Hc0 Hk).
  Qed.
  Lemma hsym_copy : forall parts u M (A : hmat K), hsym (F := F) parts u M A -> hsym (F := F) parts u M (cp A).
  Proof.
    intros parts u M A. induction A as [i cs IH] using rtree_ind'. intros H. inversion H as [i' D H1 H2 H3 H4 H5 H6|i' cs' H1 H2 H3 H4 H5 H6 H7 H8 H9 H10 H11]; subst.
    - cbn [hcopy map]. apply (hsym_leaf F parts u M _ D); assumption.
    - cbn [hcopy]. apply hsym_node; try assumption; rewrite ?blocks_copy; try assumption.
      + intros c Hc. apply in_map_iff in Hc. destruct Hc as (c0 & <- & Hc0). apply hdest_copy, H7, Hc0.
      + intros c k Hc Hk. apply in_map_iff in Hc. destruct Hc as (c0 & <- & Hc0). rewrite block_copy in Hk. apply IH; [exact Hc0|]. exact (H9 c0 k Hc0 Hk).
      + intros c o j Hc Hk Hs. apply in_map_iff in Hc. destruct Hc as (c0 & <- & Hc0). rewrite block_copy in Hk. apply hrep_copy. exact (H11 c0 o j Hc0 Hk Hs).
  Qed.
End G.
