(** * LocalHMatrixSolver, and the local solver with overlap when there is no overlap: proofs. *)

From Coq Require Import List Arith ZArith Bool Lia Permutation Ring.
From Verif Require Import ClusterModel ClusterSpec ClusterMore IOModel IOSpec BlockModel BlockSpec Algebra BlasModel BlasProofs HMatModel HMatSpec
  Field DenseModel DenseSpec DenseProofs DenseLU DistModel DistMat ArithModel ArithSpec ArithDense ArithTree ArithDest
  HFactModel HFactSpec HFactSubst HFactSolve HFactHH HFactTri HFactLU HFactRenum HFactChol LocalModel LocalSpec LocalProofs LocalOverlap.
Import ListNotations.

Section Solvers.
  Variable F : Fld.
  Notation K := (fk F).
  Notation C := (car K).
  Add Ring LSr : (c_ring K).
  Notation "a * b" := (cmul K a b).
  Notation "1" := (c1 K).
  Notation mat := (mat K).
  Notation hmat := (rtree (hinfo K)).
  Notation hv := rt_val.
  Variable recompress : lrm K -> lrm K.
  Variable svd_factors : mat -> lrm K.
  Hypothesis HRec : exact_recompression recompress.
  Hypothesis HSvd : exact_svd svd_factors.
  Variable parts : ctree -> list ctree.
  Variable piv : (nat -> C) -> nat -> nat -> nat.
  Hypothesis HPiv : pivot_rule piv.
  Variable ppos : C -> bool.
  Variable psqrt : C -> C.
  Hypothesis HSq : sqrt_rule ppos psqrt.
  Variable star : trans.
  Hypothesis Hstar : star = TrC \/ (star = TrT /\ forall x, cconj K x = x).
  Variable fuel : nat.
  Notation numfact := (h_numfact F recompress svd_factors parts piv ppos psqrt star fuel).
  Notation internal := (h_internal F parts star fuel).

  Notation factors := (can_be_factored parts ppos).

  Theorem h_numfact_ok : forall M (A : hmat), factors M A -> (3 * cheight (h_t (hv A)) <= fuel)%nat ->
    exists A', numfact A = Some (A', true) /\ h_t (hv A') = h_t (hv A) /\ h_s (hv A') = h_t (hv A) /\ h_sym (hv A') = h_sym (hv A) /\ h_uplo (hv A') = h_uplo (hv A) /\
      forall mu, (1 <= mu)%nat -> solver F (c_size (h_t (hv A))) mu (at_block F (h_t (hv A)) (h_t (hv A)) M) (internal A').
  Proof.
    intros M A HA Hf. unfold can_be_factored in HA; cbn zeta in HA. unfold h_numfact.
    assert (N : forall u, (h_uplo (hv A) = u) -> u <> UpN -> hsym parts u M A -> two_way (h_t (hv A)) -> hermitian (F := F) (c_size (h_t (hv A))) (block (h_t (hv A)) M) ->
      posdef ppos (c_size (h_t (hv A))) (block (h_t (hv A)) M) ->
      exists A', cholesky F recompress svd_factors parts ppos psqrt star fuel u A = Some (A', true) /\ h_t (hv A') = h_t (hv A) /\ h_s (hv A') = h_t (hv A) /\ h_sym (hv A') = h_sym (hv A) /\ h_uplo (hv A') = h_uplo (hv A) /\
        forall mu, (1 <= mu)%nat -> solver F (c_size (h_t (hv A))) mu (at_block F (h_t (hv A)) (h_t (hv A)) M) (internal_cholesky_solve F parts star fuel u A')).
    { intros u Eu Hu HM HW HH HP.
      destruct (cholesky_h_ok F parts recompress svd_factors HRec HSvd ppos psqrt HSq star Hstar fuel u M A Hu HM HW HH HP Hf) as (A' & T & E1 & (E2 & E3 & E4) & E5 & E6).
      destruct (hsym_block F parts u M A HM) as [Q _]. unfold block_of in E2. injection E2 as Z1 Z2. exists A'. split; [exact E1|]. split; [exact Z1|]. split; [congruence|]. split; [exact E3|]. split; [exact E4|].
      intros mu Hmu P HP'. pose proof (internal_cholesky_solve_ok F parts star Hstar fuel u M T A' mu P) as R. cbn zeta in R. rewrite Z1 in R. apply R; try assumption. lia. }
    destruct (h_sym (hv A)) eqn:ES; [| | |contradiction].
    - destruct HA as (HM & HS & HF).
      destruct (lu_factorization_ok F parts recompress svd_factors HRec HSvd piv HPiv fuel M A HM HS HF Hf) as (A' & FL & FU & E1 & (E2 & E2s & E2u) & E3 & E4 & E5).
      unfold block_of in E2. injection E2 as Z1 Z2. rewrite E1. exists A'. split; [reflexivity|]. split; [exact Z1|]. split; [congruence|]. split; [congruence|]. split; [exact E2u|].
      intros mu Hmu P HP. unfold h_internal. rewrite E2s, ES. pose proof (internal_lu_solve_ok F parts fuel TrN M FL FU A' mu P) as R. cbn zeta in R. rewrite Z1 in R. apply R; try assumption. lia.
    - destruct HA as (Hu & HM & HW & HH & HP). destruct (N _ eq_refl Hu HM HW HH HP) as (A' & E1 & Z1 & Z2 & Z3 & Z4 & R). exists A'. split; [exact E1|]. repeat split; try assumption.
      intros mu Hmu. unfold h_internal. rewrite Z3, Z4. apply R, Hmu.
    - destruct HA as (Hu & HM & HW & HH & HP). destruct (N _ eq_refl Hu HM HW HH HP) as (A' & E1 & Z1 & Z2 & Z3 & Z4 & R). exists A'. split; [exact E1|]. repeat split; try assumption.
      intros mu Hmu. unfold h_internal. rewrite Z3, Z4. apply R, Hmu.
  Qed.

  (** ** The solve of LocalHMatrixSolver *)
  Lemma h_solve_into_ok : forall (permuted : bool) N perm (A : hmat) c M Au mu b x0, let n := c_size c in
    h_t (hv A) = c -> h_s (hv A) = c -> (1 <= mu)%nat -> solver F n mu (at_block F c c M) (internal A) ->
    (permuted = true -> Permutation perm (seq 0 N) /\ (c_off c + n <= N)%nat /\ Permutation (slice (c_off c) n perm) (seq (c_off c) n) /\
       forall a b, (a < n)%nat -> (b < n)%nat -> M (c_off c + a)%nat (c_off c + b)%nat = Au (nth (c_off c + a) perm O) (nth (c_off c + b) perm O)) ->
    (n * mu <= length b)%nat -> (n * mu <= length x0)%nat ->
    exists x, h_solve_into F parts star fuel perm permuted A b x0 mu = Some x /\
      solved n mu (fun i j => (if permuted then Au else M) (c_off c + i)%nat (c_off c + j)%nat) b x0 x.
  Proof.
    intros permuted N perm A c M Au mu b x0 n Ht Hs Hmu HS HP Lb Lx. unfold h_solve_into, h_cols. rewrite Hs. fold n. destruct permuted.
    - destruct (HP eq_refl) as (P1 & P2 & P3 & P4). unfold h_solve_permuted, h_cols. rewrite Hs, Ht. exact (permuted_ok F N perm c P1 P2 P3 (internal A) M Au mu b x0 HS P4 Lb Lx).
    - apply (into_view_ok F (internal A) n mu (at_block F c c M)); try assumption. lia.
  Qed.
  Lemma h_solve_ok : forall (permuted : bool) N perm (A : hmat) c M Au mu b, let n := c_size c in
    h_t (hv A) = c -> h_s (hv A) = c -> (1 <= mu)%nat -> solver F n mu (at_block F c c M) (internal A) ->
    (permuted = true -> Permutation perm (seq 0 N) /\ (c_off c + n <= N)%nat /\ Permutation (slice (c_off c) n perm) (seq (c_off c) n) /\
       forall a b, (a < n)%nat -> (b < n)%nat -> M (c_off c + a)%nat (c_off c + b)%nat = Au (nth (c_off c + a) perm O) (nth (c_off c + b) perm O)) ->
    (n * mu <= length b)%nat ->
    exists x, h_solve F parts star fuel perm permuted A b mu = Some x /\
      solved n mu (fun i j => (if permuted then Au else M) (c_off c + i)%nat (c_off c + j)%nat) b b x.
  Proof.
    intros permuted N perm A c M Au mu b n Ht Hs Hmu HS HP Lb. unfold h_solve, h_cols. rewrite Hs. fold n. destruct permuted.
    - destruct (HP eq_refl) as (P1 & P2 & P3 & P4). unfold h_solve_permuted, h_cols. rewrite Hs, Ht. exact (permuted_ok F N perm c P1 P2 P3 (internal A) M Au mu b b HS P4 Lb Lb).
    - apply (through_view_ok F (internal A) n mu (at_block F c c M)); assumption.
  Qed.

  (** ** LocalHMatrixPlusOverlapSolver when no block is given *)
  Lemma no_overlap_ok : forall M (A : hmat) (B Cm D : mat), factors M A -> (3 * cheight (h_t (hv A)) <= fuel)%nat -> mc B = O -> mr Cm = O -> mr D = O ->
    exists o, o_numfact F recompress svd_factors parts piv ppos psqrt star fuel (mkOverlap A B Cm D) = Some (o, true) /\ h_t (hv (o_A o)) = h_t (hv A) /\ mr (o_D o) = O /\
      forall (b1 b2 : mat) mu, (1 <= mu)%nat -> wf_mat b1 (c_size (h_t (hv A))) mu -> wf_mat b2 0 mu ->
      exists x1 x2, o_blocks_solve F parts star fuel o b1 b2 = Some (x1, x2) /\ wf_mat x1 (c_size (h_t (hv A))) mu /\ wf_mat x2 0 mu /\
        is_solution (F := F) SdL TrN (at_block F (h_t (hv A)) (h_t (hv A)) M) 1 (c_size (h_t (hv A))) mu (me b1) (me x1).
  Proof.
    intros M A B Cm D HA Hf HB HC HD. destruct (h_numfact_ok M A HA Hf) as (A' & E1 & Z1 & Z2 & Z3 & Z4 & R).
    exists (mkOverlap A' B Cm D). unfold can_be_factored in HA; cbn zeta in HA. unfold h_numfact in E1. split; [|split; [exact Z1|split; [exact HD|]]].
    - unfold o_numfact. cbn [o_A o_B o_C o_D]. destruct (h_sym (hv A)); [| | |contradiction].
      + destruct (lu _ _ _ _ _ _ _) as [A0|]; [|discriminate]. injection E1 as ->. rewrite HC. reflexivity.
      + destruct (cholesky _ _ _ _ _ _ _ _ _) as [[A0 ok]|]; [|discriminate]. injection E1 as -> ->. destruct (h_uplo (hv A)); [destruct HA as [Q _]; congruence|rewrite HC; reflexivity|rewrite HB; reflexivity].
      + destruct (cholesky _ _ _ _ _ _ _ _ _) as [[A0 ok]|]; [|discriminate]. injection E1 as -> ->. destruct (h_uplo (hv A)); [destruct HA as [Q _]; congruence|rewrite HC; reflexivity|rewrite HB; reflexivity].
    - intros b1 b2 mu Hmu W1 W2. destruct (R mu Hmu b1 W1) as (X & EX & WX & SX). exists X, b2. split; [|split; [exact WX|split; [exact W2|exact SX]]].
      unfold o_blocks_solve. cbn [o_A o_B o_C o_D]. unfold h_internal in EX. rewrite Z3 in *. destruct (h_sym (hv A)); [| | |contradiction].
      + unfold internal_lu_solve in EX. cbn [is_N] in EX. rewrite HC. cbn [Nat.ltb Nat.leb]. destruct (matrix_solve _ _ _ _ _ _ _ _ _ b1); [|discriminate]. cbn [fst snd]. rewrite EX. reflexivity.
      + rewrite Z4 in *. unfold internal_cholesky_solve in EX. destruct (h_uplo (hv A)); [destruct HA as [Q _]; congruence| |]; cbn [is_L] in EX; rewrite ?HC, ?HB; cbn [Nat.ltb Nat.leb];
          (destruct (matrix_solve _ _ _ _ _ _ _ _ _ b1); [|discriminate]); cbn [fst snd]; rewrite EX; reflexivity.
      + rewrite Z4 in *. unfold internal_cholesky_solve in EX. destruct (h_uplo (hv A)); [destruct HA as [Q _]; congruence| |]; cbn [is_L] in EX; rewrite ?HC, ?HB; cbn [Nat.ltb Nat.leb];
          (destruct (matrix_solve _ _ _ _ _ _ _ _ _ b1); [|discriminate]); cbn [fst snd]; rewrite EX; reflexivity.
  Qed.
End Solvers.
