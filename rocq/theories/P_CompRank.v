(** * The rank found by adaptive cross approximation (C60), and the constructor of LowRankMatrix with a requested rank (C33). *)

From Coq Require Import List Arith ZArith Bool Lia Ring Reals Lra.
From Coq Require Qcanon.
From Verif Require Import ClusterModel IOModel BlockModel Algebra BlasModel BlasProofs HMatModel HMatSpec HMatBuild Field RealNum
  CompModel CompSpec CompProofs CompPartial CompSVD CompReal CompRank P_Comp.
Import ListNotations.

(** ** C60 *)
Section C60.
  Variable X : Num.
  Notation K := (fk (nfd X)).
  Notation C := (car K).

  (** Full pivoting on a block of rank at most k: the rank returned is at most k; the factors are exact on as many rows and columns as
      the rank returned; each cross removes one from the rank of the error; and if rank k pays off and the tolerance accepts a zero
      residual, the block is not given up. *)
  Theorem C60_full_aca_rank : forall over tol (A : nat -> nat -> C) M N req k, 0 < M + N -> nltb X (nabs X (c0 K)) tol = true -> rank_at_most k M N A ->
    exists r L, full_aca X over tol M N A req = Some (r, L) /\
      (r <= Z.of_nat k)%Z /\
      ((0 < r)%Z -> factors L M N (Z.to_nat r) /\ rank_at_most (k - Z.to_nat r) M N (error_of L A) /\
         exists rows cols, NoDup rows /\ NoDup cols /\ length rows = Z.to_nat r /\ length cols = Z.to_nat r /\ exact_on L A M N rows cols) /\
      (r = Z.of_nat k -> (0 < r)%Z -> forall i j, i < M -> j < N -> lr_entry L i j = A i j) /\
      ((req < 0)%Z -> 1 <= k -> k * (M + N) <= M * N ->
        (forall m, wf_mat m M N -> (forall i j, i < M -> j < N -> me m i j = c0 K) -> over (norm_frob2 X m) (norm_frob2 X (of_fun K M N A)) = false) -> (0 <= r)%Z).
  Proof.
    intros over tol A M N req k HP Ht HR. destruct (full_aca_rank X over tol Ht A M N req k HP HR) as (r & L & E & H1 & H2 & H3). exists r, L.
    split; [exact E|]. split; [exact H1|]. split; [exact H2|]. split; [|exact H3]. intros Er Hp i j Hi Hj. destruct (H2 Hp) as (_ & HR' & _).
    rewrite Er, Nat2Z.id, Nat.sub_diag in HR'. pose proof (rank_zero (nfd X) M N _ HR' i j Hi Hj) as Q. unfold error_of in Q.
    pose proof (c_ring K) as RT. pose proof (Ropp_def RT (A i j)). 
    assert (G : A i j = cadd K (csub K (A i j) (lr_entry L i j)) (lr_entry L i j)).
    { rewrite (Rsub_def RT), <- (Radd_assoc RT), (Radd_comm RT (copp K _)), (Ropp_def RT), (Radd_comm RT), (Radd_0_l RT). reflexivity. }
    rewrite G, Q, (Radd_0_l RT). reflexivity.
  Qed.

  Variables (over : C -> C -> bool) (tol : C).
  Hypothesis Htol : nltb X tol (nabs X (c0 K)) = false.
  (** Partial pivoting, and the symmetric variant by rows or by columns. *)
  Theorem C60_partial_aca_rank : forall (A : nat -> nat -> C) M N req k, 0 < M + N -> rank_at_most k M N A ->
    exists r L, partial_aca X over tol M N A req = Some (r, L) /\ rank_outcome tol M N k A r L true.
  Proof.
    intros A M N req k HP HR. unfold partial_aca. destruct (part_start_ok X over tol false M N A Htol req HP) as (a & Ea & _). rewrite Ea.
    eexists _, _. split; [reflexivity|]. apply (partial_outcome_rank X over tol Htol false M N A req k a HP HR Ea).
  Qed.
  Theorem C60_sym_partial_aca_rank : forall below (A : nat -> nat -> C) M N req k, 0 < M + N -> rank_at_most k M N A ->
    exists r L, sym_partial_aca X over tol below M N A req = Some (r, L) /\ rank_outcome tol M N k A r L below.
  Proof.
    intros below A M N req k HP HR. unfold sym_partial_aca. destruct below.
    - destruct (part_start_ok X over tol true M N A Htol req HP) as (a & Ea & _). rewrite Ea. eexists _, _. split; [reflexivity|].
      apply (partial_outcome_rank X over tol Htol true M N A req k a HP HR Ea).
    - destruct (part_start_ok X over tol true N M (fun i j => A j i) Htol req ltac:(lia)) as (a & Ea & _). rewrite Ea. eexists _, _. split; [reflexivity|].
      apply (partial_outcome_rank_swapped X over tol Htol true M N A req k a HP HR Ea).
  Qed.
End C60.

Section C60R.
  Local Open Scope R_scope.
  Lemma overR_zero : forall eps n0, 0 <= eps -> overR eps 0 n0 = false.
  Proof.
    intros eps n0 He. unfold overR. destruct (Req_EM_T n0 0); [reflexivity|]. rewrite sqrt_0. unfold Rdiv. rewrite Rmult_0_l.
    destruct (Rltb_spec eps 0); [lra|reflexivity].
  Qed.
  (** Real and complex numbers, automatic rank, a non-negative epsilon: a block of rank at most k for which rank k pays off is
      approximated (never given up) by factors of at most k columns, whose error has the missing rank; the error bound is C31. *)
  Theorem C60_full_aca_real : forall eps tol (A : nat -> nat -> R) M N k, 0 <= eps -> 0 < tol -> (1 <= k)%nat -> (k * (M + N) <= M * N)%nat -> (0 < M + N)%nat ->
    rank_at_most (K := Rc) k M N A ->
    exists r L, full_aca Rn (overR eps) tol M N A (-1) = Some (r, L) /\ (0 <= r <= Z.of_nat k)%Z /\
      ((0 < r)%Z -> factors L M N (Z.to_nat r) /\ rank_at_most (K := Rc) (k - Z.to_nat r) M N (error_of (K := Rc) L A)).
  Proof.
    intros eps tol A M N k He Ht Hk Hadv HP HR.
    destruct (C60_full_aca_rank Rn (overR eps) tol A M N (-1) k HP) as (r & L & E & H1 & H2 & _ & H3).
    { cbn. rewrite Rabs_R0. destruct (Rltb_spec 0 tol); [reflexivity|lra]. } { exact HR. }
    exists r, L. split; [exact E|]. split; [split; [|exact H1]|].
    - apply H3; [lia|exact Hk|exact Hadv|]. intros m W Z.
      rewrite (norm_frob2_R m M N W). unfold frob2.
      match goal with |- overR eps ?x ?y = false => assert (Q : x = 0) end.
      { apply (@sum_0 Rc). intros i Hi. apply (@sum_0 Rc). intros j Hj. pose proof (Z i j Hi Hj) as Q. cbn in Q. cbn. rewrite Q. apply Rmult_0_l. }
      rewrite Q. apply overR_zero, He.
    - intros Hp. destruct (H2 Hp) as (G1 & G2 & _). split; [exact G1|exact G2].
  Qed.
  Theorem C60_full_aca_complex : forall eps (tol : R) (A : nat -> nat -> R * R) M N k, 0 <= eps -> 0 < tol -> (1 <= k)%nat -> (k * (M + N) <= M * N)%nat -> (0 < M + N)%nat ->
    rank_at_most (K := Cc) k M N A ->
    exists r L, full_aca Cn (overC eps) (tol, 0) M N A (-1) = Some (r, L) /\ (0 <= r <= Z.of_nat k)%Z /\
      ((0 < r)%Z -> factors L M N (Z.to_nat r) /\ rank_at_most (K := Cc) (k - Z.to_nat r) M N (error_of (K := Cc) L A)).
  Proof.
    intros eps tol A M N k He Ht Hk Hadv HP HR.
    destruct (C60_full_aca_rank Cn (overC eps) (tol, 0) A M N (-1) k HP) as (r & L & E & H1 & H2 & _ & H3).
    { change (Rltb (sqrt (0 * 0 + 0 * 0)) tol = true). rewrite Rmult_0_l, Rplus_0_l, sqrt_0. destruct (Rltb_spec 0 tol); [reflexivity|lra]. } { exact HR. }
    exists r, L. split; [exact E|]. split; [split; [|exact H1]|].
    - apply H3; [lia|exact Hk|exact Hadv|]. intros m W Z.
      rewrite (norm_frob2_C m M N W). unfold overC. unfold frob2.
      match goal with |- overR eps (fst ?x) ?y = false => assert (Q : x = (0, 0)) end.
      { apply (@sum_0 Cc). intros i Hi. apply (@sum_0 Cc). intros j Hj. pose proof (Z i j Hi Hj) as Q. cbn in Q. cbn. rewrite Q. unfold Cmul. cbn. f_equal; ring. }
      rewrite Q. apply overR_zero, He.
    - intros Hp. destruct (H2 Hp) as (G1 & G2 & _). split; [exact G1|exact G2].
  Qed.
End C60R.

(** ** C33: the constructor of LowRankMatrix *)
Section C33Z.
  Variable X : Num.
  Notation K := (fk (nfd X)).
  (** Requested rank 0: whatever the generator would do, factors with no column and no row, so that the block is kept as a low-rank
      block and represents zero; any other requested rank: exactly what the generator returns. *)
  Theorem C33_requested_rank_zero : forall sy B (gen : nat -> nat -> car K) compress (generator : Z -> option (lrm K)) t s rank,
    (low_rank_ctor X (c_size t) (c_size s) rank generator = Some (compress t s)) ->
    (rank = 0%Z -> factors (compress t s) (c_size t) (c_size s) 0 /\ (forall i j, lr_entry (compress t s) i j = c0 K) /\
       forall b, b_t b = t -> b_s b = s -> b_task b = Some TLowRank -> h_data (rt_val (hfill K sy B gen compress (RNode b []))) = DLow (compress t s)) /\
    (rank <> 0%Z -> generator rank = Some (compress t s)).
  Proof.
    intros sy B gen compress generator t s rank H. unfold low_rank_ctor in H. split.
    - intros ->. cbn in H. injection H as H. rewrite <- H. split; [split; (split; [reflexivity|]); (split; [reflexivity|]); cbn; lia|]. split; [intros i j; reflexivity|].
      intros b E1 E2 E3. cbn. unfold block_data. rewrite E3, E1, E2, <- H. cbn. rewrite !Nat.eqb_refl. reflexivity.
    - intros N. destruct (Z.eqb_spec rank 0); [contradiction|exact H].
  Qed.
  Theorem C33_rank_zero_always : forall M N (generator : Z -> option (lrm K)), exists L, low_rank_ctor X M N 0 generator = Some L.
  Proof. intros. eexists. reflexivity. Qed.
End C33Z.

(** ** Examples *)
Section Ex.
  Import Qcanon.
  (** 1 + i j is a sum of two outer products, and the theorem applies to the run of P_Comp.ex_full (rank 2). *)
  Example ex_rank : rank_at_most (K := Qcc) 2 4 4 exA.
  Proof.
    exists (fun l i => match l with O => qn 1 | _ => qn (Z.of_nat i) end), (fun l j => match l with O => qn 1 | _ => qn (Z.of_nat j) end).
    intros i j Hi Hj. do 4 (destruct i as [|i]; [do 4 (destruct j as [|j]; [vm_compute; apply Qc_is_canon; reflexivity|]); lia|]). lia.
  Qed.
  Example ex_rank_full : exists L, full_aca Qn overQ tolQ 4 4 exA (-1) = Some (2%Z, L) /\ forall i j, (i < 4)%nat -> (j < 4)%nat -> lr_entry L i j = exA i j.
  Proof.
    destruct ex_full as (L & E & _). exists L. split; [exact E|].
    destruct (C60_full_aca_rank Qn overQ tolQ exA 4 4 (-1) 2 ltac:(lia)) as (r & L' & E' & _ & _ & H & _); [vm_compute; reflexivity|exact ex_rank|].
    rewrite E in E'. injection E' as <- <-. apply H; reflexivity.
  Qed.
  (** The error of exB after one cross has rank one: the block has rank two. *)
  Example ex_rank_partial : exists r L, partial_aca Qn overQ tolQ 4 4 exB (-1) = Some (r, L) /\ rank_outcome (X := Qn) tolQ 4 4 2 exB r L true.
  Proof.
    apply C60_partial_aca_rank; [exact ex_tol|lia|].
    exists (fun l i => match l with O => qn 1 | _ => if i <? 2 then 0%Qc else qn 1 end), (fun l j => match l with O => qn 1 | _ => if j <? 3 then 0%Qc else qn (-1) end).
    intros i j Hi Hj. do 4 (destruct i as [|i]; [do 4 (destruct j as [|j]; [vm_compute; apply Qc_is_canon; reflexivity|]); lia|]). lia.
  Qed.
End Ex.

Print Assumptions C60_full_aca_rank.
Print Assumptions C60_partial_aca_rank.
Print Assumptions C60_sym_partial_aca_rank.
Print Assumptions C60_full_aca_real.
Print Assumptions C60_full_aca_complex.
Print Assumptions C33_requested_rank_zero.
Print Assumptions C33_rank_zero_always.
