(** * Property C78: the truncation errors accumulated by a product of hierarchical matrices.

    Vocabulary: AccumSpec.v ([truncations leaves fuel ta tb A B]: the number of truncations, computed from the shapes of A and B alone;
    [event], [errors], [good], [chronicle]: the truncations made, the errors they make, what is truncated), TruncSpec.v ([truncates], [svd_truncates]:
    the contracts of the recompression and of the truncated SVD with tolerance eps), AccSpec.v ([fnorm], [modulus], [block_at]), ArithSpec.v
    ([hrep parts M A]: the hierarchical matrix A represents M).  Exact arithmetic except for the truncations. *)

From Coq Require Import List Arith ZArith Bool Lia Ring Reals Lra.
From Verif Require Import ClusterModel ClusterSpec IOModel IOSpec BlockModel BlockSpec BlockSym Algebra BlasModel HMatModel HMatSpec HMatBuild
  ArithModel ArithSpec ArithTree ArithHier ArithProd ArithDest P_Arith RealNum CompModel CompReal CompSpec RecompModel RecompSpec P_Recomp AccSpec AccProofs P_Acc TruncSpec TruncProofs P_Trunc AccumSpec AccumProofs AccumReal.
Import ListNotations.
Local Open Scope R_scope.

Section Main.
  Variable K : Coef.
  Variable md : car K -> R.
  Hypothesis MD : modulus K md.
  Notation C := (car K).
  Notation hmat := (rtree (hinfo K)).
  Add Ring KrAcP : (c_ring K).
  Variables (rc : lrm K -> lrm K) (sv : mat K -> lrm K).
  Variable parts : ctree -> list ctree.

  (** op(A) op(B), entry (i,j) in global numbering *)
  Definition exact_product (ta tb : trans) (alpha : C) (MA MB : nat -> nat -> C) (m : ctree) (i j : nat) : C :=
    cmul K alpha (csum m (fun x => cmul K (op_fun ta MA i x) (op_fun tb MB x j))).

  Section Product.
    Variables (fuel : nat) (ta tb : trans) (alpha : C) (MA MB : nat -> nat -> C) (A B : hmat).
    Notation o := (out_of K ta A).
    Notation m := (mid_of K ta A).
    Notation i := (mid_of K tb B).
    Hypothesis Hf : (height K A < fuel)%nat.
    Hypothesis HA : hrep parts MA A.
    Hypothesis HB : hrep parts MB B.
    Hypothesis HM : m = out_of K tb B.
    Hypothesis Ao : above o = above m.
    Hypothesis Ai : above i = above m.
    Notation AB := (exact_product ta tb alpha MA MB m).

    (** ** The errors add up: truncations that lose anything *)
    Section Any.
      Hypothesis HR : keeps_size rc.
      Hypothesis HS : svd_keeps_size sv.

      Theorem C78_low_rank_errors : forall L, wf_lrm L (c_size o) (c_size i) ->
        exists L' es, hh_lr K rc sv parts fuel ta tb alpha A B (c1 K) L = Some L' /\ wf_lrm L' (c_size o) (c_size i) /\ (1 <= lrank L')%nat /\
          good o i es /\ (length es <= truncations 0 fuel ta tb A B)%nat /\
          forall a b, (a < c_size o)%nat -> (b < c_size i)%nat ->
            lr_entry L' a b = cadd K (cadd K (lr_entry L a b) (AB (c_off o + a)%nat (c_off i + b)%nat)) (errors rc sv es (c_off o + a) (c_off i + b)).
      Proof.
        intros L HL. pose (N := fun x y => md (lr_entry L (x - c_off o) (y - c_off i))).
        destruct (hh_lr_ev K md MD rc sv HR HS parts 0 fuel ta tb alpha MA MB A B L N Hf HA HB HM Ao Ai HL) as (L' & es & E & W & RK & G & Le & _ & V).
        { intros a b _ _. unfold N. replace (c_off o + a - c_off o)%nat with a by lia. replace (c_off i + b - c_off i)%nat with b by lia. apply Rle_refl. }
        exists L', es. split; [exact E|]. split; [exact W|]. split; [exact RK|]. split; [exact G|]. split; [exact Le|]. exact V.
      Qed.

      Theorem C78_hierarchical_errors : forall MC Cm, hrep parts MC Cm -> block_of Cm = (o, i) ->
        exists C' es, hh_h K rc sv parts fuel ta tb alpha A B (c1 K) Cm = Some C' /\
          good o i es /\ (length es <= truncations (low_leaves Cm) fuel ta tb A B)%nat /\
          hrep parts (fun x y => cadd K (MC x y) (cadd K (AB x y) (errors rc sv es x y))) C'.
      Proof.
        intros MC Cm HC HBl.
        assert (HN : bounded md (fun x y => md (MC x y)) Cm).
        { clear HBl. induction HC as [h H1 H2 H3 H4 H5 H6|h cs H1 H2 H3 H4 H5 H6 H7 H8 IH].
          - apply bounded_leaf. intros a b Ha Hb. rewrite H6 by assumption. apply Rle_refl.
          - apply bounded_node; assumption. }
        destruct (hh_h_ev K md MD rc sv HR HS parts (low_leaves Cm) fuel ta tb alpha MA MB A B Cm (fun x y => md (MC x y)) Hf HA HB HM Ao Ai
          (hrep_hdest K parts MC Cm HC) HBl (Nat.le_refl _) (fun x y => md_pos _ _ MD _) HN) as (C' & es & E & G & Le & _ & U).
        exists C', es. split; [exact E|]. split; [exact G|]. split; [exact Le|]. exact (hrep_upd K parts MC Cm HC _ C' U).
      Qed.
    End Any.

    (** ** Their size: truncations with tolerance eps *)
    Section Bound.
      Variable eps : R.
      Hypothesis He : 0 <= eps.
      Hypothesis HT : truncates md eps rc.
      Hypothesis HSV : svd_truncates md eps sv.
      Notation norm := (fun T S (M : nat -> nat -> C) => fnorm md (c_size T) (c_size S) (block_at M T S)).

      Lemma pow_more : forall p q, (p <= q)%nat -> (1 + eps) ^ p <= (1 + eps) ^ q.
      Proof. intros p q H. apply Rle_pow; [lra|exact H]. Qed.

      Lemma size_of_errors : forall es n (MC : nat -> nat -> C) (N : nat -> nat -> R), good o i es -> (length es <= n)%nat ->
        (forall x y, N x y = md (MC x y)) ->
        chronicle rc sv md (fun x y => N x y + abs_product md ta tb alpha MA MB m x y) es ->
        norm o i (errors rc sv es) <= ((1 + eps) ^ n - 1) * (norm o i MC + md alpha * (norm o m (op_fun ta MA) * norm m i (op_fun tb MB))).
      Proof.
        intros es n MC N G Le EN Ch.
        assert (P0 : forall x y, 0 <= abs_product md ta tb alpha MA MB m x y) by (intros; apply (pabs_pos K md MD)).
        pose proof (errors_norm K md MD eps He rc sv HT HSV es o i _ G Ch) as B1. cbn beta in B1.
        assert (B0 : norm o i (errors rc sv es) <= rnorm o i (abs_errors rc sv md es)).
        { apply (rnorm_le o i (fun x y => md (errors rc sv es x y))). intros x y _ _. split; [apply (md_pos _ _ MD)|apply (md_errs K md MD)]. }
        assert (B2 : rnorm o i (fun x y => N x y + abs_product md ta tb alpha MA MB m x y) <= norm o i MC + md alpha * (norm o m (op_fun ta MA) * norm m i (op_fun tb MB))).
        { eapply Rle_trans; [apply (rnorm_add o i N (abs_product md ta tb alpha MA MB m)); intros; reflexivity|]. apply Rplus_le_compat.
          - right. unfold rnorm, fnorm, block_at. f_equal. apply (sum_ext Rc). intros a _. apply (sum_ext Rc). intros b _. rewrite EN. reflexivity.
          - exact (abs_product_norm K md MD ta tb alpha MA MB o m i). }
        assert (PP : 1 <= (1 + eps) ^ length es) by (apply pow_R1_Rle; lra).
        pose proof (pow_more _ _ Le) as PM. eapply Rle_trans; [exact B0|]. eapply Rle_trans; [apply B1|].
        - intros x y _ _. rewrite EN. pose proof (md_pos _ _ MD (MC x y)). specialize (P0 x y). lra.
        - apply Rmult_le_compat; [lra|apply rnorm_pos|lra|exact B2].
      Qed.

      Theorem C78_low_rank_bound : forall L, wf_lrm L (c_size o) (c_size i) ->
        exists L', hh_lr K rc sv parts fuel ta tb alpha A B (c1 K) L = Some L' /\ wf_lrm L' (c_size o) (c_size i) /\ (1 <= lrank L')%nat /\
          fnorm md (c_size o) (c_size i) (fun a b => csub K (lr_entry L' a b) (cadd K (lr_entry L a b) (block_at AB o i a b))) <=
          ((1 + eps) ^ truncations 0 fuel ta tb A B - 1) *
          (fnorm md (c_size o) (c_size i) (lr_entry L) + md alpha * (norm o m (op_fun ta MA) * norm m i (op_fun tb MB))).
      Proof.
        intros L HL. pose (MC := fun x y => lr_entry L (x - c_off o) (y - c_off i)).
        destruct (hh_lr_ev K md MD rc sv (keeps_rc K md eps rc HT) (keeps_sv K md eps sv HSV) parts 0 fuel ta tb alpha MA MB A B L (fun x y => md (MC x y)) Hf HA HB HM Ao Ai HL) as (L' & es & E & W & RK & G & Le & Ch & V).
        { intros a b _ _. unfold MC. replace (c_off o + a - c_off o)%nat with a by lia. replace (c_off i + b - c_off i)%nat with b by lia. apply Rle_refl. }
        exists L'. split; [exact E|]. split; [exact W|]. split; [exact RK|].
        pose proof (size_of_errors es _ MC _ G Le (fun x y => eq_refl) Ch) as Q.
        assert (Q1 : norm o i MC = fnorm md (c_size o) (c_size i) (lr_entry L)).
        { apply (fnorm_ext K md). intros a b _ _. unfold block_at, MC. replace (c_off o + a - c_off o)%nat with a by lia. replace (c_off i + b - c_off i)%nat with b by lia. reflexivity. }
        cbn beta in Q, Q1. rewrite Q1 in Q. eapply Rle_trans; [|exact Q]. right. apply (fnorm_eq K md). intros a b Ha Hb. rewrite V by assumption. unfold block_at, product_at, exact_product. ring.
      Qed.

      Theorem C78_hierarchical_bound : forall MC Cm, hrep parts MC Cm -> block_of Cm = (o, i) ->
        exists C' M', hh_h K rc sv parts fuel ta tb alpha A B (c1 K) Cm = Some C' /\ hrep parts M' C' /\
          norm o i (fun x y => csub K (M' x y) (cadd K (MC x y) (AB x y))) <=
          ((1 + eps) ^ truncations (low_leaves Cm) fuel ta tb A B - 1) *
          (norm o i MC + md alpha * (norm o m (op_fun ta MA) * norm m i (op_fun tb MB))).
      Proof.
        intros MC Cm HC HBl.
        assert (HN : bounded md (fun x y => md (MC x y)) Cm).
        { clear HBl. induction HC as [h H1 H2 H3 H4 H5 H6|h cs H1 H2 H3 H4 H5 H6 H7 H8 IH].
          - apply bounded_leaf. intros a b Ha Hb. rewrite H6 by assumption. apply Rle_refl.
          - apply bounded_node; assumption. }
        destruct (hh_h_ev K md MD rc sv (keeps_rc K md eps rc HT) (keeps_sv K md eps sv HSV) parts (low_leaves Cm) fuel ta tb alpha MA MB A B Cm (fun x y => md (MC x y)) Hf HA HB HM Ao Ai
          (hrep_hdest K parts MC Cm HC) HBl (Nat.le_refl _) (fun x y => md_pos _ _ MD _) HN) as (C' & es & E & G & Le & Ch & U).
        exists C'. eexists. split; [exact E|]. split; [exact (hrep_upd K parts MC Cm HC _ C' U)|].
        eapply Rle_trans; [|exact (size_of_errors es _ MC _ G Le (fun x y => eq_refl) Ch)]. right. apply (fnorm_eq K md).
        intros a b _ _. unfold block_at, product_at, exact_product. ring.
      Qed.

      Lemma pow_linear : forall n, 2 * INR n * eps <= 1 -> (1 + eps) ^ n - 1 <= 2 * INR n * eps.
      Proof.
        induction n as [|n IH]; intros H; [cbn; lra|]. rewrite S_INR in *. cbn [pow]. pose proof (pos_INR n) as P.
        assert (Q : 2 * INR n * eps <= 1) by nra. specialize (IH Q). nra.
      Qed.
      (** For small tolerances the error is at most twice the number of truncations times eps. *)
      Theorem C78_small_tolerance : forall MC Cm, hrep parts MC Cm -> block_of Cm = (o, i) ->
        2 * INR (truncations (low_leaves Cm) fuel ta tb A B) * eps <= 1 ->
        exists C' M', hh_h K rc sv parts fuel ta tb alpha A B (c1 K) Cm = Some C' /\ hrep parts M' C' /\
          norm o i (fun x y => csub K (M' x y) (cadd K (MC x y) (AB x y))) <=
          2 * INR (truncations (low_leaves Cm) fuel ta tb A B) * eps *
          (norm o i MC + md alpha * (norm o m (op_fun ta MA) * norm m i (op_fun tb MB))).
      Proof.
        intros MC Cm HC HBl Hs. destruct (C78_hierarchical_bound MC Cm HC HBl) as (C' & M' & E & H & Q). exists C', M'. split; [exact E|]. split; [exact H|].
        eapply Rle_trans; [exact Q|]. apply Rmult_le_compat_r; [|exact (pow_linear _ Hs)].
        apply Rplus_le_le_0_compat; [apply (fnorm_pos K md)|]. apply Rmult_le_pos; [apply (md_pos _ _ MD)|]. apply Rmult_le_pos; apply (fnorm_pos K md).
      Qed.
    End Bound.

    (** ** The number of truncations *)
    Theorem C78_number_of_truncations : forall leaves, (truncations leaves fuel ta tb A B < (3 + leaves) * (nodes A * nodes B))%nat.
    Proof. intros leaves. exact (truncations_bound K parts leaves fuel ta tb MA MB A B HA HB HM Hf). Qed.
  End Product.
End Main.
Print Assumptions C78_low_rank_errors.
Print Assumptions C78_hierarchical_errors.
Print Assumptions C78_low_rank_bound.
Print Assumptions C78_hierarchical_bound.
Print Assumptions C78_small_tolerance.
Print Assumptions C78_number_of_truncations.

(** ** With the recompression and the truncated SVD of the library, over the reals and the complex numbers *)
Theorem C78_real : forall geqrf gelqf gesvd eps parts fuel ta tb alpha MA MB MC (A B Cm : rtree (hinfo Rc)), 0 <= eps ->
  (forall L M N, (1 <= M)%nat -> (1 <= N)%nat -> wf_lrm L M N -> (1 <= lrank L)%nat -> lapack_documented (X := Rn) geqrf gelqf gesvd sqrt L M N) ->
  (forall X M N, (1 <= M)%nat -> (1 <= N)%nat -> wf_mat X M N -> svd_documented (X := Rn) gesvd sqrt M N (me X)) ->
  (height Rc A < fuel)%nat -> hrep parts MA A -> hrep parts MB B -> mid_of Rc ta A = out_of Rc tb B ->
  above (out_of Rc ta A) = above (mid_of Rc ta A) -> above (mid_of Rc tb B) = above (mid_of Rc ta A) ->
  hrep parts MC Cm -> block_of Cm = (out_of Rc ta A, mid_of Rc tb B) ->
  exists C' M', hh_h Rc (recompressed Rn geqrf gelqf gesvd sqrt (smallR eps)) (svd_truncated Rn gesvd sqrt (smallR eps)) parts fuel ta tb alpha A B 1 Cm = Some C' /\ hrep parts M' C' /\
    fnorm (K := Rc) Rabs (c_size (out_of Rc ta A)) (c_size (mid_of Rc tb B)) (block_at (K := Rc) (fun x y => M' x y - (MC x y + exact_product Rc ta tb alpha MA MB (mid_of Rc ta A) x y)) (out_of Rc ta A) (mid_of Rc tb B)) <=
    ((1 + eps) ^ truncations (low_leaves Cm) fuel ta tb A B - 1) *
    (fnorm (K := Rc) Rabs (c_size (out_of Rc ta A)) (c_size (mid_of Rc tb B)) (block_at (K := Rc) MC (out_of Rc ta A) (mid_of Rc tb B)) +
     Rabs alpha * (fnorm (K := Rc) Rabs (c_size (out_of Rc ta A)) (c_size (mid_of Rc ta A)) (block_at (K := Rc) (op_fun (K := Rc) ta MA) (out_of Rc ta A) (mid_of Rc ta A)) *
                   fnorm (K := Rc) Rabs (c_size (mid_of Rc ta A)) (c_size (mid_of Rc tb B)) (block_at (K := Rc) (op_fun (K := Rc) tb MB) (mid_of Rc ta A) (mid_of Rc tb B)))).
Proof.
  intros geqrf gelqf gesvd eps parts fuel ta tb alpha MA MB MC A B Cm He D1 D2 Hf HA HB HM Ao Ai HC HBl.
  exact (C78_hierarchical_bound Rc Rabs absR_modulus _ _ parts fuel ta tb alpha MA MB A B Hf HA HB HM Ao Ai eps He
    (C70_recompression_real geqrf gelqf gesvd eps He D1) (C70_svd_real gesvd eps He D2) MC Cm HC HBl).
Qed.
Theorem C78_complex : forall geqrf gelqf gesvd eps parts fuel ta tb alpha MA MB MC (A B Cm : rtree (hinfo Cc)), 0 <= eps ->
  (forall L M N, (1 <= M)%nat -> (1 <= N)%nat -> wf_lrm L M N -> (1 <= lrank L)%nat -> lapack_documented (X := Cn) geqrf gelqf gesvd sqrtC L M N) ->
  (forall X M N, (1 <= M)%nat -> (1 <= N)%nat -> wf_mat X M N -> svd_documented (X := Cn) gesvd sqrtC M N (me X)) ->
  (height Cc A < fuel)%nat -> hrep parts MA A -> hrep parts MB B -> mid_of Cc ta A = out_of Cc tb B ->
  above (out_of Cc ta A) = above (mid_of Cc ta A) -> above (mid_of Cc tb B) = above (mid_of Cc ta A) ->
  hrep parts MC Cm -> block_of Cm = (out_of Cc ta A, mid_of Cc tb B) ->
  exists C' M', hh_h Cc (recompressed Cn geqrf gelqf gesvd sqrtC (smallC eps)) (svd_truncated Cn gesvd sqrtC (smallC eps)) parts fuel ta tb alpha A B (c1 Cc) Cm = Some C' /\ hrep parts M' C' /\
    fnorm (K := Cc) Cmod (c_size (out_of Cc ta A)) (c_size (mid_of Cc tb B)) (block_at (K := Cc) (fun x y => csub Cc (M' x y) (cadd Cc (MC x y) (exact_product Cc ta tb alpha MA MB (mid_of Cc ta A) x y))) (out_of Cc ta A) (mid_of Cc tb B)) <=
    ((1 + eps) ^ truncations (low_leaves Cm) fuel ta tb A B - 1) *
    (fnorm (K := Cc) Cmod (c_size (out_of Cc ta A)) (c_size (mid_of Cc tb B)) (block_at (K := Cc) MC (out_of Cc ta A) (mid_of Cc tb B)) +
     Cmod alpha * (fnorm (K := Cc) Cmod (c_size (out_of Cc ta A)) (c_size (mid_of Cc ta A)) (block_at (K := Cc) (op_fun (K := Cc) ta MA) (out_of Cc ta A) (mid_of Cc ta A)) *
                   fnorm (K := Cc) Cmod (c_size (mid_of Cc ta A)) (c_size (mid_of Cc tb B)) (block_at (K := Cc) (op_fun (K := Cc) tb MB) (mid_of Cc ta A) (mid_of Cc tb B)))).
Proof.
  intros geqrf gelqf gesvd eps parts fuel ta tb alpha MA MB MC A B Cm He D1 D2 Hf HA HB HM Ao Ai HC HBl.
  exact (C78_hierarchical_bound Cc Cmod C67_modulus_complex _ _ parts fuel ta tb alpha MA MB A B Hf HA HB HM Ao Ai eps He
    (C70_recompression_complex geqrf gelqf gesvd eps He D1) (C70_svd_complex gesvd eps He D2) MC Cm HC HBl).
Qed.
Print Assumptions C78_real.
Print Assumptions C78_complex.

(** ** A concrete case: truncations that lose everything (eps = 1) *)
Example C78_hyps : exists C' M', hh_h Zc nothing nothing' xparts 3 TrN TrT 1%Z xA xA 1%Z xA = Some C' /\ hrep (K := Zc) xparts M' C'.
Proof.
  destruct (C78_hierarchical_bound Zc absZ absZ_modulus nothing nothing' xparts 3 TrN TrT 1%Z xM xM xA xA ltac:(cbn; lia) x_rep x_rep eq_refl eq_refl eq_refl 1 ltac:(lra) nothing_ok nothing_ok' xM xA x_rep eq_refl)
    as (C' & M' & E & H & _). exists C', M'. split; assumption.
Qed.
Example C78_count : truncations (K := Zc) (low_leaves xA) 3 TrN TrT xA xA = 28%nat /\ low_leaves xA = 1%nat /\ nodes xA = 5%nat.
Proof. split; [|split]; vm_compute; reflexivity. Qed.
(** The error is there: the low-rank block of the result is 0, that of A A^T + A is (73, 153). *)
Theorem C78_exact_refuted :
  option_map (fun C' => match rt_children C' with [_; _; c; _] =>
      match h_data (rt_val c) with DLow L => [lr_entry L 0 0; lr_entry L 1 0] | _ => [] end | _ => [] end)
    (hh_h Zc nothing nothing' xparts 3 TrN TrT 1%Z xA xA 1%Z xA) = Some [0; 0]%Z /\
  [xM 0 2 + exact_product Zc TrN TrT 1 xM xM xr 0 2; xM 1 2 + exact_product Zc TrN TrT 1 xM xM xr 1 2]%Z = [73; 153]%Z.
Proof. split; vm_compute; reflexivity. Qed.
Print Assumptions C78_exact_refuted.
