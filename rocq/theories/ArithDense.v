(** * Sums and products of dense and low-rank matrices. *)

From Coq Require Import List Arith Bool Lia Ring.
From Verif Require Import ClusterModel ClusterSpec IOModel BlockModel BlockSpec BlockSym Algebra BlasModel BlasProofs HMatModel HMatSpec
  HMatProofs HMatBuild DistModel ArithModel ArithSpec.
Import ListNotations.

Section P.
  Variable K : Coef.
  Notation C := (car K).
  Notation "0" := (c0 K).
  Notation "1" := (c1 K).
  Notation "x + y" := (cadd K x y).
  Notation "x * y" := (cmul K x y).
  Add Ring KringA : (c_ring K).

  (** ** Dense matrices *)
  Lemma zeros_wf : forall r c, wf_mat (zeros K r c) r c.
  Proof. intros r c. unfold zeros. split; [reflexivity|]. split; [reflexivity|]. cbn [md mkMat]. apply repeat_length. Qed.
  Lemma zeros_me : forall r c i j, me (zeros K r c) i j = 0.
  Proof. intros r c i j. unfold me, zeros, get. cbn [md mr mkMat]. rewrite nth_repeat. reflexivity. Qed.

  Lemma gemm_mat_ok : forall ta tb alpha A B beta Cm r k c f g, (1 <= r)%nat -> (1 <= k)%nat -> (1 <= c)%nat ->
    mat_op ta A r k f -> mat_op tb B k c g -> wf_mat Cm r c ->
    exists C', add_matrix_matrix_product K ta tb alpha A B beta Cm = Some C' /\ wf_mat C' r c /\
      forall i j, (i < r)%nat -> (j < c)%nat -> me C' i j = beta * me Cm i j + alpha * sum k (fun l => f i l * g l j).
  Proof.
    intros ta tb alpha A B beta Cm r k c f g Hr Hk Hc [WA EA] [WB EB] WC. unfold add_matrix_matrix_product.
    destruct WC as (C1 & C2 & C3). destruct WA as (A1 & A2 & A3). destruct WB as (B1 & B2 & B3).
    rewrite C1, C2.
    assert (E1 : (if is_N ta then mc A else mr A) = k) by (destruct ta; cbn [is_N] in *; assumption). rewrite E1.
    assert (LA : (if is_N ta then r else k) = mr A) by (destruct ta; cbn [is_N] in *; congruence).
    assert (LB : (if is_N tb then k else c) = mr B) by (destruct tb; cbn [is_N] in *; congruence).
    rewrite LA, LB.
    destruct (gemm_ok K ta tb r c k alpha (md A) (md B) (mr A) (mr B) beta (md Cm) r) as (C' & G1 & G2 & G3).
    - destruct ta; cbn [is_N] in *; lia.
    - unfold rows_of. destruct ta; cbn [is_N] in *; lia.
    - destruct tb; cbn [is_N] in *; lia.
    - unfold rows_of. destruct tb; cbn [is_N] in *; lia.
    - lia.
    - lia.
    - unfold holds, rows_of. rewrite orb_true_iff, Nat.leb_le. right. destruct ta; cbn [is_N] in *; nia.
    - unfold holds, rows_of. rewrite orb_true_iff, Nat.leb_le. right. destruct tb; cbn [is_N] in *; nia.
    - unfold holds. rewrite orb_true_iff, Nat.leb_le. right. nia.
    - rewrite G1. cbn [option_map]. eexists. split; [reflexivity|]. unfold with_data. split.
      + repeat split; cbn [mr mc md]; try assumption. congruence.
      + intros i j Hi Hj. unfold me at 1. cbn [mr md]. rewrite C1. rewrite G3 by exact Hi.
        destruct (Nat.ltb_spec i r); [|lia]. destruct (Nat.ltb_spec j c); [|lia]. cbn [andb]. unfold me at 1. rewrite C1. do 2 f_equal.
        apply sum_ext. intros l Hl. rewrite !op_entry_me. rewrite EA, EB by assumption. reflexivity.
  Qed.

  Lemma transpose_wf : forall A r c, mr A = r -> mc A = c -> wf_mat (transpose K A) c r.
  Proof. intros A r c <- <-. apply of_fun_wf. Qed.
  Lemma transpose_me : forall A i j, (i < mc A)%nat -> (j < mr A)%nat -> me (transpose K A) i j = me A j i.
  Proof. intros A i j Hi Hj. unfold transpose. rewrite of_fun_me by assumption. reflexivity. Qed.

  Lemma mat_scale_ok : forall da A r c, wf_mat A r c ->
    exists A', mat_scale K da A = Some A' /\ wf_mat A' r c /\ forall i j, (i < r)%nat -> (j < c)%nat -> me A' i j = da * me A i j.
  Proof.
    intros da A r c (H1 & H2 & H3). unfold mat_scale. destruct (scal_ok K (mc A * mr A) da (md A)) as (d & E1 & E2 & E3); [rewrite H1, H2; lia|].
    rewrite E1. eexists. split; [reflexivity|]. split; [repeat split; cbn [with_data mr mc md]; congruence|].
    intros i j Hi Hj. unfold me. cbn [with_data mr md]. rewrite E3. rewrite H1, H2. destruct (Nat.ltb_spec (i + j * r) (c * r)); [reflexivity|nia].
  Qed.
  Lemma mat_conj_ok : forall A r c, wf_mat A r c ->
    exists A', mat_conj K A = Some A' /\ wf_mat A' r c /\ forall i j, (i < r)%nat -> (j < c)%nat -> me A' i j = cconj K (me A i j).
  Proof.
    intros A r c (H1 & H2 & H3). unfold mat_conj, conj_buf. destruct (transform_ok K (mr A * mc A) (cconj K) (md A)) as (d & E1 & E2 & E3); [rewrite H1, H2; lia|].
    rewrite E1. eexists. split; [reflexivity|]. split; [repeat split; cbn [with_data mr mc md]; congruence|].
    intros i j Hi Hj. unfold me. cbn [with_data mr md]. rewrite E3. rewrite H1, H2. destruct (Nat.ltb_spec (i + j * r) (r * c)); [reflexivity|nia].
  Qed.
  Lemma conj_if_ok : forall b A r c, wf_mat A r c ->
    exists A', conj_if K b A = Some A' /\ wf_mat A' r c /\
      forall i j, (i < r)%nat -> (j < c)%nat -> me A' i j = if b then cconj K (me A i j) else me A i j.
  Proof.
    intros [|] A r c H; cbn [conj_if]; [apply mat_conj_ok, H|]. exists A. split; [reflexivity|]. split; [exact H|]. reflexivity.
  Qed.
  (** transposed (and conjugated): the matrix op(A) *)
  Lemma transposed_ok : forall t A r c, is_N t = false -> wf_mat A r c ->
    exists A', transposed K (is_C t) A = Some A' /\ wf_mat A' c r /\ forall i j, (i < c)%nat -> (j < r)%nat -> me A' i j = op_fun t (me A) i j.
  Proof.
    intros t A r c Ht W. unfold transposed. destruct (conj_if_ok (is_C t) (transpose K A) c r) as (A' & E1 & E2 & E3).
    { apply transpose_wf; apply W. }
    exists A'. split; [exact E1|]. split; [exact E2|]. intros i j Hi Hj. rewrite E3 by assumption. destruct W as (W1 & W2 & _).
    rewrite transpose_me by lia. destruct t; [discriminate|reflexivity|reflexivity].
  Qed.

  Lemma copy_block_ok : forall src sr sc nr nc dst dr dc, (sr + nr <= mr src)%nat -> (sc + nc <= mc src)%nat ->
    (dr + nr <= mr dst)%nat -> (dc + nc <= mc dst)%nat ->
    exists D, copy_block K src sr sc nr nc dst dr dc = Some D /\ wf_mat D (mr dst) (mc dst) /\
      forall i j, (i < mr dst)%nat -> (j < mc dst)%nat -> me D i j =
        if ((dr <=? i) && (i <? dr + nr) && (dc <=? j) && (j <? dc + nc))%nat then me src (sr + (i - dr)) (sc + (j - dc)) else me dst i j.
  Proof.
    intros src sr sc nr nc dst dr dc H1 H2 H3 H4. unfold copy_block.
    rewrite (proj2 (Nat.leb_le _ _) H1), (proj2 (Nat.leb_le _ _) H2), (proj2 (Nat.leb_le _ _) H3), (proj2 (Nat.leb_le _ _) H4). cbn [andb].
    eexists. split; [reflexivity|]. split; [apply of_fun_wf|]. intros i j Hi Hj. rewrite of_fun_me by assumption. reflexivity.
  Qed.

  Lemma hcat_ok : forall A B r ca cb, wf_mat A r ca -> wf_mat B r cb ->
    exists D, hcat K r A B = Some D /\ wf_mat D r (ca + cb)%nat /\
      forall i j, (i < r)%nat -> (j < ca + cb)%nat -> me D i j = if (j <? ca)%nat then me A i j else me B i (j - ca).
  Proof.
    intros A B r ca cb (A1 & A2 & _) (B1 & B2 & _). unfold hcat.
    destruct (copy_block_ok A 0 0 (mr A) (mc A) (zeros K r (mc A + mc B)) 0 0) as (N & E1 & E2 & E3); cbn [zeros mkMat mr mc]; try lia.
    rewrite E1. cbn [zeros mkMat mr mc] in E2, E3. destruct E2 as (N1 & N2 & _).
    destruct (copy_block_ok B 0 0 (mr B) (mc B) N 0 (mc A)) as (D & F1 & F2 & F3); try lia.
    exists D. split; [exact F1|]. rewrite N1, N2, A2, B2 in F2. split; [exact F2|]. intros i j Hi Hj.
    rewrite F3 by lia. rewrite E3 by lia. rewrite A1, B1, A2, B2. cbn [Nat.add].
    destruct (Nat.ltb_spec i r); [|lia]. destruct (Nat.leb_spec 0 i); [|lia]. destruct (Nat.leb_spec 0 j); [|lia]. cbn [andb].
    destruct (Nat.leb_spec ca j); destruct (Nat.ltb_spec j ca); try lia; cbn [andb].
    - destruct (Nat.ltb_spec j (ca + cb)); [|lia]. f_equal; lia.
    - f_equal; lia.
  Qed.
  Lemma vcat_ok : forall A B c ra rb, wf_mat A ra c -> wf_mat B rb c ->
    exists D, vcat K c A B = Some D /\ wf_mat D (ra + rb)%nat c /\
      forall i j, (i < ra + rb)%nat -> (j < c)%nat -> me D i j = if (i <? ra)%nat then me A i j else me B (i - ra) j.
  Proof.
    intros A B c ra rb (A1 & A2 & _) (B1 & B2 & _). unfold vcat.
    destruct (copy_block_ok A 0 0 (mr A) (mc A) (zeros K (mr A + mr B) c) 0 0) as (N & E1 & E2 & E3); cbn [zeros mkMat mr mc]; try lia.
    rewrite E1. cbn [zeros mkMat mr mc] in E2, E3. destruct E2 as (N1 & N2 & _).
    destruct (copy_block_ok B 0 0 (mr B) (mc B) N (mr A) 0) as (D & F1 & F2 & F3); try lia.
    exists D. split; [exact F1|]. rewrite N1, N2, A1, B1 in F2. split; [exact F2|]. intros i j Hi Hj.
    rewrite F3 by lia. rewrite E3 by lia. rewrite A1, B1, A2, B2. cbn [Nat.add].
    destruct (Nat.ltb_spec j c); [|lia]. destruct (Nat.leb_spec 0 i); [|lia]. destruct (Nat.leb_spec 0 j); [|lia]. cbn [andb].
    destruct (Nat.leb_spec ra i); destruct (Nat.ltb_spec i ra); try lia; cbn [andb].
    - destruct (Nat.ltb_spec i (ra + rb)); [|lia]. cbn [andb]. f_equal; lia.
    - f_equal; lia.
  Qed.

  (** ** Low-rank matrices *)
  Lemma lr_entry_0 : forall L i j, lrank L = 0%nat -> lr_entry (K:=K) L i j = 0.
  Proof. intros L i j H. unfold lr_entry. rewrite H. reflexivity. Qed.
  Lemma lr_scale_ok : forall da L r c, wf_lrm L r c ->
    exists L', lr_scale K da L = Some L' /\ wf_lrm L' r c /\ lrank L' = lrank L /\
      forall i j, (i < r)%nat -> (j < c)%nat -> lr_entry L' i j = da * lr_entry L i j.
  Proof.
    intros da L r c [WU WV]. unfold lr_scale. destruct (_ <? _)%nat.
    - destruct (mat_scale_ok da _ _ _ WU) as (U & E1 & E2 & E3). rewrite E1. eexists. split; [reflexivity|].
      assert (Q : lrank (mkLrm U (lV L)) = lrank L) by (unfold lrank; cbn [lU]; apply E2).
      split; [split; rewrite Q; [exact E2|exact WV]|]. split; [exact Q|]. intros i j Hi Hj. unfold lr_entry. rewrite Q. cbn [lU lV].
      rewrite <- sum_mul_l. apply sum_ext. intros k Hk. rewrite E3 by assumption. ring.
    - destruct (mat_scale_ok da _ _ _ WV) as (V & E1 & E2 & E3). rewrite E1. eexists. split; [reflexivity|].
      assert (Q : lrank (mkLrm (lU L) V) = lrank L) by reflexivity.
      split; [split; rewrite Q; [exact WU|exact E2]|]. split; [exact Q|]. intros i j Hi Hj. unfold lr_entry. rewrite Q. cbn [lU lV].
      rewrite <- sum_mul_l. apply sum_ext. intros k Hk. rewrite E3 by assumption. ring.
  Qed.

  (** A low-rank matrix that may be used as the first value of a sum. *)
  Definition lr_any (L : lrm K) (r c : nat) : Prop := lrank L = 0%nat \/ wf_lrm L r c.
  (** Concatenated factors: the sum. *)
  Lemma concat_lr : forall (U U1 U2 V V1 V2 : mat K) r c k1 k2, wf_mat U1 r k1 -> wf_mat U2 r k2 -> wf_mat V1 k1 c -> wf_mat V2 k2 c ->
    wf_mat U r (k1 + k2)%nat -> wf_mat V (k1 + k2)%nat c ->
    (forall i j, (i < r)%nat -> (j < k1 + k2)%nat -> me U i j = if (j <? k1)%nat then me U1 i j else me U2 i (j - k1)) ->
    (forall i j, (i < k1 + k2)%nat -> (j < c)%nat -> me V i j = if (i <? k1)%nat then me V1 i j else me V2 (i - k1) j) ->
    wf_lrm (mkLrm U V) r c /\ forall i j, (i < r)%nat -> (j < c)%nat ->
      lr_entry (mkLrm U V) i j = sum k1 (fun k => me U1 i k * me V1 k j) + sum k2 (fun k => me U2 i k * me V2 k j).
  Proof.
    intros U U1 U2 V V1 V2 r c k1 k2 W1 W2 W3 W4 WU WV EU EV.
    assert (Q : lrank (mkLrm U V) = (k1 + k2)%nat) by (unfold lrank; cbn [lU]; apply WU).
    split; [split; rewrite Q; assumption|]. intros i j Hi Hj. unfold lr_entry. rewrite Q. cbn [lU lV]. rewrite sum_split. f_equal.
    - apply sum_ext. intros k Hk. rewrite EU, EV by lia. destruct (Nat.ltb_spec k k1); [reflexivity|lia].
    - apply sum_ext. intros k Hk. rewrite EU, EV by lia. destruct (Nat.ltb_spec (k1 + k) k1); [lia|]. repeat f_equal; lia.
  Qed.

  (** [prod tb alpha B beta C] = alpha F op(B) + beta C, F of size r x k. *)
  Definition prodR (prod : trans -> C -> mat K -> C -> mat K -> option (mat K)) (r k : nat) (F : nat -> nat -> C) : Prop :=
    forall tb alpha B beta Cm c g, (1 <= c)%nat -> mat_op tb B k c g -> wf_mat Cm r c ->
      exists C', prod tb alpha B beta Cm = Some C' /\ wf_mat C' r c /\
        forall i j, (i < r)%nat -> (j < c)%nat -> me C' i j = beta * me Cm i j + alpha * sum k (fun l => F i l * g l j).
  (** [prod ta alpha A beta C] = alpha op(A) G + beta C, G of size k x c. *)
  Definition prodL (prod : trans -> C -> mat K -> C -> mat K -> option (mat K)) (k c : nat) (G : nat -> nat -> C) : Prop :=
    forall ta alpha A beta Cm r f, (1 <= r)%nat -> mat_op ta A r k f -> wf_mat Cm r c ->
      exists C', prod ta alpha A beta Cm = Some C' /\ wf_mat C' r c /\
        forall i j, (i < r)%nat -> (j < c)%nat -> me C' i j = beta * me Cm i j + alpha * sum k (fun l => f i l * G l j).

  Lemma sum_assoc : forall n m (f : nat -> C) (g : nat -> nat -> C) (h : nat -> C),
    sum n (fun p => f p * sum m (fun l => g p l * h l)) = sum m (fun l => sum n (fun p => f p * g p l) * h l).
  Proof.
    intros n m f g h. rewrite (sum_ext K n _ (fun p => sum m (fun l => f p * g p l * h l))).
    2:{ intros p _. rewrite <- sum_mul_l. apply sum_ext. intros l _. ring. }
    rewrite sum_swap. apply sum_ext. intros l _. rewrite sum_mul_r. reflexivity.
  Qed.
  Lemma mat_op_N : forall A r c, wf_mat A r c -> mat_op TrN A r c (me (K:=K) A).
  Proof. intros A r c H. split; [exact H|]. reflexivity. Qed.
  Lemma mat_op_self : forall t A r c, wf_mat A r c -> mat_op t A (if is_N t then r else c) (if is_N t then c else r) (op_fun t (me (K:=K) A)).
  Proof. intros t A r c H. split; [destruct t; exact H|]. reflexivity. Qed.

  (** op(UV) = op of the second factor times op of the first one, if transposed *)
  Lemma lr_op_entry : forall t (L : lrm K) i j, op_fun t (lr_entry L) i j =
    sum (lrank L) (fun k => if is_N t then me (lU L) i k * me (lV L) k j else op_fun t (me (lV L)) i k * op_fun t (me (lU L)) k j).
  Proof.
    intros t L i j. destruct t; cbn [op_fun is_N]; unfold lr_entry; [reflexivity| |].
    - apply sum_ext. intros k _. ring.
    - rewrite conj_sum. apply sum_ext. intros k _. rewrite cconj_mul. ring.
  Qed.

  Section Times.
    Variable prod : trans -> C -> mat K -> C -> mat K -> option (mat K).
    Variables (r k : nat) (F : nat -> nat -> C).
    Hypothesis Hr : (1 <= r)%nat.
    Hypothesis Hk : (1 <= k)%nat.
    Hypothesis HP : prodR prod r k F.

    Lemma sum_mm : forall n i (G H : nat -> nat -> C) j g, (forall l, (l < k)%nat -> sum n (fun p => G l p * H p j) = g l j) ->
      sum n (fun p => (0 + 1 * sum k (fun l => F i l * G l p)) * H p j) = sum k (fun l => F i l * g l j).
    Proof.
      intros n i G H j g Hg. rewrite (sum_ext K n _ (fun p => sum k (fun l => F i l * G l p) * H p j)) by (intros; ring).
      rewrite <- (sum_assoc k n (F i) G (fun p => H p j)). apply sum_ext. intros l Hl. rewrite Hg by exact Hl. reflexivity.
    Qed.

    Lemma times_lr_dense_ok : forall tb alpha B beta Cm c g, (1 <= c)%nat -> lr_op tb B k c g -> wf_mat Cm r c ->
      exists C', times_lr_dense K prod r tb alpha B beta Cm = Some C' /\ wf_mat C' r c /\
        forall i j, (i < r)%nat -> (j < c)%nat -> me C' i j = beta * me Cm i j + alpha * sum k (fun l => F i l * g l j).
    Proof.
      intros tb alpha B beta Cm c g Hc ([WU WV] & Hrk & EB) WC. unfold times_lr_dense.
      destruct (Nat.eqb_spec (lrank B) 0); [lia|]. destruct (is_N tb) eqn:Et.
      - assert (mc (lU B) = lrank B) as -> by apply WU.
        destruct (HP TrN 1 (lU B) 0 (zeros K r (lrank B)) (lrank B) (me (lU B))) as (AU & E1 & E2 & E3); [exact Hrk|apply mat_op_N, WU|apply zeros_wf|].
        rewrite E1. destruct (gemm_mat_ok TrN TrN alpha AU (lV B) beta Cm r (lrank B) c (me AU) (me (lV B))) as (C' & G1 & G2 & G3); try assumption; [apply mat_op_N, E2|apply mat_op_N, WV|].
        exists C'. split; [exact G1|]. split; [exact G2|]. intros i j Hi Hj. rewrite G3 by assumption. do 2 f_equal.
        rewrite <- (sum_mm (lrank B) i (me (lU B)) (me (lV B)) j g).
        + apply sum_ext. intros p Hp. rewrite E3 by assumption. rewrite zeros_me. ring.
        + intros l Hl. rewrite <- EB by assumption. rewrite lr_op_entry, Et. reflexivity.
      - assert (mr (lV B) = lrank B) as -> by apply WV.
        destruct (HP tb 1 (lV B) 0 (zeros K r (lrank B)) (lrank B) (op_fun tb (me (lV B)))) as (AU & E1 & E2 & E3); [exact Hrk| |apply zeros_wf|].
        { pose proof (mat_op_self tb _ _ _ WV) as Q. rewrite Et in Q. exact Q. }
        rewrite E1. destruct (gemm_mat_ok TrN tb alpha AU (lU B) beta Cm r (lrank B) c (me AU) (op_fun tb (me (lU B)))) as (C' & G1 & G2 & G3); try assumption; [apply mat_op_N, E2| |].
        { pose proof (mat_op_self tb _ _ _ WU) as Q. rewrite Et in Q. exact Q. }
        exists C'. split; [exact G1|]. split; [exact G2|]. intros i j Hi Hj. rewrite G3 by assumption. do 2 f_equal.
        rewrite <- (sum_mm (lrank B) i (op_fun tb (me (lV B))) (op_fun tb (me (lU B))) j g).
        + apply sum_ext. intros p Hp. rewrite E3 by assumption. rewrite zeros_me. ring.
        + intros l Hl. rewrite <- EB by assumption. rewrite lr_op_entry, Et. reflexivity.
    Qed.

    Variable recompress : lrm K -> lrm K.
    Hypothesis HR : exact_recompression recompress.

    Lemma times_lr_lr_ok : forall tb alpha B beta L c g, (1 <= c)%nat -> lr_op tb B k c g -> lr_any L r c ->
      exists L', times_lr_lr K recompress prod r tb alpha B beta L = Some L' /\
        lr_op TrN L' r c (fun i j => beta * lr_entry L i j + alpha * sum k (fun l => F i l * g l j)).
    Proof.
      intros tb alpha B beta L c g Hc ([WU WV] & Hrk & EB) WL. unfold times_lr_lr.
      destruct (Nat.eqb_spec (lrank B) 0); [lia|].
      assert (EX : exists left right, (if is_N tb then lU B else lV B) = left /\ (if is_N tb then Some (lV B) else transposed K (is_C tb) (lU B)) = Some right /\
        (if is_N tb then mc (lU B) else mr (lV B)) = lrank B /\ mat_op tb left k (lrank B) (op_fun tb (me left)) /\ wf_mat right (lrank B) c /\
        forall l j, (l < k)%nat -> (j < c)%nat -> sum (lrank B) (fun p => op_fun tb (me left) l p * me right p j) = g l j).
      { destruct (is_N tb) eqn:Et.
        - exists (lU B), (lV B). split; [reflexivity|]. split; [reflexivity|]. split; [apply WU|].
          split; [split; [rewrite Et; exact WU|reflexivity]|]. split; [exact WV|].
          intros l j Hl Hj. rewrite <- EB by assumption. rewrite lr_op_entry, Et. destruct tb; try discriminate. reflexivity.
        - destruct (transposed_ok tb _ _ _ Et WU) as (right & Q1 & Q2 & Q3). exists (lV B), right. split; [reflexivity|]. split; [exact Q1|].
          split; [apply WV|]. split; [split; [rewrite Et; exact WV|reflexivity]|]. split; [exact Q2|].
          intros l j Hl Hj. rewrite <- EB by assumption. rewrite lr_op_entry, Et. apply sum_ext. intros p Hp. rewrite Q3 by assumption. reflexivity. }
      destruct EX as (left & right & X1 & X2 & X3 & X4 & X5 & X6). rewrite X1, X2, X3.
      destruct (HP tb alpha left 0 (zeros K r (lrank B)) (lrank B) _ Hrk X4 (zeros_wf _ _)) as (AU & E1 & E2 & E3). rewrite E1.
      assert (EV : forall i j, (i < r)%nat -> (j < c)%nat -> sum (lrank B) (fun p => me AU i p * me right p j) = alpha * sum k (fun l => F i l * g l j)).
      { intros i j Hi Hj. rewrite <- (sum_mm (lrank B) i (op_fun tb (me left)) (me right) j g) by (intros; apply X6; assumption).
        rewrite <- sum_mul_l. apply sum_ext. intros p Hp. rewrite E3 by assumption. rewrite zeros_me. ring. }
      destruct (overwritten K beta L) eqn:Eo.
      - eexists. split; [reflexivity|]. assert (Q : lrank (mkLrm AU right) = lrank B) by apply E2. split; [split; rewrite Q; assumption|]. split; [lia|].
        intros i j Hi Hj. cbn [op_fun]. unfold lr_entry at 1. rewrite Q. cbn [lU lV]. rewrite EV by assumption.
        assert (beta * lr_entry L i j = 0) as ->; [|ring]. unfold overwritten in Eo. apply orb_true_iff in Eo. destruct Eo as [Eo|Eo].
        + destruct (ceqb_spec K beta 0) as [->|]; [ring|discriminate].
        + apply Nat.eqb_eq in Eo. rewrite lr_entry_0 by exact Eo. ring.
      - unfold overwritten in Eo. apply orb_false_iff in Eo. destruct Eo as [_ Eo]. apply Nat.eqb_neq in Eo.
        destruct WL as [WL|[WLU WLV]]; [congruence|].
        destruct (mat_scale_ok beta _ _ _ WLV) as (VC & S1 & S2 & S3). rewrite S1.
        assert (mc VC = c) as -> by apply S2. assert (mr AU = r) as -> by apply E2.
        destruct (vcat_ok right VC c _ _ X5 S2) as (V & V1 & V2 & V3). rewrite V1.
        destruct (hcat_ok AU (lU L) r _ _ E2 WLU) as (U & U1 & U2 & U3). rewrite U1.
        eexists. split; [reflexivity|].
        destruct (concat_lr U AU (lU L) V right VC r c _ _ E2 WLU X5 S2 U2 V2 U3 V3) as [Wn En].
        destruct (HR (mkLrm U V) r c Hr Hc Wn) as (R1 & R2 & R3).
        { unfold lrank. cbn [lU]. destruct U2 as (_ & -> & _). lia. }
        split; [exact R1|]. split; [exact R2|]. intros i j Hi Hj. rewrite R3 by assumption. rewrite En by assumption. rewrite EV by assumption.
        replace (beta * lr_entry L i j) with (sum (lrank L) (fun q => me (lU L) i q * me VC q j)); [ring|].
        unfold lr_entry. rewrite <- sum_mul_l. apply sum_ext. intros q Hq. rewrite S3 by assumption. ring.
    Qed.
  End Times.

  Section LTimes.
    Variable prod : trans -> C -> mat K -> C -> mat K -> option (mat K).
    Variables (k c : nat) (G : nat -> nat -> C).
    Hypothesis Hk : (1 <= k)%nat.
    Hypothesis Hc : (1 <= c)%nat.
    Hypothesis HP : prodL prod k c G.

    Lemma sum_mm2 : forall n (Fl H : nat -> nat -> C) i j f, (forall l, (l < k)%nat -> sum n (fun p => Fl i p * H p l) = f i l) ->
      sum n (fun p => Fl i p * (0 + 1 * sum k (fun l => H p l * G l j))) = sum k (fun l => f i l * G l j).
    Proof.
      intros n Fl H i j f Hf. rewrite (sum_ext K n _ (fun p => Fl i p * sum k (fun l => H p l * G l j))) by (intros; ring).
      rewrite sum_assoc. apply sum_ext. intros l Hl. rewrite Hf by exact Hl. reflexivity.
    Qed.

    Lemma lr_times_dense_ok : forall ta alpha A beta Cm r f, (1 <= r)%nat -> lr_op ta A r k f -> wf_mat Cm r c ->
      exists C', lr_times_dense K prod c ta alpha A beta Cm = Some C' /\ wf_mat C' r c /\
        forall i j, (i < r)%nat -> (j < c)%nat -> me C' i j = beta * me Cm i j + alpha * sum k (fun l => f i l * G l j).
    Proof.
      intros ta alpha A beta Cm r f Hr ([WU WV] & Hrk & EA) WC. unfold lr_times_dense.
      destruct (Nat.eqb_spec (lrank A) 0); [lia|]. assert (mr (lV A) = lrank A) as -> by apply WV. destruct (is_N ta) eqn:Et.
      - destruct (HP TrN 1 (lV A) 0 (zeros K (lrank A) c) (lrank A) (me (lV A))) as (VB & E1 & E2 & E3); [exact Hrk|apply mat_op_N, WV|apply zeros_wf|].
        rewrite E1. destruct (gemm_mat_ok TrN TrN alpha (lU A) VB beta Cm r (lrank A) c (me (lU A)) (me VB)) as (C' & G1 & G2 & G3); try assumption; [apply mat_op_N, WU|apply mat_op_N, E2|].
        exists C'. split; [exact G1|]. split; [exact G2|]. intros i j Hi Hj. rewrite G3 by assumption. do 2 f_equal.
        rewrite <- (sum_mm2 (lrank A) (me (lU A)) (me (lV A)) i j f).
        + apply sum_ext. intros p Hp. rewrite E3 by assumption. rewrite zeros_me. ring.
        + intros l Hl. rewrite <- EA by assumption. rewrite lr_op_entry, Et. reflexivity.
      - destruct (HP ta 1 (lU A) 0 (zeros K (lrank A) c) (lrank A) (op_fun ta (me (lU A)))) as (VB & E1 & E2 & E3); [exact Hrk| |apply zeros_wf|].
        { pose proof (mat_op_self ta _ _ _ WU) as Q. rewrite Et in Q. exact Q. }
        rewrite E1. destruct (gemm_mat_ok ta TrN alpha (lV A) VB beta Cm r (lrank A) c (op_fun ta (me (lV A))) (me VB)) as (C' & G1 & G2 & G3); try assumption; [|apply mat_op_N, E2|].
        { pose proof (mat_op_self ta _ _ _ WV) as Q. rewrite Et in Q. exact Q. }
        exists C'. split; [exact G1|]. split; [exact G2|]. intros i j Hi Hj. rewrite G3 by assumption. do 2 f_equal.
        rewrite <- (sum_mm2 (lrank A) (op_fun ta (me (lV A))) (op_fun ta (me (lU A))) i j f).
        + apply sum_ext. intros p Hp. rewrite E3 by assumption. rewrite zeros_me. ring.
        + intros l Hl. rewrite <- EA by assumption. rewrite lr_op_entry, Et. reflexivity.
    Qed.

    Variable recompress : lrm K -> lrm K.
    Hypothesis HR : exact_recompression recompress.

    Lemma lr_times_lr_ok : forall again ta alpha A beta L r f, (1 <= r)%nat -> lr_op ta A r k f -> lr_any L r c ->
      exists L', lr_times_lr K recompress prod c again ta alpha A beta L = Some L' /\
        lr_op TrN L' r c (fun i j => beta * lr_entry L i j + alpha * sum k (fun l => f i l * G l j)).
    Proof.
      intros again ta alpha A beta L r f Hr ([WU WV] & Hrk & EA) WL. unfold lr_times_lr.
      destruct (Nat.eqb_spec (lrank A) 0); [lia|].
      assert (mr (lV A) = lrank A) as -> by apply WV.
      assert (EX : exists left right, (if is_N ta then lV A else lU A) = right /\ (if is_N ta then Some (lU A) else transposed K (is_C ta) (lV A)) = Some left /\
        (if is_N ta then lrank A else mc (lU A)) = lrank A /\ mat_op ta right (lrank A) k (op_fun ta (me right)) /\ wf_mat left r (lrank A) /\
        forall i l, (i < r)%nat -> (l < k)%nat -> sum (lrank A) (fun p => me left i p * op_fun ta (me right) p l) = f i l).
      { destruct (is_N ta) eqn:Et.
        - exists (lU A), (lV A). split; [reflexivity|]. split; [reflexivity|]. split; [reflexivity|].
          split; [split; [rewrite Et; exact WV|reflexivity]|]. split; [exact WU|].
          intros i l Hi Hl. rewrite <- EA by assumption. rewrite lr_op_entry, Et. destruct ta; try discriminate. reflexivity.
        - destruct (transposed_ok ta _ _ _ Et WV) as (left & Q1 & Q2 & Q3). exists left, (lU A). split; [reflexivity|]. split; [exact Q1|].
          split; [apply WU|]. split; [split; [rewrite Et; exact WU|reflexivity]|]. split; [exact Q2|].
          intros i l Hi Hl. rewrite <- EA by assumption. rewrite lr_op_entry, Et. apply sum_ext. intros p Hp. rewrite Q3 by assumption. reflexivity. }
      destruct EX as (left & right & X1 & X2 & X3 & X4 & X5 & X6). rewrite X1, X2, X3.
      destruct (HP ta alpha right 0 (zeros K (lrank A) c) (lrank A) _ Hrk X4 (zeros_wf _ _)) as (VB & E1 & E2 & E3).
      assert (EV : forall i j, (i < r)%nat -> (j < c)%nat -> sum (lrank A) (fun p => me left i p * me VB p j) = alpha * sum k (fun l => f i l * G l j)).
      { intros i j Hi Hj. rewrite <- (sum_mm2 (lrank A) (me left) (op_fun ta (me right)) i j f) by (intros; apply X6; assumption).
        rewrite <- sum_mul_l. apply sum_ext. intros p Hp. rewrite E3 by assumption. rewrite zeros_me. ring. }
      destruct (overwritten K beta L) eqn:Eo.
      - rewrite E1. assert (Q : lrank (mkLrm left VB) = lrank A) by apply X5.
        assert (W : wf_lrm (mkLrm left VB) r c) by (split; rewrite Q; assumption).
        assert (EE : forall i j, (i < r)%nat -> (j < c)%nat -> lr_entry (mkLrm left VB) i j = beta * lr_entry L i j + alpha * sum k (fun l => f i l * G l j)).
        { intros i j Hi Hj. unfold lr_entry at 1. rewrite Q. cbn [lU lV]. rewrite EV by assumption.
          assert (beta * lr_entry L i j = 0) as ->; [|ring]. unfold overwritten in Eo. apply orb_true_iff in Eo. destruct Eo as [Eo|Eo].
          + destruct (ceqb_spec K beta 0) as [->|]; [ring|discriminate].
          + apply Nat.eqb_eq in Eo. rewrite lr_entry_0 by exact Eo. ring. }
        destruct (again && _)%bool.
        + eexists. split; [reflexivity|]. destruct (HR _ r c Hr Hc W) as (R1 & R2 & R3); [lia|]. split; [exact R1|]. split; [exact R2|].
          intros i j Hi Hj. rewrite R3 by assumption. apply EE; assumption.
        + eexists. split; [reflexivity|]. split; [exact W|]. split; [lia|]. exact EE.
      - unfold overwritten in Eo. apply orb_false_iff in Eo. destruct Eo as [_ Eo]. apply Nat.eqb_neq in Eo.
        destruct WL as [WL|[WLU WLV]]; [congruence|].
        assert (mr left = r) as -> by apply X5.
        destruct (hcat_ok left (lU L) r _ _ X5 WLU) as (U & U1 & U2 & U3). rewrite U1, E1.
        destruct (mat_scale_ok beta _ _ _ WLV) as (VC & S1 & S2 & S3). rewrite S1.
        assert (mc VC = c) as -> by apply S2.
        destruct (vcat_ok VB VC c _ _ E2 S2) as (V & V1 & V2 & V3). rewrite V1.
        eexists. split; [reflexivity|].
        destruct (concat_lr U left (lU L) V VB VC r c _ _ X5 WLU E2 S2 U2 V2 U3 V3) as [Wn En].
        destruct (HR (mkLrm U V) r c Hr Hc Wn) as (R1 & R2 & R3).
        { unfold lrank. cbn [lU]. destruct U2 as (_ & -> & _). lia. }
        split; [exact R1|]. split; [exact R2|]. intros i j Hi Hj. rewrite R3 by assumption. rewrite En by assumption. rewrite EV by assumption.
        replace (beta * lr_entry L i j) with (sum (lrank L) (fun q => me (lU L) i q * me VC q j)); [ring|].
        unfold lr_entry. rewrite <- sum_mul_l. apply sum_ext. intros q Hq. rewrite S3 by assumption. ring.
    Qed.
  End LTimes.
End P.
