(** * Sums and products of low-rank matrices. *)

From Coq Require Import List Arith Bool Lia Ring.
From Verif Require Import ClusterModel ClusterSpec IOModel BlockModel BlockSpec BlockSym Algebra BlasModel BlasProofs HMatModel HMatSpec
  HMatProofs HMatBuild DistModel ArithModel ArithSpec ArithDense.
Import ListNotations.

Section P.
  Variable K : Coef.
  Notation C := (car K).
  Notation "0" := (c0 K).
  Notation "1" := (c1 K).
  Notation "x + y" := (cadd K x y).
  Notation "x * y" := (cmul K x y).
  Add Ring KringB : (c_ring K).

  Variable recompress : lrm K -> lrm K.
  Hypothesis HR : exact_recompression recompress.

  (** Entry (i,j), in the numbering of the clusters, of a low-rank matrix on the block (t,s). *)
  Definition lr_at (L : lrm K) (t s : ctree) (i j : nat) : C := lr_entry L (i - c_off t) (j - c_off s).
  Definition lr_in (L : lrm K) (t s : ctree) (i j : nat) : C :=
    if in_iv i (interval t) && in_iv j (interval s) then lr_at L t s i j else 0.

  Lemma in_ivF : forall i u, in_iv i (interval u) = false <-> (i < c_off u \/ c_off u + c_size u <= i)%nat.
  Proof.
    intros i u. split.
    - intros H. destruct (Nat.lt_ge_cases i (c_off u)); [left; assumption|]. destruct (Nat.lt_ge_cases i (c_off u + c_size u)); [|right; assumption].
      assert (in_iv i (interval u) = true) by (apply in_ivb; lia). congruence.
    - intros H. destruct (in_iv i (interval u)) eqn:E; [|reflexivity]. apply in_ivb in E. lia.
  Qed.

  (** the sum of two low-rank matrices written as one: U = (U1 U2), V = (V1; V2) with U2, V2 arbitrary functions *)
  Lemma sum_factors : forall (U V : mat K) r c k1 k2 (u1 v1 u2 v2 : nat -> nat -> C), wf_mat U r (k1 + k2)%nat -> wf_mat V (k1 + k2)%nat c ->
    (forall i j, (i < r)%nat -> (j < k1 + k2)%nat -> me U i j = if (j <? k1)%nat then u1 i j else u2 i (j - k1)%nat) ->
    (forall i j, (i < k1 + k2)%nat -> (j < c)%nat -> me V i j = if (i <? k1)%nat then v1 i j else v2 (i - k1)%nat j) ->
    wf_lrm (mkLrm U V) r c /\ lrank (mkLrm U V) = (k1 + k2)%nat /\ forall i j, (i < r)%nat -> (j < c)%nat ->
      lr_entry (mkLrm U V) i j = sum k1 (fun k => u1 i k * v1 k j) + sum k2 (fun k => u2 i k * v2 k j).
  Proof.
    intros U V r c k1 k2 u1 v1 u2 v2 WU WV EU EV.
    assert (Q : lrank (mkLrm U V) = (k1 + k2)%nat) by (unfold lrank; cbn [lU]; apply WU).
    split; [split; rewrite Q; assumption|]. split; [exact Q|]. intros i j Hi Hj. unfold lr_entry. rewrite Q. cbn [lU lV]. rewrite sum_split. f_equal.
    - apply sum_ext. intros k Hk. rewrite EU, EV by lia. destruct (Nat.ltb_spec k k1); [reflexivity|lia].
    - apply sum_ext. intros k Hk. rewrite EU, EV by lia. destruct (Nat.ltb_spec (k1 + k) k1); [lia|]. repeat f_equal; lia.
  Qed.

  (** window of a factor of X seen in the block of Y *)
  Let win (cond : bool) (x : C) : C := if cond then x else 0.
  Lemma win_prod : forall n (a b : bool) (f g : nat -> C),
    sum n (fun k => win a (f k) * win b (g k)) = win (a && b) (sum n (fun k => f k * g k)).
  Proof.
    intros n a b f g. unfold win. destruct a, b; cbn [andb]; try reflexivity; apply sum_0; intros; ring.
  Qed.

  Ltac zlt := unfold win; repeat match goal with
    | |- context [(0 <=? ?x)%nat] => change (0 <=? x)%nat with true
    | |- context [(?x <? 0)%nat] => change (x <? 0)%nat with false
    | |- context [(0 + ?x)%nat] => change (0 + x)%nat with x
    end; cbn [andb].

  Theorem add_lrmat_lrmat_ok : forall X Xt Xs Y Yt Ys, (1 <= c_size Yt)%nat -> (1 <= c_size Ys)%nat ->
    wf_lrm X (c_size Xt) (c_size Xs) -> wf_lrm Y (c_size Yt) (c_size Ys) ->
    (contains Yt Xt = true /\ contains Ys Xs = true) \/ (contains Xt Yt = true /\ contains Xs Ys = true) ->
    exists L, add_lrmat_lrmat K recompress X Xt Xs Y Yt Ys = Some L /\ wf_lrm L (c_size Yt) (c_size Ys) /\
      (1 <= lrank X -> 1 <= lrank L)%nat /\ (1 <= lrank Y -> 1 <= lrank L)%nat /\
      forall i j, in_iv i (interval Yt) = true -> in_iv j (interval Ys) = true ->
        lr_at L Yt Ys i j = lr_at Y Yt Ys i j + lr_in X Xt Xs i j.
  Proof.
    intros X Xt Xs Y Yt Ys HYt HYs [WUX WVX] [WUY WVY] HC. unfold add_lrmat_lrmat.
    assert (UX1 : mr (lU X) = c_size Xt) by apply WUX. assert (UX2 : mc (lU X) = lrank X) by reflexivity.
    assert (VX1 : mr (lV X) = lrank X) by apply WVX. assert (VX2 : mc (lV X) = c_size Xs) by apply WVX.
    assert (UY1 : mr (lU Y) = c_size Yt) by apply WUY. assert (UY2 : mc (lU Y) = lrank Y) by reflexivity.
    assert (VY1 : mr (lV Y) = lrank Y) by apply WVY. assert (VY2 : mc (lV Y) = c_size Ys) by apply WVY.
    rewrite UX1, UX2, VX1, VX2, UY1, UY2, VY1, VY2.
    set (rt := c_size Yt) in *. set (rs := c_size Ys) in *.
    (* the conclusion from the factors *)
    assert (FIN : forall U V k, wf_mat U rt (k + lrank X)%nat -> wf_mat V (k + lrank X)%nat rs -> k = lrank Y ->
      (forall i j, (i < rt)%nat -> (j < k + lrank X)%nat -> me U i j = if (j <? k)%nat then me (lU Y) i j
         else win (in_iv (c_off Yt + i) (interval Xt)) (me (lU X) (c_off Yt + i - c_off Xt) (j - k))) ->
      (forall i j, (i < k + lrank X)%nat -> (j < rs)%nat -> me V i j = if (i <? k)%nat then me (lV Y) i j
         else win (in_iv (c_off Ys + j) (interval Xs)) (me (lV X) (i - k) (c_off Ys + j - c_off Xs))) ->
      wf_lrm (mkLrm U V) rt rs /\ lrank (mkLrm U V) = (k + lrank X)%nat /\
      forall i j, in_iv i (interval Yt) = true -> in_iv j (interval Ys) = true ->
        lr_at (mkLrm U V) Yt Ys i j = lr_at Y Yt Ys i j + lr_in X Xt Xs i j).
    { intros U V k WU WV Hk EU EV.
      destruct (sum_factors U V rt rs k (lrank X) (me (lU Y)) (me (lV Y))
        (fun i q => win (in_iv (c_off Yt + i) (interval Xt)) (me (lU X) (c_off Yt + i - c_off Xt) q))
        (fun q j => win (in_iv (c_off Ys + j) (interval Xs)) (me (lV X) q (c_off Ys + j - c_off Xs))) WU WV EU EV) as (W & Q & E).
      split; [exact W|]. split; [exact Q|]. intros i j Hi Hj. apply in_ivb in Hi, Hj. unfold lr_at at 1. rewrite E by (subst rt rs; lia).
      f_equal; [unfold lr_at, lr_entry; rewrite Hk; reflexivity|]. rewrite win_prod. unfold lr_in, lr_at, lr_entry, win.
      replace (c_off Yt + (i - c_off Yt))%nat with i by lia. replace (c_off Ys + (j - c_off Ys))%nat with j by lia. reflexivity. }
    assert (REC : forall U V, wf_lrm (mkLrm U V) rt rs -> lrank (mkLrm U V) = (lrank Y + lrank X)%nat -> lrank Y <> 0%nat ->
      (forall i j, in_iv i (interval Yt) = true -> in_iv j (interval Ys) = true ->
        lr_at (mkLrm U V) Yt Ys i j = lr_at Y Yt Ys i j + lr_in X Xt Xs i j) ->
      exists L, Some (recompress (mkLrm U V)) = Some L /\ wf_lrm L rt rs /\ (1 <= lrank X -> 1 <= lrank L)%nat /\ (1 <= lrank Y -> 1 <= lrank L)%nat /\
        forall i j, in_iv i (interval Yt) = true -> in_iv j (interval Ys) = true -> lr_at L Yt Ys i j = lr_at Y Yt Ys i j + lr_in X Xt Xs i j).
    { intros U V W Q HY E. destruct (HR (mkLrm U V) rt rs HYt HYs W) as (R1 & R2 & R3); [lia|]. eexists. split; [reflexivity|]. split; [exact R1|].
      split; [intros _; exact R2|]. split; [intros _; exact R2|]. intros i j Hi Hj. rewrite <- E by assumption. apply in_ivb in Hi, Hj. unfold lr_at. apply R3; subst rt rs; lia. }
    assert (NOREC : forall U V, wf_lrm (mkLrm U V) rt rs -> lrank (mkLrm U V) = (lrank Y + lrank X)%nat ->
      (forall i j, in_iv i (interval Yt) = true -> in_iv j (interval Ys) = true ->
        lr_at (mkLrm U V) Yt Ys i j = lr_at Y Yt Ys i j + lr_in X Xt Xs i j) ->
      exists L, Some (mkLrm U V) = Some L /\ wf_lrm L rt rs /\ (1 <= lrank X -> 1 <= lrank L)%nat /\ (1 <= lrank Y -> 1 <= lrank L)%nat /\
        forall i j, in_iv i (interval Yt) = true -> in_iv j (interval Ys) = true -> lr_at L Yt Ys i j = lr_at Y Yt Ys i j + lr_in X Xt Xs i j).
    { intros U V W Q E. eexists. split; [reflexivity|]. split; [exact W|]. split; [lia|]. split; [lia|]. exact E. }
    destruct (contains Yt Xt && contains Ys Xs) eqn:C1.
    - apply andb_true_iff in C1. destruct C1 as [C1 C2]. apply contains_iff in C1, C2. fold rt in C1. fold rs in C2.
      destruct (Nat.eqb_spec (lrank Y) 0) as [Y0|Y0].
      + destruct (copy_block_ok K (lU X) 0 0 (c_size Xt) (lrank X) (zeros K rt (lrank X)) (c_off Xt - c_off Yt) 0) as (U & U1 & U2 & U3); cbn [zeros mkMat mr mc]; try lia.
        rewrite U1. cbn [zeros mkMat mr mc] in U2, U3.
        destruct (copy_block_ok K (lV X) 0 0 (lrank X) (c_size Xs) (zeros K (lrank X) rs) 0 (c_off Xs - c_off Ys)) as (V & V1 & V2 & V3); cbn [zeros mkMat mr mc]; try lia.
        rewrite V1. cbn [zeros mkMat mr mc] in V2, V3.
        destruct (FIN U V 0%nat) as (W & Q & E); [exact U2|exact V2|congruence| | |apply NOREC; [exact W|rewrite Q; lia|exact E]].
        * intros i j Hi Hj. cbn [Nat.add] in Hj. rewrite U3 by lia. zlt.
          destruct (in_iv (c_off Yt + i) (interval Xt)) eqn:Ei; [apply in_ivb in Ei|apply in_ivF in Ei].
          -- destruct (Nat.leb_spec (c_off Xt - c_off Yt) i); [|lia]. destruct (Nat.ltb_spec i (c_off Xt - c_off Yt + c_size Xt)); [|lia].
             destruct (Nat.ltb_spec j (lrank X)); [|lia]. cbn [andb]. f_equal; lia.
          -- replace ((c_off Xt - c_off Yt <=? i) && (i <? c_off Xt - c_off Yt + c_size Xt))%nat with false; [apply zeros_me|].
             symmetry. apply andb_false_iff. destruct (Nat.leb_spec (c_off Xt - c_off Yt) i); [right|left; reflexivity]. apply Nat.ltb_ge. lia.
        * intros i j Hi Hj. cbn [Nat.add] in Hi. rewrite V3 by lia. zlt.
          destruct (Nat.ltb_spec i (lrank X)); [|lia]. cbn [andb].
          destruct (in_iv (c_off Ys + j) (interval Xs)) eqn:Ei; [apply in_ivb in Ei|apply in_ivF in Ei].
          -- destruct (Nat.leb_spec (c_off Xs - c_off Ys) j); [|lia]. destruct (Nat.ltb_spec j (c_off Xs - c_off Ys + c_size Xs)); [|lia].
             cbn [andb]. f_equal; lia.
          -- replace ((c_off Xs - c_off Ys <=? j) && (j <? c_off Xs - c_off Ys + c_size Xs))%nat with false; [apply zeros_me|].
             symmetry. apply andb_false_iff. destruct (Nat.leb_spec (c_off Xs - c_off Ys) j); [right|left; reflexivity]. apply Nat.ltb_ge. lia.
      + destruct (copy_block_ok K (lU Y) 0 0 rt (lrank Y) (zeros K rt (lrank X + lrank Y)) 0 0) as (U0 & A1 & A2 & A3); cbn [zeros mkMat mr mc]; try lia.
        rewrite A1. cbn [zeros mkMat mr mc] in A2, A3. destruct A2 as (A21 & A22 & _).
        destruct (copy_block_ok K (lU X) 0 0 (c_size Xt) (lrank X) U0 (c_off Xt - c_off Yt) (lrank Y)) as (U & U1 & U2 & U3); try lia.
        rewrite U1. rewrite A21, A22 in U2, U3.
        destruct (copy_block_ok K (lV Y) 0 0 (lrank Y) rs (zeros K (lrank Y + lrank X) rs) 0 0) as (V0 & B1 & B2 & B3); cbn [zeros mkMat mr mc]; try lia.
        rewrite B1. cbn [zeros mkMat mr mc] in B2, B3. destruct B2 as (B21 & B22 & _).
        destruct (copy_block_ok K (lV X) 0 0 (lrank X) (c_size Xs) V0 (lrank Y) (c_off Xs - c_off Ys)) as (V & V1 & V2 & V3); try lia.
        rewrite V1. rewrite B21, B22 in V2, V3.
        destruct (FIN U V (lrank Y)) as (W & Q & E); [rewrite Nat.add_comm; exact U2|exact V2|reflexivity| | |apply REC; assumption].
        * intros i j Hi Hj. rewrite U3 by lia. rewrite A3 by lia. cbn [Nat.add]. unfold win.
          destruct (Nat.leb_spec 0 i); [|lia]. destruct (Nat.leb_spec 0 j); [|lia]. destruct (Nat.ltb_spec i rt); [|lia]. cbn [andb].
          destruct (Nat.ltb_spec j (lrank Y)); destruct (Nat.leb_spec (lrank Y) j); try lia; rewrite ?andb_false_r; cbn [andb].
          -- f_equal; lia.
          -- destruct (Nat.ltb_spec j (lrank Y + lrank X)); [|lia]. rewrite !andb_true_r.
             destruct (in_iv (c_off Yt + i) (interval Xt)) eqn:Ei; [apply in_ivb in Ei|apply in_ivF in Ei].
             ++ destruct (Nat.leb_spec (c_off Xt - c_off Yt) i); [|lia]. destruct (Nat.ltb_spec i (c_off Xt - c_off Yt + c_size Xt)); [|lia].
                cbn [andb]. f_equal; lia.
             ++ replace ((c_off Xt - c_off Yt <=? i) && (i <? c_off Xt - c_off Yt + c_size Xt))%nat with false; [apply zeros_me|].
                symmetry. apply andb_false_iff. destruct (Nat.leb_spec (c_off Xt - c_off Yt) i); [right|left; reflexivity]. apply Nat.ltb_ge. lia.
        * intros i j Hi Hj. rewrite V3 by lia. rewrite B3 by lia. cbn [Nat.add]. unfold win.
          destruct (Nat.leb_spec 0 i); [|lia]. destruct (Nat.leb_spec 0 j); [|lia]. destruct (Nat.ltb_spec j rs); [|lia]. cbn [andb]. rewrite !andb_true_r.
          destruct (Nat.ltb_spec i (lrank Y)); destruct (Nat.leb_spec (lrank Y) i); try lia; cbn [andb].
          -- f_equal; lia.
          -- destruct (Nat.ltb_spec i (lrank Y + lrank X)); [|lia]. cbn [andb].
             destruct (in_iv (c_off Ys + j) (interval Xs)) eqn:Ei; [apply in_ivb in Ei|apply in_ivF in Ei].
             ++ destruct (Nat.leb_spec (c_off Xs - c_off Ys) j); [|lia]. destruct (Nat.ltb_spec j (c_off Xs - c_off Ys + c_size Xs)); [|lia].
                cbn [andb]. f_equal; lia.
             ++ replace ((c_off Xs - c_off Ys <=? j) && (j <? c_off Xs - c_off Ys + c_size Xs))%nat with false; [apply zeros_me|].
                symmetry. apply andb_false_iff. destruct (Nat.leb_spec (c_off Xs - c_off Ys) j); [right|left; reflexivity]. apply Nat.ltb_ge. lia.
    - destruct HC as [[D1 D2]|[D1 D2]]; [rewrite D1, D2 in C1; discriminate|]. rewrite D1, D2. cbn [andb].
      apply contains_iff in D1, D2. fold rt in D1. fold rs in D2.
      assert (IT : forall i, (i < rt)%nat -> in_iv (c_off Yt + i) (interval Xt) = true) by (intros i Hi; apply in_ivb; lia).
      assert (IS : forall i, (i < rs)%nat -> in_iv (c_off Ys + i) (interval Xs) = true) by (intros i Hi; apply in_ivb; lia).
      destruct (Nat.eqb_spec (lrank Y) 0) as [Y0|Y0].
      + destruct (copy_block_ok K (lU X) (c_off Yt - c_off Xt) 0 rt (lrank X) (zeros K rt (lrank X)) 0 0) as (U & U1 & U2 & U3); cbn [zeros mkMat mr mc]; try lia.
        rewrite U1. cbn [zeros mkMat mr mc] in U2, U3.
        destruct (copy_block_ok K (lV X) 0 (c_off Ys - c_off Xs) (lrank X) rs (zeros K (lrank X) rs) 0 0) as (V & V1 & V2 & V3); cbn [zeros mkMat mr mc]; try lia.
        rewrite V1. cbn [zeros mkMat mr mc] in V2, V3.
        destruct (FIN U V 0%nat) as (W & Q & E); [exact U2|exact V2|congruence| | |apply NOREC; [exact W|rewrite Q; lia|exact E]].
        * intros i j Hi Hj. cbn [Nat.add] in Hj. rewrite U3 by lia. zlt. rewrite IT by exact Hi.
          destruct (Nat.ltb_spec i rt); [|lia]. destruct (Nat.ltb_spec j (lrank X)); [|lia]. cbn [andb]. f_equal; lia.
        * intros i j Hi Hj. cbn [Nat.add] in Hi. rewrite V3 by lia. zlt. rewrite IS by exact Hj.
          destruct (Nat.ltb_spec i (lrank X)); [|lia]. destruct (Nat.ltb_spec j rs); [|lia]. cbn [andb]. f_equal; lia.
      + destruct (copy_block_ok K (lU Y) 0 0 rt (lrank Y) (zeros K rt (lrank X + lrank Y)) 0 0) as (U0 & A1 & A2 & A3); cbn [zeros mkMat mr mc]; try lia.
        rewrite A1. cbn [zeros mkMat mr mc] in A2, A3. destruct A2 as (A21 & A22 & _).
        destruct (copy_block_ok K (lU X) (c_off Yt - c_off Xt) 0 rt (lrank X) U0 0 (lrank Y)) as (U & U1 & U2 & U3); try lia.
        rewrite U1. rewrite A21, A22 in U2, U3.
        destruct (copy_block_ok K (lV Y) 0 0 (lrank Y) rs (zeros K (lrank Y + lrank X) rs) 0 0) as (V0 & B1 & B2 & B3); cbn [zeros mkMat mr mc]; try lia.
        rewrite B1. cbn [zeros mkMat mr mc] in B2, B3. destruct B2 as (B21 & B22 & _).
        destruct (copy_block_ok K (lV X) 0 (c_off Ys - c_off Xs) (lrank X) rs V0 (lrank Y) 0) as (V & V1 & V2 & V3); try lia.
        rewrite V1. rewrite B21, B22 in V2, V3.
        destruct (FIN U V (lrank Y)) as (W & Q & E); [rewrite Nat.add_comm; exact U2|exact V2|reflexivity| | |apply REC; assumption].
        * intros i j Hi Hj. rewrite U3 by lia. rewrite A3 by lia. cbn [Nat.add]. unfold win. rewrite IT by exact Hi.
          destruct (Nat.leb_spec 0 i); [|lia]. destruct (Nat.leb_spec 0 j); [|lia]. destruct (Nat.ltb_spec i rt); [|lia]. cbn [andb].
          destruct (Nat.ltb_spec j (lrank Y)); destruct (Nat.leb_spec (lrank Y) j); try lia; cbn [andb].
          -- f_equal; lia.
          -- destruct (Nat.ltb_spec j (lrank Y + lrank X)); [|lia]. f_equal; lia.
        * intros i j Hi Hj. rewrite V3 by lia. rewrite B3 by lia. cbn [Nat.add]. unfold win. rewrite IS by exact Hj.
          destruct (Nat.leb_spec 0 i); [|lia]. destruct (Nat.leb_spec 0 j); [|lia]. destruct (Nat.ltb_spec j rs); [|lia]. cbn [andb]. rewrite !andb_true_r.
          destruct (Nat.ltb_spec i (lrank Y)); destruct (Nat.leb_spec (lrank Y) i); try lia; cbn [andb].
          -- f_equal; lia.
          -- destruct (Nat.ltb_spec i (lrank Y + lrank X)); [|lia]. f_equal; lia.
  Qed.

  (** ** Products *)
  Lemma gemm_R : forall ta A r k f, (1 <= r)%nat -> (1 <= k)%nat -> mat_op ta A r k f ->
    prodR K (fun tb alpha B beta Cm => add_matrix_matrix_product K ta tb alpha A B beta Cm) r k f.
  Proof. intros ta A r k f Hr Hk HA tb alpha B beta Cm c g Hc HB HC. apply gemm_mat_ok; assumption. Qed.
  Lemma gemm_L : forall tb B k c g, (1 <= k)%nat -> (1 <= c)%nat -> mat_op tb B k c g ->
    prodL K (fun ta alpha A beta Cm => add_matrix_matrix_product K ta tb alpha A B beta Cm) k c g.
  Proof. intros tb B k c g Hk Hc HB ta alpha A beta Cm r f Hr HA HC. apply gemm_mat_ok; assumption. Qed.

  Lemma mat_op_dims : forall t (A : mat K) r c f, mat_op t A r c f ->
    (if is_N t then mr A else mc A) = r /\ (if is_N t then mc A else mr A) = c.
  Proof. intros t A r c f [(H1 & H2 & _) _]. destruct t; cbn [is_N] in *; auto. Qed.

  (** Specification of a product into a dense matrix, into a low-rank matrix. *)
  Definition dense_prod (out : option (mat K)) (alpha beta : C) (Cm : mat K) (r k c : nat) (f g : nat -> nat -> C) : Prop :=
    exists C', out = Some C' /\ wf_mat C' r c /\
      forall i j, (i < r)%nat -> (j < c)%nat -> me C' i j = beta * me Cm i j + alpha * sum k (fun l => f i l * g l j).
  Definition lr_prod (out : option (lrm K)) (alpha beta : C) (L : lrm K) (r k c : nat) (f g : nat -> nat -> C) : Prop :=
    exists L', out = Some L' /\ lr_op TrN L' r c (fun i j => beta * lr_entry L i j + alpha * sum k (fun l => f i l * g l j)).

  Section Cases.
    Variables (ta tb : trans) (alpha beta : C) (r k c : nat) (f g : nat -> nat -> C).
    Hypothesis Hr : (1 <= r)%nat.
    Hypothesis Hk : (1 <= k)%nat.
    Hypothesis Hc : (1 <= c)%nat.

    Lemma dd_dense : forall A B Cm, mat_op ta A r k f -> mat_op tb B k c g -> wf_mat Cm r c ->
      dense_prod (add_matrix_matrix_product K ta tb alpha A B beta Cm) alpha beta Cm r k c f g.
    Proof. intros A B Cm HA HB HC. apply gemm_mat_ok; assumption. Qed.
    Lemma dl_dense : forall A B Cm, mat_op ta A r k f -> lr_op tb B k c g -> wf_mat Cm r c ->
      dense_prod (add_matrix_lrmat_product_dense K ta tb alpha A B beta Cm) alpha beta Cm r k c f g.
    Proof.
      intros A B Cm HA HB HC. unfold add_matrix_lrmat_product_dense. destruct (mat_op_dims _ _ _ _ _ HA) as [-> _].
      apply times_lr_dense_ok; try assumption. apply gemm_R; assumption.
    Qed.
    Lemma ld_dense : forall A B Cm, lr_op ta A r k f -> mat_op tb B k c g -> wf_mat Cm r c ->
      dense_prod (add_lrmat_matrix_product_dense K ta tb alpha A B beta Cm) alpha beta Cm r k c f g.
    Proof.
      intros A B Cm HA HB HC. unfold add_lrmat_matrix_product_dense. destruct (mat_op_dims _ _ _ _ _ HB) as [_ ->].
      apply lr_times_dense_ok; try assumption. apply gemm_L; assumption.
    Qed.
    Lemma dl_lr : forall A B L, mat_op ta A r k f -> lr_op tb B k c g -> lr_any K L r c ->
      lr_prod (add_matrix_lrmat_product_lr K recompress ta tb alpha A B beta L) alpha beta L r k c f g.
    Proof.
      intros A B Cm HA HB HC. unfold add_matrix_lrmat_product_lr. destruct (mat_op_dims _ _ _ _ _ HA) as [-> _].
      apply times_lr_lr_ok; try assumption. apply gemm_R; assumption.
    Qed.
    Lemma ld_lr : forall A B L, lr_op ta A r k f -> mat_op tb B k c g -> lr_any K L r c ->
      lr_prod (add_lrmat_matrix_product_lr K recompress ta tb alpha A B beta L) alpha beta L r k c f g.
    Proof.
      intros A B Cm HA HB HC. unfold add_lrmat_matrix_product_lr. destruct (mat_op_dims _ _ _ _ _ HB) as [_ ->].
      apply lr_times_lr_ok; try assumption. apply gemm_L; assumption.
    Qed.

    (** low-rank times low-rank: the dense product A U_B, then as a dense matrix times a low-rank matrix *)
    Lemma ll_R : forall A, lr_op ta A r k f ->
      prodR K (fun tb alpha B beta Cm => add_lrmat_matrix_product_dense K ta tb alpha A B beta Cm) r k f.
    Proof.
      intros A HA tb' alpha' B beta' Cm c' g' Hc' HB HC. unfold add_lrmat_matrix_product_dense. destruct (mat_op_dims _ _ _ _ _ HB) as [_ ->].
      apply lr_times_dense_ok; try assumption. apply gemm_L; assumption.
    Qed.
    Lemma ll_dense : forall A B Cm, lr_op ta A r k f -> lr_op tb B k c g -> wf_mat Cm r c ->
      dense_prod (add_lrmat_lrmat_product_dense K ta tb alpha A B beta Cm) alpha beta Cm r k c f g.
    Proof.
      intros A B Cm HA HB HC. pose proof (times_lr_dense_ok K _ r k f Hr Hk (ll_R A HA) tb alpha B beta Cm c g Hc HB HC) as Q.
      unfold dense_prod. unfold times_lr_dense in Q. unfold add_lrmat_lrmat_product_dense.
      destruct HA as (WA & RA & _). destruct HB as ([WU WV] & RB & _).
      destruct (Nat.eqb_spec (lrank A) 0); [lia|]. destruct (Nat.eqb_spec (lrank B) 0); [lia|]. cbn [orb].
      assert (mr Cm = r) as -> by apply HC. assert (mr (lV B) = lrank B) as V1 by apply WV. rewrite V1 in Q |- *. exact Q.
    Qed.
    Lemma ll_lr : forall A B L, lr_op ta A r k f -> lr_op tb B k c g -> lr_any K L r c ->
      lr_prod (add_lrmat_lrmat_product_lr K recompress ta tb alpha A B beta L) alpha beta L r k c f g.
    Proof.
      intros A B L HA HB HC. pose proof HA as HA0. pose proof (times_lr_lr_ok K _ r k f Hr Hk (ll_R A HA) recompress HR tb alpha B beta L c g Hc HB HC) as Q.
      unfold lr_prod. unfold times_lr_lr in Q. unfold add_lrmat_lrmat_product_lr.
      destruct HA as ([WAU WAV] & RA & _). destruct HB as ([WU WV] & RB & _).
      destruct (Nat.eqb_spec (lrank A) 0); [lia|]. destruct (Nat.eqb_spec (lrank B) 0); [lia|]. cbn [orb].
      assert ((if is_N ta then mr (lU A) else mc (lV A)) = r) as ->.
      { destruct WAU as (E1 & _). destruct WAV as (_ & E2 & _). destruct (is_N ta); assumption. }
      assert (mr (lV B) = lrank B) as V1 by apply WV. assert (mc (lU B) = lrank B) as V2 by apply WU.
      rewrite V1, V2 in *. destruct (if is_N tb then Some (lV B) else transposed K (is_C tb) (lU B)) as [right|]; [|exact Q].
      destruct (overwritten K beta L) eqn:Eo; [exact Q|].
      assert (WL : wf_lrm L r c). { unfold overwritten in Eo. apply orb_false_iff in Eo. destruct Eo as [_ Eo]. apply Nat.eqb_neq in Eo. destruct HC; [congruence|assumption]. }
      destruct WL as [WLU WLV]. assert (mr (lU L) = r) as -> by apply WLU.
      assert (X : (if is_N tb then lrank B else lrank B) = lrank B) by (destruct (is_N tb); reflexivity). rewrite X in Q.
      destruct (mat_scale K beta (lV L)) as [VC|]; [|destruct Q as (? & ? & _); discriminate].
      destruct (vcat K (mc VC) right VC) as [V|]; [|destruct Q as (? & ? & _); discriminate].
      destruct (add_lrmat_matrix_product_dense K ta tb alpha A (if is_N tb then lU B else lV B) 0 (zeros K r (lrank B))) as [AU|] eqn:EA; [|exact Q].
      assert (mr AU = r) as QA.
      { destruct (ll_R A) with (tb := tb) (alpha := alpha) (B := if is_N tb then lU B else lV B) (beta := 0) (Cm := zeros K r (lrank B)) (c := lrank B)
          (g := op_fun tb (me (if is_N tb then lU B else lV B))) as (C' & E1 & E2 & _).
        - exact HA0.
        - exact RB.
        - split; [destruct tb; assumption|reflexivity].
        - apply zeros_wf.
        - rewrite EA in E1. injection E1 as <-. apply E2. }
      rewrite QA in Q. exact Q.
    Qed.

    Variable svd_factors : mat K -> lrm K.
    Hypothesis HS : exact_svd svd_factors.

    Lemma add_svd_ok : forall AB L, wf_mat AB r c -> lr_any K L r c ->
      exists L', add_svd K recompress svd_factors AB beta L = Some L' /\ lr_op TrN L' r c (fun i j => beta * lr_entry L i j + me AB i j).
    Proof.
      intros AB L WAB WL. unfold add_svd. destruct (HS AB r c Hr Hc WAB) as ([RU RV] & R2 & R3).
      destruct (overwritten K beta L) eqn:Eo.
      - eexists. split; [reflexivity|]. split; [split; assumption|]. split; [exact R2|]. intros i j Hi Hj. rewrite R3 by assumption.
        assert (beta * lr_entry L i j = 0) as ->; [|ring]. unfold overwritten in Eo. apply orb_true_iff in Eo. destruct Eo as [Eo|Eo].
        + destruct (ceqb_spec K beta 0) as [->|]; [ring|discriminate].
        + apply Nat.eqb_eq in Eo. rewrite lr_entry_0 by exact Eo. ring.
      - unfold overwritten in Eo. apply orb_false_iff in Eo. destruct Eo as [_ Eo]. apply Nat.eqb_neq in Eo.
        destruct WL as [WL|[WLU WLV]]; [congruence|]. cbn [is_N] in RU, RV.
        assert (mr (lU (svd_factors AB)) = r) as -> by apply RU.
        destruct (hcat_ok K _ (lU L) r _ _ RU WLU) as (U & U1 & U2 & U3). rewrite U1.
        destruct (mat_scale_ok K beta _ _ _ WLV) as (VC & S1 & S2 & S3). rewrite S1.
        assert (mc VC = c) as -> by apply S2.
        destruct (vcat_ok K _ VC c _ _ RV S2) as (V & V1 & V2 & V3). rewrite V1.
        eexists. split; [reflexivity|].
        destruct (concat_lr K U _ (lU L) V _ VC r c _ _ RU WLU RV S2 U2 V2 U3 V3) as [Wn En].
        destruct (HR (mkLrm U V) r c Hr Hc Wn) as (Q1 & Q2 & Q3).
        { unfold lrank. cbn [lU]. destruct U2 as (_ & -> & _). lia. }
        split; [exact Q1|]. split; [exact Q2|]. intros i j Hi Hj. rewrite Q3 by assumption. rewrite En by assumption.
        rewrite <- R3 by assumption. cbn [op_fun].
        replace (beta * lr_entry L i j) with (sum (lrank L) (fun q => me (lU L) i q * me VC q j)); [unfold lr_entry; ring|].
        unfold lr_entry. rewrite <- sum_mul_l. apply sum_ext. intros q Hq. rewrite S3 by assumption. ring.
    Qed.
    Lemma dd_lr : forall A B L, mat_op ta A r k f -> mat_op tb B k c g -> lr_any K L r c ->
      lr_prod (add_matrix_matrix_product_lr K recompress svd_factors ta tb alpha A B beta L) alpha beta L r k c f g.
    Proof.
      intros A B L HA HB HL. unfold add_matrix_matrix_product_lr. destruct (mat_op_dims _ _ _ _ _ HA) as [-> _]. destruct (mat_op_dims _ _ _ _ _ HB) as [_ ->].
      destruct (gemm_mat_ok K ta tb alpha A B beta (zeros K r c) r k c f g) as (AB & E1 & E2 & E3); try assumption; [apply zeros_wf|].
      rewrite E1. destruct (add_svd_ok AB L E2 HL) as (L' & F1 & F2 & F3 & F4). exists L'. split; [exact F1|]. split; [exact F2|]. split; [exact F3|].
      intros i j Hi Hj. rewrite F4 by assumption. rewrite E3 by assumption. rewrite zeros_me. ring.
    Qed.
  End Cases.
End P.
