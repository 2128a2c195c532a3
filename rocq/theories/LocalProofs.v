(** * Local solvers: proofs. *)

From Coq Require Import List Arith ZArith Bool Lia Permutation Ring.
From Verif Require Import ClusterModel ClusterSpec ClusterMore IOModel IOSpec BlockModel BlockSpec Algebra BlasModel BlasProofs HMatModel HMatSpec
  Field DenseModel DenseSpec DenseProofs DenseLU DistModel DistMat ArithModel ArithSpec ArithDense ArithTree
  HFactModel HFactSpec HFactSubst HFactSolve HFactHH HFactTri HFactLU HFactRenum LocalModel LocalSpec.
Import ListNotations.

Section Buffers.
  Variable F : Fld.
  Notation K := (fk F).
  Notation C := (car K).
  Add Ring LPr : (c_ring K).
  Notation "a * b" := (cmul K a b).
  Notation "0" := (c0 K).
  Notation "1" := (c1 K).
  Notation mat := (mat K).

  Lemma copy_columns_ok : forall mu n src so lds dst d0 ldd, (n <= ldd)%nat ->
    (forall j, (j < mu)%nat -> (so + j * lds + n <= length src)%nat) -> (forall j, (j < mu)%nat -> (d0 + j * ldd + n <= length dst)%nat) ->
    exists d, copy_columns F mu n src so lds dst d0 ldd = Some d /\ length d = length dst /\
      (forall i j, (i < n)%nat -> (j < mu)%nat -> get d (d0 + j * ldd + i)%nat = get src (so + j * lds + i)%nat) /\
      (forall k, (forall i j, (i < n)%nat -> (j < mu)%nat -> k <> (d0 + j * ldd + i)%nat) -> get d k = get dst k).
  Proof.
    intros mu n src so lds dst d0 ldd Hn HS HD. unfold copy_columns.
    destruct (fold_o_inv (fun i d => write_at K d (d0 + i * ldd) 0 (fun w => do x <- ptr K src (so + i * lds); copy_n K x n w))
      (fun pre d => length d = length dst /\ (forall i j, (i < n)%nat -> In j pre -> get d (d0 + j * ldd + i)%nat = get src (so + j * lds + i)%nat) /\
         (forall k, (forall i j, (i < n)%nat -> In j pre -> k <> (d0 + j * ldd + i)%nat) -> get d k = get dst k)) (seq 0 mu)) with (b := dst) as (d & -> & L & V & O).
    - intros pre m post d E (L & V & O).
      assert (Hm : (m < mu)%nat) by (assert (In m (seq 0 mu)) as Q by (rewrite E; apply in_elt); apply in_seq in Q; lia).
      assert (Hnd : ~ In m pre). { assert (ND : NoDup (seq 0 mu)) by apply seq_NoDup. rewrite E in ND. apply NoDup_remove_2 in ND. intros Q. apply ND, in_or_app. left. exact Q. }
      specialize (HS m Hm). specialize (HD m Hm).
      destruct (copy_n_ok K (skipn (so + m * lds) src) n (skipn (d0 + m * ldd) d)) as (w & W1 & W2 & W3); [rewrite skipn_length; lia|rewrite skipn_length; lia|].
      rewrite skipn_length in W2.
      destruct (write_at_0 K d (d0 + m * ldd) (fun w => do x <- ptr K src (so + m * lds); copy_n K x n w) w) as (d' & X1 & X2 & X3 & X4); [lia| |exact W2|].
      { unfold ptr. destruct (Nat.leb_spec (so + m * lds) (length src)); [exact W1|lia]. }
      exists d'. split; [exact X1|]. split; [lia|]. split.
      + intros i j Hi Hj. apply in_app_or in Hj. destruct Hj as [Hj|[->|[]]].
        * rewrite <- (V i j Hi Hj). assert (j <> m) by (intros ->; contradiction). destruct (Nat.lt_ge_cases (d0 + j * ldd + i) (d0 + m * ldd)) as [Q|Q]; [apply X3, Q|].
          replace (d0 + j * ldd + i)%nat with (d0 + m * ldd + (d0 + j * ldd + i - (d0 + m * ldd)))%nat by lia. rewrite X4, W3, !get_skipn.
          destruct (Nat.ltb_spec (d0 + j * ldd + i - (d0 + m * ldd)) n) as [Q'|Q']; [exfalso; nia|reflexivity].
        * rewrite X4, W3, !get_skipn. destruct (Nat.ltb_spec i n); [reflexivity|lia].
      + intros k Hk. rewrite <- O by (intros i j Hi Hj; apply Hk; [exact Hi|apply in_or_app; left; exact Hj]).
        destruct (Nat.lt_ge_cases k (d0 + m * ldd)) as [Q|Q]; [apply X3, Q|].
        replace k with (d0 + m * ldd + (k - (d0 + m * ldd)))%nat by lia. rewrite X4, W3, !get_skipn.
        destruct (Nat.ltb_spec (k - (d0 + m * ldd)) n) as [Q'|Q']; [|reflexivity].
        exfalso. apply (Hk (k - (d0 + m * ldd))%nat m Q'); [apply in_or_app; right; left; reflexivity|lia].
    - split; [reflexivity|]. split; [intros i j _ []|reflexivity].
    - exists d. split; [reflexivity|]. split; [exact L|]. split.
      + intros i j Hi Hj. apply V; [exact Hi|apply in_seq; lia].
      + intros k Hk. apply O. intros i j Hi Hj. apply in_seq in Hj. apply Hk; [exact Hi|lia].
  Qed.

  (** A solver on matrices: for every right-hand side. *)
  Definition solver (n mu : nat) (A : nat -> nat -> C) (f : mat -> option mat) : Prop :=
    forall B, wf_mat B n mu -> exists X, f B = Some X /\ wf_mat X n mu /\ is_solution (F := F) SdL TrN A 1 n mu (me B) (me X).

  Lemma through_view_ok : forall f n mu A b, solver n mu A f -> (n * mu <= length b)%nat ->
    exists x, through_view F f n mu b = Some x /\ solved n mu A b b x.
  Proof.
    intros f n mu A b HF Hb. unfold through_view. destruct (Nat.leb_spec (n * mu) (length b)); [|lia].
    destruct (HF (mkMat n mu (firstn (n * mu) b))) as (X & -> & (X1 & X2 & X3) & HS). { split; [reflexivity|]. split; [reflexivity|]. cbn [md mkMat]. rewrite firstn_length. lia. }
    exists (md X ++ skipn (n * mu) b). split; [reflexivity|]. split; [|split].
    - rewrite app_length, skipn_length, X3. lia.
    - intros i j Hi Hj. specialize (HS i j Hi Hj). cbn beta iota in HS. unfold entry. change (nth (i + j * n) b (c0 K)) with (get b (i + j * n)%nat).
      assert (P : forall k, (k < n)%nat -> (k + j * n < n * mu)%nat) by (intros k Hk; nia).
      transitivity (1 * me (mkMat (K := K) n mu (firstn (n * mu) b)) i j).
      2:{ unfold me. cbn [md mr mkMat]. rewrite get_firstn. destruct (Nat.ltb_spec (i + j * n) (n * mu)) as [_|Q]; [ring|specialize (P i Hi); lia]. }
      rewrite <- HS. apply sum_ext. intros k Hk. cbn [op_fun]. f_equal. unfold me. rewrite X1. change (get (md X ++ skipn (n * mu) b) (k + j * n)%nat = get (md X) (k + j * n)%nat).
      rewrite get_app, X3. destruct (Nat.ltb_spec (k + j * n) (n * mu)) as [_|Q]; [reflexivity|specialize (P k Hk); lia].
    - intros k Hk. change (get (md X ++ skipn (n * mu) b) k = get b k). rewrite get_app, X3. destruct (Nat.ltb_spec k (n * mu)); [lia|]. rewrite get_skipn. f_equal. lia.
  Qed.
  Lemma into_view_ok : forall f n mu A b x0 m, m = (n * mu)%nat -> solver n mu A f -> (n * mu <= length b)%nat -> (n * mu <= length x0)%nat ->
    exists x, (do x1 <- copy_n K b m x0; through_view F f n mu x1) = Some x /\ solved n mu A b x0 x.
  Proof.
    intros f n mu A b x0 m -> HF Hb Hx. destruct (copy_n_ok K b (n * mu) x0 Hb Hx) as (x1 & -> & L & V).
    destruct (through_view_ok f n mu A x1 HF) as (x & E & S1 & S2 & S3); [lia|]. exists x. split; [exact E|]. split; [congruence|]. split.
    - intros i j Hi Hj. rewrite S2 by assumption. unfold entry. change (get x1 (i + j * n) = get b (i + j * n)). rewrite V. destruct (Nat.ltb_spec (i + j * n) (n * mu)); [reflexivity|nia].
    - intros k Hk. rewrite S3 by exact Hk. change (get x1 k = get x0 k). rewrite V. destruct (Nat.ltb_spec k (n * mu)); [lia|reflexivity].
  Qed.
End Buffers.

(** ** The solves in user numbering *)
Section Permuted.
  Variable F : Fld.
  Notation K := (fk F).
  Notation C := (car K).
  Add Ring LPp : (c_ring K).
  Notation "a * b" := (cmul K a b).
  Notation "0" := (c0 K).
  Notation "1" := (c1 K).
  Notation mat := (mat K).
  Notation hmat := (rtree (hinfo K)).
  Notation hv := rt_val.
  Variable parts : ctree -> list ctree.
  Variables (N : nat) (perm : list nat) (c : ctree).
  Let off := c_off c.
  Let n := c_size c.
  Hypothesis Hp : Permutation perm (seq 0 N).
  Hypothesis Hb : (off + n <= N)%nat.
  Hypothesis Hloc : Permutation (slice off n perm) (seq off n).
  Notation uidx := (uidx perm c).

  Lemma columns_renumbered_ok : forall ren (rel : (nat -> C) -> (nat -> C) -> Prop),
    (forall f f' g g', (forall j, (j < n)%nat -> f j = f' j) -> (forall j, (j < n)%nat -> g j = g' j) -> rel f g -> rel f' g') ->
    (forall x out, (n <= length x)%nat -> (n <= length out)%nat ->
      exists y, ren off n perm x out = Some y /\ length y = length out /\ rel (get x) (get y) /\ (forall j, (n <= j)%nat -> get y j = get out j)) ->
    forall q inp out, (n * q <= length inp)%nat -> (n * q <= length out)%nat ->
      exists r, columns_renumbered F perm ren c q inp out = Some r /\ length r = length out /\
        (forall k, (k < q)%nat -> rel (fun j => get inp (j + k * n)%nat) (fun j => get r (j + k * n)%nat)) /\ (forall k, (n * q <= k)%nat -> get r k = get out k).
  Proof.
    intros ren rel Hext Hren q inp out LI LO. unfold columns_renumbered. fold off n.
    destruct (fold_o_inv (fun i d => write_at K d (n * i) 0 (fun w => do x <- ptr K inp (n * i); ren off n perm x w))
      (fun pre d => length d = length out /\ (forall k, In k pre -> rel (fun j => get inp (n * k + j)) (fun j => get d (n * k + j))) /\ (forall k, (n * q <= k)%nat -> get d k = get out k)) (seq 0 q)) with (b := out) as (d & -> & Ld & Hd & Hr).
    - intros pre i post d E (Ld & Hd & Hr).
      assert (Hi : (i < q)%nat) by (assert (In i (seq 0 q)) as Q by (rewrite E; apply in_elt); apply in_seq in Q; lia).
      assert (Hnd : ~ In i pre). { assert (ND : NoDup (seq 0 q)) by apply seq_NoDup. rewrite E in ND. apply NoDup_remove_2 in ND. intros Q. apply ND, in_or_app. left. exact Q. }
      assert (Hin : forall k, In k pre -> (k < q)%nat) by (intros k Hk; assert (In k (seq 0 q)) as Q by (rewrite E; apply in_or_app; left; exact Hk); apply in_seq in Q; lia).
      assert (HM : (n * i + n <= n * q)%nat) by nia.
      destruct (Hren (skipn (n * i) inp) (skipn (n * i) d)) as (w & E1 & E2 & E3 & E4); [rewrite skipn_length; lia|rewrite skipn_length; lia|].
      rewrite skipn_length in E2.
      destruct (write_at_0 K d (n * i) (fun w => do x <- ptr K inp (n * i); ren off n perm x w) w) as (d' & W1 & W2 & W3 & W4); [lia| |exact E2|].
      { unfold ptr. destruct (Nat.leb_spec (n * i) (length inp)); [|lia]. exact E1. }
      exists d'. split; [exact W1|]. split; [lia|]. split.
      + intros k Hk. apply in_app_or in Hk. destruct Hk as [Hk|[->|[]]].
        * eapply Hext; [| |apply (Hd k Hk)]; intros j Hj; cbn beta; [reflexivity|]. symmetry. pose proof (Hin k Hk) as Hkq. assert (k <> i) by (intros ->; contradiction).
          destruct (Nat.lt_trichotomy k i) as [Hl|[?|Hl]]; [|lia|].
          -- apply W3. nia.
          -- replace (n * k + j)%nat with (n * i + (n * (k - i) + j))%nat by nia. rewrite W4, E4, get_skipn by nia. f_equal; nia.
        * eapply Hext; [| |apply E3]; intros j Hj; cbn beta.
          -- apply get_skipn.
          -- symmetry. apply W4.
      + intros k Hk. rewrite <- Hr by exact Hk. replace k with (n * i + (k - n * i))%nat by lia. rewrite W4, E4 by lia. apply get_skipn.
    - split; [reflexivity|]. split; [intros k []|reflexivity].
    - exists d. split; [reflexivity|]. split; [exact Ld|]. split; [|exact Hr].
      intros k Hk. eapply Hext; [| |apply (Hd k ltac:(apply in_seq; lia))]; intros j Hj; rewrite (Nat.mul_comm n k), Nat.add_comm; reflexivity.
  Qed.

  Lemma permuted_ok : forall (f : mat -> option mat) (M Au : nat -> nat -> C) q b x0,
    solver F n q (at_block F c c M) f ->
    (forall a b, (a < n)%nat -> (b < n)%nat -> M (off + a)%nat (off + b)%nat = Au (nth (off + a) perm O) (nth (off + b) perm O)) ->
    (n * q <= length b)%nat -> (n * q <= length x0)%nat ->
    exists x, (do buf <- columns_renumbered F perm (@user_to_cluster C) c q b (repeat 0 (n * q));
               do Y <- f (mkMat n q buf);
               columns_renumbered F perm (@cluster_to_user C) c q (md Y) x0) = Some x /\
      solved n q (fun i j => Au (off + i)%nat (off + j)%nat) b x0 x.
  Proof.
    intros f M Au q b x0 HF HM LB LX.
    destruct (columns_renumbered_ok (@user_to_cluster C) (fun f g => forall j, (j < n)%nat -> g j = f (uidx j))) with (q := q) (inp := b) (out := repeat 0 (n * q)) as (P & -> & WP & VP & _).
    { intros g g' h h' E1 E2 H j Hj. rewrite <- E2, <- E1 by (try (apply (uidx_nth N perm c Hp Hb Hloc)); assumption). apply H, Hj. }
    { intros x out L1 L2. destruct (u2c_long F N perm c Hp Hb Hloc x out L1 L2) as (y & E1 & E2 & E3 & E4). exists y. auto. }
    { exact LB. }
    { rewrite repeat_length. lia. }
    rewrite repeat_length in WP. destruct (HF (mkMat n q P)) as (Y & -> & (Y1 & Y2 & Y3) & SY). { split; [reflexivity|]. split; [reflexivity|]. exact WP. }
    destruct (columns_renumbered_ok (@cluster_to_user C) (fun f g => forall j, (j < n)%nat -> g (uidx j) = f j)) with (q := q) (inp := md Y) (out := x0) as (x & -> & Lx & Vx & Rx).
    { intros g g' h h' E1 E2 H j Hj. rewrite <- E2, <- E1 by (try (apply (uidx_nth N perm c Hp Hb Hloc)); assumption). apply H, Hj. }
    { intros x out L1 L2. destruct (c2u_long F N perm c Hp Hb Hloc x out L1 L2) as (y & E1 & E2 & E3 & E4). exists y. auto. }
    { lia. }
    { exact LX. }
    exists x. split; [reflexivity|]. split; [exact Lx|]. split; [|exact Rx]. intros i j Hi Hj.
    destruct (uidx_inv N perm c Hp Hb Hloc) as (inv & I1 & I2 & I3). fold n in I1, I2, I3.
    pose proof (SY (inv i) j (I1 i Hi) Hj) as Q. cbn beta iota in Q. unfold me at 2 in Q. cbn [md mr mkMat] in Q. rewrite (VP j Hj _ (I1 i Hi)), (I2 i Hi) in Q.
    unfold entry. change (nth (i + j * n) b 0) with (get b (i + j * n)%nat). transitivity (1 * get b (i + j * n)%nat); [|ring]. rewrite <- Q.
    rewrite <- (sum_reindex F n uidx inv); [|intros; apply (uidx_nth N perm c Hp Hb Hloc); assumption|exact I1|exact I2|exact I3].
    apply sum_ext. intros k Hk. change (nth (uidx k + j * n) x 0) with (get x (uidx k + j * n)%nat). rewrite (Vx j Hj k Hk). unfold me. rewrite Y1. f_equal. cbn [op_fun]. unfold at_block. fold off.
    rewrite HM by auto. rewrite <- !(uidx_perm N perm c Hp Hb Hloc) by auto. fold off. rewrite I2 by exact Hi. reflexivity.
  Qed.
End Permuted.
