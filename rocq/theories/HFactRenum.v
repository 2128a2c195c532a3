(** * The solves in user numbering (lu_solve, cholesky_solve): proofs. *)

From Coq Require Import List Arith ZArith Bool Lia Permutation Ring.
From Verif Require Import ClusterModel ClusterSpec ClusterMore IOModel IOSpec BlockModel BlockSpec Algebra BlasModel BlasProofs HMatModel HMatSpec
  Field DenseModel DenseSpec DenseProofs DenseLU DistModel DistMat ArithModel ArithSpec ArithDense ArithTree
  HFactModel HFactSpec HFactSubst HFactSolve HFactHH HFactTri HFactLU.
Import ListNotations.

Section Renum.
  Variable F : Fld.
  Notation K := (fk F).
  Notation C := (car K).
  Add Ring HRnr : (c_ring K).
  Notation "a * b" := (cmul K a b).
  Notation "0" := (c0 K).
  Notation "1" := (c1 K).
  Notation mat := (mat K).
  Notation hmat := (rtree (hinfo K)).
  Notation hv := rt_val.
  Variable parts : ctree -> list ctree.

  Variables (N : nat) (perm : list nat) (c : ctree).
  Let off := c_off c.
  Let n := c_size c.
  Hypothesis Hp : Permutation perm (seq 0 N).
  Hypothesis Hb : (off + n <= N)%nat.
  Hypothesis Hloc : Permutation (slice off n perm) (seq off n).

  Definition uidx (j : nat) : nat := (nth (off + j) perm 0 - off)%nat.
  Lemma uidx_nth : forall j, (j < n)%nat -> nth_error perm (off + j) = Some (off + uidx j)%nat /\ (uidx j < n)%nat.
  Proof.
    intros j Hj. destruct (renum_lok N off n perm Hp Hb Hloc j) as (u & Hu & H1 & H2); [lia|]. unfold uidx. rewrite (nth_error_nth _ _ _ Hu).
    replace (off + (u - off))%nat with u by lia. split; [exact Hu|lia].
  Qed.
  Lemma uidx_perm : forall j, (j < n)%nat -> (off + uidx j)%nat = nth (off + j) perm O.
  Proof. intros j Hj. destruct (uidx_nth j Hj) as [H _]. symmetry. apply nth_error_nth, H. Qed.
  Lemma uidx_inv : exists inv, (forall j, (j < n)%nat -> (inv j < n)%nat) /\ (forall j, (j < n)%nat -> uidx (inv j) = j) /\ (forall j, (j < n)%nat -> inv (uidx j) = j).
  Proof.
    exists (fun v => match find (fun j => uidx j =? v) (seq 0 n) with Some j => j | None => O end).
    assert (G : forall v, (v < n)%nat -> exists j, find (fun j => uidx j =? v) (seq 0 n) = Some j /\ (j < n)%nat /\ uidx j = v).
    { intros v Hv. destruct (renum_surj N off n perm Hb Hloc v Hv) as (j & Hj & E). destruct (uidx_nth j Hj) as [E' _]. assert (uidx j = v) by (rewrite E' in E; injection E; lia).
      destruct (find (fun j => uidx j =? v) (seq 0 n)) as [k|] eqn:Ef.
      - apply find_some in Ef. destruct Ef as [I1 I2]. apply in_seq in I1. apply Nat.eqb_eq in I2. exists k. repeat split; auto; lia.
      - exfalso. pose proof (find_none _ _ Ef j ltac:(apply in_seq; lia)) as Q. cbn beta in Q. apply Nat.eqb_neq in Q. contradiction. }
    split; [|split]; intros j Hj.
    - destruct (G j Hj) as (k & -> & H & _). exact H.
    - destruct (G j Hj) as (k & -> & _ & H). exact H.
    - destruct (uidx_nth j Hj) as [E1 H1]. destruct (G _ H1) as (k & -> & Hk & H). destruct (uidx_nth k Hk) as [E2 _].
      apply (renum_inj N off n perm Hp Hb); auto. congruence.
  Qed.

  (** Long buffers: only the first n elements are read, or written. *)
  Lemma u2c_long : forall (x out : list C), (n <= length x)%nat -> (n <= length out)%nat ->
    exists y, user_to_cluster off n perm x out = Some y /\ length y = length out /\
      (forall j, (j < n)%nat -> get y j = get x (uidx j)) /\ (forall j, (n <= j)%nat -> get y j = get out j).
  Proof.
    intros x out Hx Ho. unfold user_to_cluster.
    destruct (gather_spec C perm off x n 0 out) as (r & Hr & HL & H1 & H2); [lia| |].
    { intros j Hj. destruct (uidx_nth j) as [E H]; [lia|]. exists (off + uidx j)%nat. split; [exact E|lia]. }
    exists r. split; [exact Hr|]. split; [exact HL|]. split; intros j Hj.
    - destruct (H1 j) as (u & E & H); [lia|]. destruct (uidx_nth j) as [E' Hu]; [lia|]. rewrite E' in E. injection E as <-. replace (off + uidx j - off)%nat with (uidx j) in H by lia.
      unfold get. rewrite <- !nth_default_eq. unfold nth_default. rewrite H. reflexivity.
    - unfold get. rewrite <- !nth_default_eq. unfold nth_default. rewrite H2 by lia. reflexivity.
  Qed.
  Lemma c2u_long : forall (x out : list C), (n <= length x)%nat -> (n <= length out)%nat ->
    exists y, cluster_to_user off n perm x out = Some y /\ length y = length out /\
      (forall j, (j < n)%nat -> get y (uidx j) = get x j) /\ (forall j, (n <= j)%nat -> get y j = get out j).
  Proof.
    intros x out Hx Ho. unfold cluster_to_user.
    destruct (scatter_spec C perm off x n 0 out) as (r & Hr & HL & H1 & H2); [lia| | |].
    { intros j Hj. destruct (uidx_nth j) as [E H]; [lia|]. exists (off + uidx j)%nat. split; [exact E|lia]. }
    { intros j k Hj Hk. apply (renum_inj N off n perm Hp Hb); lia. }
    exists r. split; [exact Hr|]. split; [exact HL|]. split; intros j Hj.
    - destruct (H1 j) as (u & E & H); [lia|]. destruct (uidx_nth j) as [E' Hu]; [lia|]. rewrite E' in E. injection E as <-. replace (off + uidx j - off)%nat with (uidx j) in H by lia.
      unfold get. rewrite <- !nth_default_eq. unfold nth_default. rewrite H. reflexivity.
    - unfold get. rewrite <- !nth_default_eq. unfold nth_default. rewrite H2; [reflexivity|].
      intros k Hk E. destruct (uidx_nth k) as [E' Hu]; [lia|]. rewrite E' in E. injection E. lia.
  Qed.

  Lemma per_column_ok : forall ren (rel : (nat -> C) -> (nat -> C) -> Prop),
    (forall f f' g g', (forall j, (j < n)%nat -> f j = f' j) -> (forall j, (j < n)%nat -> g j = g' j) -> rel f g -> rel f' g') ->
    (forall x out, (n <= length x)%nat -> (n <= length out)%nat ->
      exists y, ren off n perm x out = Some y /\ length y = length out /\ rel (get x) (get y) /\ (forall j, (n <= j)%nat -> get y j = get out j)) ->
    forall q (inp out : mat), wf_mat inp n q -> wf_mat out n q ->
      exists r, per_column F perm ren c inp out = Some r /\ wf_mat r n q /\ mp r = mp out /\ forall k, (k < q)%nat -> rel (fun j => me inp j k) (fun j => me r j k).
  Proof.
    intros ren rel Hext Hren q inp out (I1 & I2 & I3) (O1 & O2 & O3). unfold per_column. rewrite I2. fold off n.
    destruct (fold_o_inv (fun i d => write_at K d (n * i) 0 (fun w => do x <- ptr K (md inp) (n * i); ren off n perm x w))
      (fun pre d => length d = (n * q)%nat /\ forall k, In k pre -> rel (fun j => get (md inp) (n * k + j)) (fun j => get d (n * k + j))) (seq 0 q)) with (b := md out) as (d & -> & Ld & Hd).
    - intros pre i post d E (Ld & Hd).
      assert (Hi : (i < q)%nat) by (assert (In i (seq 0 q)) as Q by (rewrite E; apply in_elt); apply in_seq in Q; lia).
      assert (Hnd : ~ In i pre). { assert (ND : NoDup (seq 0 q)) by apply seq_NoDup. rewrite E in ND. apply NoDup_remove_2 in ND. intros Q. apply ND, in_or_app. left. exact Q. }
      assert (Hin : forall k, In k pre -> (k < q)%nat) by (intros k Hk; assert (In k (seq 0 q)) as Q by (rewrite E; apply in_or_app; left; exact Hk); apply in_seq in Q; lia).
      assert (HM : (n * i + n <= n * q)%nat) by nia.
      destruct (Hren (skipn (n * i) (md inp)) (skipn (n * i) d)) as (w & E1 & E2 & E3 & E4); [rewrite skipn_length; lia|rewrite skipn_length; lia|].
      rewrite skipn_length in E2.
      destruct (write_at_0 K d (n * i) (fun w => do x <- ptr K (md inp) (n * i); ren off n perm x w) w) as (d' & W1 & W2 & W3 & W4); [lia| |exact E2|].
      { unfold ptr. destruct (Nat.leb_spec (n * i) (length (md inp))); [|lia]. exact E1. }
      exists d'. split; [exact W1|]. split; [lia|]. intros k Hk. apply in_app_or in Hk. destruct Hk as [Hk|[->|[]]].
      + eapply Hext; [| |apply (Hd k Hk)]; intros j Hj; cbn beta; [reflexivity|]. symmetry. pose proof (Hin k Hk) as Hkq. assert (k <> i) by (intros ->; contradiction).
        destruct (Nat.lt_trichotomy k i) as [Hl|[?|Hl]]; [|lia|].
        * apply W3. nia.
        * replace (n * k + j)%nat with (n * i + (n * (k - i) + j))%nat by nia. rewrite W4, E4, get_skipn by nia. f_equal; nia.
      + eapply Hext; [| |apply E3]; intros j Hj; cbn beta.
        * apply get_skipn.
        * symmetry. apply W4.
    - split; [lia|]. intros k [].
    - exists (with_data K out d). split; [reflexivity|]. split; [split; [exact O1|split; [exact O2|exact Ld]]|]. split; [reflexivity|].
      intros k Hk. eapply Hext; [| |apply (Hd k ltac:(apply in_seq; lia))]; intros j Hj; unfold me; cbn [with_data md mr].
      + rewrite I1. f_equal. lia.
      + rewrite O1. f_equal. lia.
  Qed.

  Lemma renumbered_ok : forall (solve : mat -> option mat) t (M Au : nat -> nat -> C) (A : hmat) q (X : mat),
    h_t (hv A) = c -> h_s (hv A) = c ->
    (forall P, wf_mat P n q -> exists P', solve P = Some P' /\ wf_mat P' n q /\ is_solution (F:=F) SdL t (at_block F c c M) 1 n q (me P) (me P')) ->
    (forall a b, (a < n)%nat -> (b < n)%nat -> M (off + a)%nat (off + b)%nat = Au (nth (off + a) perm O) (nth (off + b) perm O)) ->
    wf_mat X n q ->
    exists X', renumbered F perm solve A X = Some X' /\ wf_mat X' n q /\ is_solution (F:=F) SdL t (fun i j => Au (off + i)%nat (off + j)%nat) 1 n q (me X) (me X').
  Proof.
    intros solve t M Au A q X Ht Hs Hsol HMA HX. unfold renumbered. rewrite Hs.
    destruct (per_column_ok user_to_cluster (fun f g => forall j, (j < n)%nat -> g j = f (uidx j))) with (q := q) (inp := X) (out := zeros K (mr X) (mc X)) as (P & -> & WP & _ & VP).
    { intros f f' g g' E1 E2 H j Hj. rewrite <- E2, <- E1 by (try apply uidx_nth; assumption). apply H, Hj. }
    { intros x out L1 L2. destruct (u2c_long x out L1 L2) as (y & E1 & E2 & E3 & E4). exists y. auto. }
    { exact HX. }
    { destruct HX as (-> & -> & _). apply zeros_wf. }
    destruct (Hsol P WP) as (P' & -> & WP' & SP). rewrite Ht.
    destruct (per_column_ok cluster_to_user (fun f g => forall j, (j < n)%nat -> g (uidx j) = f j)) with (q := q) (inp := P') (out := X) as (X' & -> & WX' & _ & VX').
    { intros f f' g g' E1 E2 H j Hj. rewrite <- E2, <- E1 by (try apply uidx_nth; assumption). apply H, Hj. }
    { intros x out L1 L2. destruct (c2u_long x out L1 L2) as (y & E1 & E2 & E3 & E4). exists y. auto. }
    { exact WP'. }
    { exact HX. }
    exists X'. split; [reflexivity|]. split; [exact WX'|]. intros i j Hi Hj. cbn beta iota.
    destruct uidx_inv as (inv & I1 & I2 & I3). pose proof (SP (inv i) j (I1 i Hi) Hj) as Q. cbn beta iota in Q. rewrite (VP j Hj _ (I1 i Hi)), (I2 i Hi) in Q.
    rewrite <- Q. rewrite <- (sum_reindex F n uidx inv); [|intros; apply uidx_nth; assumption|apply I1|apply I2|apply I3].
    apply sum_ext. intros x Hx. rewrite (VX' j Hj x Hx). f_equal.
    assert (G : forall a b, (a < n)%nat -> (b < n)%nat -> Au (off + uidx a)%nat (off + uidx b)%nat = at_block F c c M a b).
    { intros a b Ha Hb'. unfold at_block. fold off. rewrite HMA, !uidx_perm by assumption. reflexivity. }
    rewrite <- (I2 i Hi) at 1. unfold op_fun. destruct t; [|f_equal|]; rewrite G by auto; reflexivity.
  Qed.
End Renum.

Section LUSolve.
  Variable F : Fld.
  Notation K := (fk F).
  Notation C := (car K).
  Add Ring HRns : (c_ring K).
  Notation "a * b" := (cmul K a b).
  Notation "1" := (c1 K).
  Notation mat := (mat K).
  Notation hmat := (rtree (hinfo K)).
  Notation hv := rt_val.
  Variable parts : ctree -> list ctree.

  Lemma internal_lu_solve_ok : forall fuel t (M FL FU : nat -> nat -> C) (A : hmat) q (X : mat),
    let c := h_t (hv A) in let n := c_size c in
    htri parts UpL DgU FL A -> htri parts UpU DgN FU A ->
    (forall a b, inc c a -> inc c b -> M a b = csum c (fun x => FL a x * FU x b)) ->
    (cheight c <= fuel)%nat -> (1 <= q)%nat -> wf_mat X n q ->
    exists Y, internal_lu_solve F parts fuel t A X = Some Y /\ wf_mat Y n q /\ is_solution SdL t (at_block F c c M) 1 n q (me X) (me Y).
  Proof.
    intros fuel t M FL FU A q X c n HL HU HM Hf Hq HX. unfold internal_lu_solve.
    assert (HT : forall i j, (i < n)%nat -> (j < n)%nat -> at_block F c c M i j = sum n (fun x => at_block F c c FL i x * at_block F c c FU x j)).
    { intros i j Hi Hj. unfold at_block. rewrite HM by (unfold inc; lia). apply csum_local. }
    pose proof (solution_compose F SdL t (at_block F c c M) (at_block F c c FL) (at_block F c c FU) 1 n q (me X)) as SC. cbn zeta in SC.
    destruct (is_N t) eqn:Et.
    - destruct t; try discriminate.
      destruct (matrix_solve_ok F parts fuel SdL UpL TrN DgU FL A 1 X q HL Hf Hq HX) as (X1 & -> & W1 & S1).
      destruct (matrix_solve_ok F parts fuel SdL UpU TrN DgN FU A 1 X1 q HU Hf Hq W1) as (Y & -> & W2 & S2).
      exists Y. split; [reflexivity|]. split; [exact W2|]. apply (SC (me X1) (me Y)); [exact HT|]. split; assumption.
    - destruct (matrix_solve_ok F parts fuel SdL UpU t DgN FU A 1 X q HU Hf Hq HX) as (X1 & -> & W1 & S1).
      destruct (matrix_solve_ok F parts fuel SdL UpL t DgU FL A 1 X1 q HL Hf Hq W1) as (Y & -> & W2 & S2).
      exists Y. split; [reflexivity|]. split; [exact W2|]. apply (SC (me X1) (me Y)); [exact HT|]. split; assumption.
  Qed.
End LUSolve.
