(** * Local operators: products with a block of columns of the row block of the process. *)

From Coq Require Import List Arith Bool Lia Ring Permutation.
From Verif Require Import ClusterModel ClusterSpec ClusterMore IOModel BlockModel Algebra BlasModel BlasProofs
  HMatModel HMatSpec HMatProofs HMatLoops HMatProducts HMatBuild HMatTop DistModel DistSpec DistProofs DistVec DistMat.
Import ListNotations.

Section L.
  Variable K : Coef.
  Notation C := (car K).
  Notation buf := (list C).
  Notation "0" := (c0 K).
  Notation "1" := (c1 K).
  Notation "x + y" := (cadd K x y).
  Notation "x * y" := (cmul K x y).
  Add Ring Kring11 : (c_ring K).

  (** M in the columns [so, so+sn), zero elsewhere *)
  Definition window (so sn : nat) (M : nat -> nat -> C) (i j : nat) : C :=
    if ((so <=? j) && (j <? so + sn))%nat then M i (j - so)%nat else 0.

  Lemma window_sum : forall NC so sn M i (x : nat -> C), (so + sn <= NC)%nat ->
    sum NC (fun j => window so sn M i j * x j) = sum sn (fun j => M i j * x (so + j)%nat).
  Proof.
    intros NC so sn M i x H.
    rewrite (sum_ext K NC _ (fun j => if ((so <=? j) && (j <? so + sn))%nat then M i (j - so)%nat * x j else 0)).
    - rewrite (sum_window K NC so sn (fun j => M i (j - so)%nat * x j) H). apply sum_ext. intros j Hj. do 2 f_equal. lia.
    - intros j Hj. unfold window. destruct (_ && _); [reflexivity|ring].
  Qed.

  (** the function called by the dispatch *)
  Definition core_vec (o : lop K) (t : trans) (x y : buf) : option buf :=
    lo_dispatch K o (lo_vec K o t 1 x 1 y) (lo_vecs K o t 1 x 1 y) (Some y).
  Definition core_mat (o : lop K) (t : trans) (mu : nat) (x y : buf) : option buf :=
    lo_dispatch K o (lo_mat K o t 1 x 1 y mu) (lo_mats K o t 1 x 1 y mu) (Some y).

  Section Lop.
    Variables (o : lop K) (NC : nat) (M : nat -> nat -> C).
    Notation tn := (snd (lo_t K o)).
    Notation so := (fst (lo_s K o)).
    Notation sn := (snd (lo_s K o)).
    Hypothesis Hin : (so + sn <= NC)%nat.
    Hypothesis Ht : lo_tuse K o = false.
    Hypothesis Hs : lo_suse K o = false.

    Lemma lop_vec_ok : adds_product (core_vec o TrN) tn sn 1 M -> adds_product (run_vec (vlop_of K o)) tn NC 1 (window so sn M).
    Proof.
      intros H x y Hx Hy. unfold run_vec, vlop_of, vl_vec, lo_add_vec. rewrite Ht, Hs. unfold ptr.
      destruct (Nat.leb_spec so (length x)); [|lia].
      destruct (H (skipn so x) y) as (y' & E1 & E2 & E3); [rewrite skipn_length; lia|exact Hy|].
      unfold core_vec in E1. rewrite E1. exists y'. split; [reflexivity|]. split; [exact E2|]. intros i c Hi Hc. rewrite E3 by assumption.
      f_equal. rewrite (window_sum NC so sn M i (fun j => get x (j * 1 + c)) Hin). apply sum_ext. intros j Hj. f_equal.
      rewrite get_skipn. f_equal. lia.
    Qed.

    Lemma lop_mat_ok : forall mu, adds_product (core_mat o TrN mu) tn sn mu M -> adds_product (run_mat mu (vlop_of K o)) tn NC mu (window so sn M).
    Proof.
      intros mu H x y Hx Hy. unfold run_mat, vlop_of, vl_mat, lo_add_mat. rewrite Ht, Hs. unfold ptr.
      assert (B : (so * mu + sn * mu <= length x)%nat) by nia.
      destruct (Nat.leb_spec (so * mu) (length x)); [|lia].
      assert (I : exists inp, match lo_sym K o with SyH => copy_n K (skipn (so * mu) x) (sn * mu) (vec0 K (sn * mu)) | _ => Some (skipn (so * mu) x) end = Some inp /\
        (sn * mu <= length inp)%nat /\ forall k, (k < sn * mu)%nat -> get inp k = get x (so * mu + k)).
      { assert (Q : exists inp, Some (skipn (so * mu) x) = Some inp /\ (sn * mu <= length inp)%nat /\ forall k, (k < sn * mu)%nat -> get inp k = get x (so * mu + k)).
        { eexists. split; [reflexivity|]. split; [rewrite skipn_length; lia|]. intros k _. apply get_skipn. }
        destruct (lo_sym K o); try exact Q.
        destruct (copy_n_ok K (skipn (so * mu) x) (sn * mu) (vec0 K (sn * mu))) as (d & E & Ld & Vd); [rewrite skipn_length; lia|rewrite length_vec0; lia|].
        exists d. split; [exact E|]. rewrite length_vec0 in Ld. split; [lia|]. intros k Hk. rewrite Vd. destruct (Nat.ltb_spec k (sn * mu)); [|lia]. apply get_skipn. }
      destruct I as (inp & -> & Li & Vi).
      destruct (H inp y Li Hy) as (y' & E1 & E2 & E3). unfold core_mat in E1. rewrite E1. exists y'. split; [reflexivity|]. split; [exact E2|].
      intros i c Hi Hc. rewrite E3 by assumption. f_equal.
      rewrite (window_sum NC so sn M i (fun j => get x (j * mu + c)) Hin). apply sum_ext. intros j Hj. f_equal. rewrite Vi by nia. f_equal. lia.
    Qed.

    (** the transposed product, of a sn x tn matrix M *)
    Lemma lop_tvec_ok : adds_product (core_vec o TrT) sn tn 1 M ->
      adds_product (run_tvec (vlop_of K o)) NC tn 1 (fun i j => window so sn (fun j i => M i j) j i).
    Proof.
      intros H x y Hx Hy. unfold run_tvec, vlop_of, vl_tvec, lo_add_tvec. rewrite Hs.
      destruct (H x (skipn so y)) as (w & E1 & [E2 E4] & E3); [exact Hx|rewrite skipn_length; lia|].
      destruct (write_at_0 K y so (fun w => lo_dispatch K o (lo_vec K o TrT 1 x 1 w) (lo_vecs K o TrT 1 x 1 w) (Some w)) w) as (y' & F1 & F2 & F3 & F4);
        [lia|exact E1|rewrite E2, skipn_length; reflexivity|].
      exists y'. split; [exact F1|]. split; [split; [exact F2|]|].
      - intros p Hp. destruct (Nat.lt_ge_cases p so); [apply F3; lia|]. replace p with (so + (p - so))%nat by lia. rewrite F4, E4 by lia. apply get_skipn.
      - intros i c Hi Hc. assert (c = 0)%nat by lia. subst c. rewrite Nat.mul_1_r, Nat.add_0_r. unfold window.
        destruct (Nat.leb_spec so i); cbn [andb].
        + destruct (Nat.ltb_spec i (so + sn)).
          * replace i with (so + (i - so))%nat at 1 by lia. rewrite F4. specialize (E3 (i - so)%nat 0%nat ltac:(lia) ltac:(lia)).
            rewrite Nat.mul_1_r, Nat.add_0_r in E3. rewrite E3, get_skipn. f_equal. f_equal. lia.
          * replace i with (so + (i - so))%nat at 1 by lia. rewrite F4, E4 by lia. rewrite get_skipn. replace (so + (i - so))%nat with i by lia.
            rewrite sum_0; [ring|]. intros j Hj. ring.
        + rewrite F3 by lia. rewrite sum_0; [ring|]. intros j Hj. ring.
    Qed.

    Lemma lop_tmat_ok : forall mu, lo_sym K o <> SyH -> adds_product (core_mat o TrT mu) sn tn mu M ->
      adds_on_zero (run_tmat mu (vlop_of K o)) NC tn mu so sn (fun i j => window so sn (fun j i => M i j) j i).
    Proof.
      intros mu Hh H. split; [exact Hin|]. split.
      { intros i j Hi Hn. unfold window. destruct (Nat.leb_spec so i); cbn [andb]; [|reflexivity]. destruct (Nat.ltb_spec i (so + sn)); [lia|reflexivity]. }
      intros x y Hx Hy Hz. unfold run_tmat, vlop_of, vl_tmat, lo_add_tmat.
      assert (E0 : forall U (a b : U), match lo_sym K o with SyH => a | _ => b end = b) by (intros U a b; destruct (lo_sym K o); congruence).
      rewrite !E0. rewrite Hs.
      destruct (H x (vec0 K (sn * mu)) Hx) as (w & E1 & [E2 _] & E3); [rewrite length_vec0; lia|]. unfold core_mat in E1. rewrite E1. rewrite length_vec0 in E2.
      assert (B : (so * mu + sn * mu <= length y)%nat) by nia.
      destruct (copy_n_ok K w (sn * mu) (skipn (so * mu) y)) as (d & D1 & D2 & D3); [lia|rewrite skipn_length; lia|].
      destruct (write_at_0 K y (so * mu) (fun v => copy_n K w (sn * mu) v) d) as (y' & F1 & F2 & F3 & F4); [lia|exact D1|rewrite D2, skipn_length; reflexivity|].
      rewrite F1, E0. exists y'. split; [reflexivity|]. split; [split; [exact F2|]|].
      - intros p Hp. replace p with (so * mu + (p - so * mu))%nat by nia. rewrite F4, D3. destruct (Nat.ltb_spec (p - so * mu) (sn * mu)); [nia|]. apply get_skipn.
      - intros i c Hi Hc. unfold window. destruct (Nat.leb_spec so i); cbn [andb].
        + destruct (Nat.ltb_spec i (so + sn)).
          * replace (i * mu + c)%nat with (so * mu + ((i - so) * mu + c))%nat at 1 by nia. rewrite F4, D3.
            destruct (Nat.ltb_spec ((i - so) * mu + c) (sn * mu)); [|nia]. rewrite E3 by lia. rewrite (Hz i c) by lia.
            unfold vec0. rewrite get_repeat. reflexivity.
          * replace (i * mu + c)%nat with (so * mu + ((i - so) * mu + c))%nat at 1 by nia. rewrite F4, D3.
            destruct (Nat.ltb_spec ((i - so) * mu + c) (sn * mu)); [nia|]. rewrite get_skipn.
            replace (so * mu + ((i - so) * mu + c))%nat with (i * mu + c)%nat by nia. rewrite sum_0; [ring|]. intros j Hj. ring.
        + rewrite F3 by nia. rewrite sum_0; [ring|]. intros j Hj. ring.
    Qed.
  End Lop.

  (** ** A hierarchical matrix *)
  Section H.
    Variables (A : hmat K) (L Y : list (hinfo K)) (sy : symc).
    Hypothesis W : well_formed (rt_val A) L Y sy.
    Variable threads : list (list (hinfo K) * list (hinfo K)).
    Hypothesis P1 : Permutation (concat (map fst threads)) L.
    Hypothesis P2 : Permutation (concat (map snd threads)) Y.
    Hypothesis Hsy : compat K TrN sy.
    Notation r := (rt_val A).
    Notation o := (local_hmatrix K threads A (interval (h_t r)) (interval (h_s r)) sy).
    Definition hblock (i j : nat) : C := value L Y sy (c_off (h_t r) + i)%nat (c_off (h_s r) + j)%nat.

    Lemma core_local : forall t x y, core_vec o t x y = omp_vec K threads t 1 A x 1 y.
    Proof. intros t x y. unfold core_vec, lo_dispatch, local_hmatrix. cbn. destruct sy; try reflexivity. destruct Hsy. Qed.
    Lemma core_local_mat : forall t mu x y, core_mat o t mu x y = omp_mat K threads t 1 A x 1 y mu.
    Proof. intros t mu x y. unfold core_mat, lo_dispatch, local_hmatrix. cbn. destruct sy; try reflexivity. destruct Hsy. Qed.

    Lemma hmat_vec : adds_product (core_vec o TrN) (c_size (h_t r)) (c_size (h_s r)) 1 hblock.
    Proof.
      intros x y Hx Hy. rewrite core_local.
      destruct (omp_vec_ok K A L Y sy _ (value_holds K _ _ _ _ W) TrN Hsy threads 1 1 x y P1 P2) as (y' & E1 & E2 & E3 & E4); try (cbn; lia).
      exists y'. split; [exact E1|]. cbn [is_N] in *. split; [split; assumption|]. intros i c Hi Hc. rewrite E3 by assumption. cbn [op_fun]. unfold hblock. ring.
    Qed.
    Lemma hmat_mat : forall mu, (1 <= mu)%nat -> adds_product (core_mat o TrN mu) (c_size (h_t r)) (c_size (h_s r)) mu hblock.
    Proof.
      intros mu Hmu x y Hx Hy. rewrite core_local_mat.
      destruct (omp_mat_ok K A L Y sy _ (value_holds K _ _ _ _ W) TrN Hsy threads mu 1 1 x y Hmu P1 P2) as (y' & E1 & E2 & E3 & E4); try (cbn; lia).
      exists y'. split; [exact E1|]. cbn [is_N] in *. split; [split; assumption|]. intros i c Hi Hc. rewrite E3 by assumption. cbn [op_fun]. unfold hblock. ring.
    Qed.
    Lemma hmat_tvec : compat K TrT sy -> adds_product (core_vec o TrT) (c_size (h_s r)) (c_size (h_t r)) 1 (fun i j => hblock j i).
    Proof.
      intros HT x y Hx Hy. rewrite core_local.
      destruct (omp_vec_ok K A L Y sy _ (value_holds K _ _ _ _ W) TrT HT threads 1 1 x y P1 P2) as (y' & E1 & E2 & E3 & E4); try (cbn; lia).
      exists y'. split; [exact E1|]. cbn [is_N] in *. split; [split; assumption|]. intros i c Hi Hc. rewrite E3 by assumption. cbn [op_fun]. unfold hblock. ring.
    Qed.
    Lemma hmat_tmat : forall mu, (1 <= mu)%nat -> compat K TrT sy ->
      adds_product (core_mat o TrT mu) (c_size (h_s r)) (c_size (h_t r)) mu (fun i j => hblock j i).
    Proof.
      intros mu Hmu HT x y Hx Hy. rewrite core_local_mat.
      destruct (omp_mat_ok K A L Y sy _ (value_holds K _ _ _ _ W) TrT HT threads mu 1 1 x y Hmu P1 P2) as (y' & E1 & E2 & E3 & E4); try (cbn; lia).
      exists y'. split; [exact E1|]. cbn [is_N] in *. split; [split; assumption|]. intros i c Hi Hc. rewrite E3 by assumption. cbn [op_fun]. unfold hblock. ring.
    Qed.
  End H.

  (** ** A dense matrix *)
  Section Dn.
    Variables (A : mat K) (tn sn to so : nat) (tperm sperm : list nat) (u : uplo).
    Hypothesis HA : wf_mat A tn sn.
    Hypothesis Hn : (1 <= tn /\ 1 <= sn)%nat.
    Notation o := (local_dense K A (to, tn) (so, sn) tperm sperm SyN u false false).

    Lemma dense_core_vec : forall t, adds_product (core_vec o t) (rows_of t tn sn) (rows_of t sn tn) 1 (op_fun t (me A)).
    Proof.
      intros t x y Hx Hy. unfold core_vec, lo_dispatch, local_dense. cbn [lo_sym lo_vec].
      destruct (dense_vec_adds K t 1 1 A tn sn HA (proj1 Hn) (proj2 Hn) x y Hx Hy) as (y' & E1 & E2 & E3 & E4).
      exists y'. split; [exact E1|]. split; [split; assumption|]. intros i c Hi Hc. rewrite E3 by assumption. ring.
    Qed.
    Lemma dense_core_mat : forall t mu, (1 <= mu)%nat -> adds_product (core_mat o t mu) (rows_of t tn sn) (rows_of t sn tn) mu (op_fun t (me A)).
    Proof.
      intros t mu Hmu x y Hx Hy. unfold core_mat, lo_dispatch, local_dense. cbn [lo_sym lo_mat].
      destruct (dense_mat_adds K t 1 1 A tn sn mu x y HA (proj1 Hn) (proj2 Hn) Hmu Hx Hy) as (y' & E1 & E2 & E3 & E4).
      exists y'. split; [exact E1|]. split; [split; assumption|]. intros i c Hi Hc. rewrite E3 by assumption. ring.
    Qed.
  End Dn.
End L.
