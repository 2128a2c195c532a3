(** * Products with leaves. *)

From Coq Require Import List Arith Bool Lia Ring.
From Verif Require Import ClusterModel ClusterSpec IOModel BlockModel BlockSpec Algebra BlasModel BlasProofs HMatModel HMatSpec.
Import ListNotations.

Section P.
  Variable K : Coef.
  Notation C := (car K).
  Notation "0" := (c0 K).
  Notation "1" := (c1 K).
  Notation "x + y" := (cadd K x y).
  Notation "x * y" := (cmul K x y).
  Add Ring Kring3 : (c_ring K).

  (** [run x y] replaces y by beta y + alpha E x, for mu vectors stored by rows; E of size on x inn. *)
  Definition adds (run : list C -> list C -> option (list C)) (on inn mu : nat) (alpha beta : C) (e : nat -> nat -> C) : Prop :=
    forall x y, (inn * mu <= length x)%nat -> (on * mu <= length y)%nat ->
      exists y', run x y = Some y' /\ length y' = length y /\
        (forall i c, (i < on)%nat -> (c < mu)%nat ->
           get y' (i * mu + c) = beta * get y (i * mu + c) + alpha * sum inn (fun j => e i j * get x (j * mu + c))) /\
        (forall p, (on * mu <= p)%nat -> get y' p = get y p).

  Lemma adds_ext : forall run on inn mu alpha beta e e', (forall i j, (i < on)%nat -> (j < inn)%nat -> e i j = e' i j) ->
    adds run on inn mu alpha beta e -> adds run on inn mu alpha beta e'.
  Proof.
    intros run on inn mu alpha beta e e' He H x y Hx Hy. destruct (H x y Hx Hy) as (y' & H1 & H2 & H3 & H4).
    exists y'. repeat split; try assumption. intros i c Hi Hc. rewrite H3 by assumption. do 2 f_equal. apply sum_ext.
    intros j Hj. rewrite He by assumption. reflexivity.
  Qed.

  Lemma op_entry_me : forall t (A : mat K) i j, op_entry K t (md A) (mr A) i j = op_fun t (me A) i j.
  Proof. intros [| |] A i j; reflexivity. Qed.

  Lemma dense_vec_adds : forall t alpha beta A r c, wf_mat A r c -> (1 <= r)%nat -> (1 <= c)%nat ->
    adds (fun x y => add_matrix_vector_product K t alpha A x beta y) (rows_of t r c) (rows_of t c r) 1 alpha beta (op_fun t (me A)).
  Proof.
    intros t alpha beta A r c (Hr & Hc & HA) H1 H2 x y Hx Hy. unfold add_matrix_vector_product. rewrite Hr, Hc.
    destruct (gemv_ok K t r c alpha (md A) x beta y) as (y' & E1 & E2 & E3); try lia.
    exists y'. split; [exact E1|]. split; [exact E2|]. split.
    - intros i k Hi Hk. replace (i * 1 + k)%nat with i by lia. rewrite E3. destruct (Nat.ltb_spec i (rows_of t r c)); [|lia].
      rewrite <- Hr. do 2 f_equal. apply sum_ext. intros j _. rewrite op_entry_me.
      do 2 f_equal; lia.
    - intros p Hp. rewrite E3. destruct (Nat.ltb_spec p (rows_of t r c)); [lia|reflexivity].
  Qed.

  Lemma sym_entry_sym : forall u A n i j, sym_entry K u A n i j = sym_entry K u A n j i.
  Proof.
    intros u A n i j. unfold sym_entry, in_triangle. destruct u;
      destruct (Nat.leb_spec i j), (Nat.leb_spec j i); try reflexivity; try lia; replace i with j by lia; reflexivity.
  Qed.
  Lemma herm_entry_conj : forall u A n i j, cconj K (herm_entry K u A n j i) = herm_entry K u A n i j.
  Proof.
    intros u A n i j. unfold herm_entry, in_triangle. rewrite (Nat.eqb_sym j i). destruct (Nat.eqb_spec i j) as [->|Hne].
    - apply cre_conj.
    - destruct u; destruct (Nat.leb_spec i j), (Nat.leb_spec j i); try lia; try reflexivity; apply cconj_invol.
  Qed.
  Lemma sym_entry_tri : forall u (A : mat K) i j, sym_entry K u (md A) (mr A) i j = from_triangle K u (fun x => x) A i j.
  Proof. reflexivity. Qed.
  Lemma herm_entry_tri : forall u (A : mat K) i j, cconj K (me A i i) = me A i i ->
    herm_entry K u (md A) (mr A) i j = from_triangle K u (cconj K) A i j.
  Proof.
    intros u A i j H. unfold herm_entry, from_triangle. destruct (Nat.eqb_spec i j) as [<-|Hne]; [|reflexivity].
    unfold in_triangle. rewrite Nat.leb_refl. destruct u; apply cre_real; exact H.
  Qed.
  Lemma op_sym : forall t u (A : mat K) i j, t <> TrC \/ cplx K = false ->
    op_fun t (from_triangle K u (fun x => x) A) i j = sym_entry K u (md A) (mr A) i j.
  Proof.
    intros t u A i j H. change (from_triangle K u (fun x => x) A) with (sym_entry K u (md A) (mr A)). destruct t; cbn.
    - reflexivity.
    - apply sym_entry_sym.
    - destruct H as [H|H]; [congruence|]. rewrite cplx_real by exact H. apply sym_entry_sym.
  Qed.
  Lemma op_herm : forall t u (A : mat K) n i j, t <> TrT -> (forall i, (i < n)%nat -> cconj K (me A i i) = me A i i) ->
    (i < n)%nat -> (j < n)%nat ->
    op_fun t (from_triangle K u (cconj K) A) i j = herm_entry K u (md A) (mr A) i j.
  Proof.
    intros t u A n i j Ht H Hi Hj. destruct t; cbn; [|congruence|].
    - rewrite herm_entry_tri by (apply H; exact Hi). reflexivity.
    - rewrite <- herm_entry_tri by (apply H; exact Hj). apply herm_entry_conj.
  Qed.

  Lemma xxmv_adds : forall e n alpha beta A, wf_mat A n n -> (1 <= n)%nat ->
    adds (fun x y => if (mr A =? 0)%nat then Some y else xxmv K e (mr A) alpha (md A) (mr A) x beta y) n n 1 alpha beta (e (md A) (mr A)).
  Proof.
    intros e n alpha beta A (Hr & Hc & HA) H1 x y Hx Hy. rewrite Hr. destruct (Nat.eqb_spec n 0); [lia|].
    destruct (xxmv_ok K e n alpha (md A) x beta y) as (y' & E1 & E2 & E3); try lia.
    exists y'. split; [exact E1|]. split; [exact E2|]. split.
    - intros i k Hi Hk. replace (i * 1 + k)%nat with i by lia. rewrite E3. destruct (Nat.ltb_spec i n); [|lia].
      do 2 f_equal. apply sum_ext. intros j _. do 2 f_equal; lia.
    - intros p Hp. rewrite E3. destruct (Nat.ltb_spec p n); [lia|reflexivity].
  Qed.

  Lemma lr_op : forall t (L : lrm K) i j,
    sum (lrank L) (fun k => op_fun t (me (match t with TrN => lU L | _ => lV L end)) i k *
                            op_fun t (me (match t with TrN => lV L | _ => lU L end)) k j) = op_fun t (lr_entry L) i j.
  Proof.
    intros t L i j. destruct t; cbn; unfold lr_entry.
    - reflexivity.
    - apply sum_ext. intros k _. ring.
    - rewrite conj_sum. apply sum_ext. intros k _. rewrite cconj_mul. ring.
  Qed.

  (** Composition of two products through a zero buffer. *)
  Lemma comp_sum : forall inn r (f : nat -> C) (g : nat -> nat -> C) (x : nat -> C),
    sum r (fun k => f k * sum inn (fun j => g k j * x j)) = sum inn (fun j => sum r (fun k => f k * g k j) * x j).
  Proof.
    intros inn r f g x. rewrite (sum_ext K inn _ (fun j => sum r (fun k => f k * g k j * x j))).
    - rewrite sum_swap. apply sum_ext. intros k _. rewrite <- sum_mul_l. apply sum_ext. intros j _. ring.
    - intros j _. rewrite <- sum_mul_r. reflexivity.
  Qed.

  Lemma low_vec_adds : forall t alpha beta L r c, beta = 1 \/ lrank L <> O -> wf_lrm L r c -> (1 <= r)%nat -> (1 <= c)%nat ->
    adds (fun x y => add_lrmat_vector_product K t alpha L x beta y) (rows_of t r c) (rows_of t c r) 1 alpha beta (op_fun t (lr_entry L)).
  Proof.
    intros t alpha beta L r c Hb [HU HV] H1 H2 x y Hx Hy. unfold add_lrmat_vector_product. destruct (Nat.eqb_spec (lrank L) 0) as [E|E].
    - exists y. split; [reflexivity|]. split; [reflexivity|]. split; [|reflexivity]. intros i k Hi Hk.
      destruct Hb as [-> | Hb]; [|lia]. rewrite (sum_0 K); [ring|]. intros j _. destruct t; cbn; unfold lr_entry; rewrite E; cbn; rewrite ?conj_0; ring.
    - set (first := match t with TrN => lV L | _ => lU L end). set (second := match t with TrN => lU L | _ => lV L end).
      assert (W1 : adds (fun x y => add_matrix_vector_product K t 1 first x 0 y) (lrank L) (rows_of t c r) 1 1 0 (op_fun t (me first))).
      { destruct t; unfold first; cbn; [apply (dense_vec_adds TrN 1 0 (lV L) (lrank L) c)|apply (dense_vec_adds TrT 1 0 (lU L) r (lrank L))|apply (dense_vec_adds TrC 1 0 (lU L) r (lrank L))]; try assumption; try lia. }
      assert (W2 : adds (fun x y => add_matrix_vector_product K t alpha second x beta y) (rows_of t r c) (lrank L) 1 alpha beta (op_fun t (me second))).
      { destruct t; unfold second; cbn; [apply (dense_vec_adds TrN alpha beta (lU L) r (lrank L))|apply (dense_vec_adds TrT alpha beta (lV L) (lrank L) c)|apply (dense_vec_adds TrC alpha beta (lV L) (lrank L) c)]; try assumption; try lia. }
      destruct (W1 x (repeat 0 (lrank L))) as (a & A1 & A2 & A3 & _); [exact Hx|rewrite repeat_length; lia|].
      rewrite A1. destruct (W2 a y) as (y' & B1 & B2 & B3 & B4); [rewrite A2, repeat_length; lia|exact Hy|].
      exists y'. split; [exact B1|]. split; [exact B2|]. split; [|exact B4].
      intros i k Hi Hk. rewrite B3 by assumption. do 2 f_equal.
      rewrite (sum_ext K (lrank L) _ (fun q => op_fun t (me second) i q * sum (rows_of t c r) (fun j => op_fun t (me first) q j * get x (j * 1 + k)))).
      + rewrite comp_sum. apply sum_ext. intros j _. f_equal. apply lr_op.
      + intros q Hq. rewrite A3 by assumption. rewrite get_repeat. f_equal. ring.
  Qed.

  Definition beta_ok (beta : C) (h : hinfo K) : Prop :=
    beta = 1 \/ match h_data h with DLow L => lrank L <> O | _ => True end.

  Lemma leaf_vec_adds : forall t alpha beta h, beta_ok beta h -> wf_leaf h -> compat K t (h_sym h) ->
    adds (fun x y => leaf_vec K t alpha h x beta y) (c_size (out_cl K t h)) (c_size (in_cl K t h)) 1 alpha beta (op_fun t (leaf_entry h)).
  Proof.
    intros t alpha beta h Hb (S1 & S2 & H) Hc. unfold beta_ok in Hb. unfold leaf_vec, leaf_entry.
    assert (Eo : c_size (out_cl K t h) = rows_of t (c_size (h_t h)) (c_size (h_s h))) by (unfold out_cl, rows_of; destruct (is_N t); reflexivity).
    assert (Ei : c_size (in_cl K t h) = rows_of t (c_size (h_s h)) (c_size (h_t h))) by (unfold in_cl, rows_of; destruct (is_N t); reflexivity).
    rewrite Eo, Ei. destruct (h_data h) as [|A|L]; [contradiction| |].
    - destruct H as (HA & Hs & Hh). destruct (h_sym h) eqn:Es; cbn in Hc.
      + apply dense_vec_adds; assumption.
      + rewrite <- (Hs ltac:(discriminate)) in *. replace (rows_of t (c_size (h_t h)) (c_size (h_t h))) with (c_size (h_t h)) by (unfold rows_of; destruct (is_N t); reflexivity).
        apply adds_ext with (e := sym_entry K (h_uplo h) (md A) (mr A)).
        * intros i j _ _. symmetry. apply op_sym. exact Hc.
        * apply xxmv_adds; assumption.
      + rewrite <- (Hs ltac:(discriminate)) in *. replace (rows_of t (c_size (h_t h)) (c_size (h_t h))) with (c_size (h_t h)) by (unfold rows_of; destruct (is_N t); reflexivity).
        destruct Hc as [Hc Hx]. rewrite Hx.
        apply adds_ext with (e := herm_entry K (h_uplo h) (md A) (mr A)).
        * intros i j Hi Hj. symmetry. apply op_herm with (n := c_size (h_t h)); auto.
        * apply xxmv_adds; assumption.
      + contradiction.
    - apply low_vec_adds; assumption.
  Qed.

  (** *** Row-major blocks of vectors *)
  Lemma conj_buf_ok : forall n (x : list C), (n <= length x)%nat ->
    exists x', conj_buf K n x = Some x' /\ length x' = length x /\ forall i, get x' i = if (i <? n)%nat then cconj K (get x i) else get x i.
  Proof. intros n x H. apply transform_ok. exact H. Qed.

  Lemma idx : forall i k mu, (i * mu + k)%nat = (k + i * mu)%nat.
  Proof. intros. lia. Qed.

  (** reading a row-major output written as a mu x on column-major matrix *)
  Lemma row_major_out : forall (y y' : list C) on mu f,
    (forall c i, (c < mu)%nat -> get y' (c + i * mu) = if (c <? mu)%nat && (i <? on)%nat then f c i else get y (c + i * mu)) ->
    (1 <= mu)%nat ->
    (forall i c, (i < on)%nat -> (c < mu)%nat -> get y' (i * mu + c) = f c i) /\
    (forall p, (on * mu <= p)%nat -> get y' p = get y p).
  Proof.
    intros y y' on mu f H Hmu. split.
    - intros i c Hi Hc. rewrite idx, H by exact Hc. destruct (Nat.ltb_spec c mu); [|lia]. destruct (Nat.ltb_spec i on); [reflexivity|lia].
    - intros p Hp. rewrite (Nat.div_mod p mu) by lia. rewrite (Nat.mul_comm mu), idx.
      assert (p mod mu < mu)%nat by (apply Nat.mod_upper_bound; lia). rewrite H by assumption.
      assert (on <= p / mu)%nat by (apply Nat.div_le_lower_bound; lia).
      destruct (Nat.ltb_spec (p / mu) on); [lia|]. rewrite andb_comm. reflexivity.
  Qed.

  Lemma holds_rows : forall (x : list C) mu n, (n * mu <= length x)%nat -> holds K x mu mu n = true.
  Proof. intros x mu n H. apply holds_true. destruct n as [|n]; [right; right; reflexivity|]. left. replace (S n - 1)%nat with n by lia. lia. Qed.

  Lemma dense_mat_adds : forall t alpha beta A r c mu x y, wf_mat A r c -> (1 <= r)%nat -> (1 <= c)%nat -> (1 <= mu)%nat ->
    (rows_of t c r * mu <= length x)%nat -> (rows_of t r c * mu <= length y)%nat ->
    exists y', add_matrix_matrix_product_row_major K t TrN alpha A x beta y mu = Some y' /\ length y' = length y /\
      (forall i q, (i < rows_of t r c)%nat -> (q < mu)%nat -> get y' (i * mu + q) =
         beta * get y (i * mu + q) + alpha * sum (rows_of t c r) (fun j => op_fun t (me A) i j * get x (j * mu + q))) /\
      (forall p, (rows_of t r c * mu <= p)%nat -> get y' p = get y p).
  Proof.
    intros t alpha beta A r c mu x y (Hr & Hc & HA) H1 H2 Hmu Hx Hy.
    assert (exists a, (match t with TrC => conj_buf K (mr A * mc A) (md A) | _ => Some (md A) end) = Some a /\ length a = (r * c)%nat /\
      forall i j, (i < r)%nat -> (j < c)%nat -> get a (i + j * r) = match t with TrC => cconj K (me A i j) | _ => me A i j end) as (a & Ea & La & Ga).
    { rewrite Hr, Hc. unfold me. rewrite Hr. destruct t.
      - exists (md A). repeat split; auto.
      - exists (md A). repeat split; auto.
      - destruct (conj_buf_ok (r * c) (md A)) as (a & E1 & E2 & E3); [lia|]. exists a. split; [exact E1|]. split; [lia|].
        intros i j Hi Hj. rewrite E3. destruct (Nat.ltb_spec (i + j * r) (r * c)); [reflexivity|nia]. }
    unfold add_matrix_matrix_product_row_major. rewrite Ea, Hr, Hc. cbn [is_N].

    destruct (gemm_ok K TrN (if is_N t then TrT else TrN) mu (rows_of t r c) (rows_of t c r) alpha x a mu r beta y mu) as (y' & E1 & E2 & E3);
      try (destruct t; cbn in *; lia).
    - cbn. apply holds_rows. exact Hx.
    - destruct t; cbn in *; apply holds_full; exact La.
    - apply holds_rows. exact Hy.
    - exists y'. split; [|split; [exact E2|]].
      { etransitivity; [|exact E1]. destruct t; reflexivity. }
      destruct (row_major_out y y' (rows_of t r c) mu _ E3 Hmu) as [F1 F2]. split; [|exact F2]. intros i q Hi Hq. rewrite F1 by assumption.
      rewrite (idx i q). do 2 f_equal. apply sum_ext. intros j Hj. rewrite (idx j q).
      unfold op_entry at 1. clear E1 E2 E3 F1 F2. destruct t; cbn in *.
      + rewrite Ga by assumption. ring.
      + rewrite Ga by assumption. ring.
      + rewrite Ga by assumption. ring.
  Qed.

  Lemma low_mat_adds : forall t alpha beta L r c mu, beta = 1 \/ lrank L <> O -> wf_lrm L r c -> (1 <= r)%nat -> (1 <= c)%nat -> (1 <= mu)%nat ->
    adds (fun x y => add_lrmat_matrix_product_row_major K t TrN alpha L x beta y mu) (rows_of t r c) (rows_of t c r) mu alpha beta (op_fun t (lr_entry L)).
  Proof.
    intros t alpha beta L r c mu Hb [HU HV] H1 H2 Hmu x y Hx Hy. unfold add_lrmat_matrix_product_row_major.
    destruct (Nat.eqb_spec (lrank L) 0) as [E|E].
    - exists y. split; [reflexivity|]. split; [reflexivity|]. split; [|reflexivity]. intros i k Hi Hk.
      destruct Hb as [-> | Hb]; [|lia]. rewrite (sum_0 K); [ring|]. intros j _. destruct t; cbn; unfold lr_entry; rewrite E; cbn; rewrite ?conj_0; ring.
    - set (first := match t with TrN => lV L | _ => lU L end). set (second := match t with TrN => lU L | _ => lV L end).
      assert (W1 : exists a, add_matrix_matrix_product_row_major K t TrN 1 first x 0 (repeat 0 (lrank L * mu)) mu = Some a /\
        length a = length (repeat 0 (lrank L * mu)) /\
        forall i q, (i < lrank L)%nat -> (q < mu)%nat -> get a (i * mu + q) =
         0 * get (repeat 0 (lrank L * mu)) (i * mu + q) + 1 * sum (rows_of t c r) (fun j => op_fun t (me first) i j * get x (j * mu + q))).
      { destruct t; unfold first; cbn in *;
        [destruct (dense_mat_adds TrN 1 0 (lV L) (lrank L) c mu x (repeat 0 (lrank L * mu))) as (a & F1 & F2 & F3 & _)
        |destruct (dense_mat_adds TrT 1 0 (lU L) r (lrank L) mu x (repeat 0 (lrank L * mu))) as (a & F1 & F2 & F3 & _)
        |destruct (dense_mat_adds TrC 1 0 (lU L) r (lrank L) mu x (repeat 0 (lrank L * mu))) as (a & F1 & F2 & F3 & _)];
        try assumption; try lia; try (cbn; rewrite repeat_length; lia); try (cbn; lia); exists a; repeat split; assumption. }
      destruct W1 as (a & A1 & A2 & A3). rewrite A1. rewrite repeat_length in A2.
      assert (W2 : exists y', add_matrix_matrix_product_row_major K t TrN alpha second a beta y mu = Some y' /\ length y' = length y /\
        (forall i q, (i < rows_of t r c)%nat -> (q < mu)%nat -> get y' (i * mu + q) =
           beta * get y (i * mu + q) + alpha * sum (lrank L) (fun j => op_fun t (me second) i j * get a (j * mu + q))) /\
        (forall p, (rows_of t r c * mu <= p)%nat -> get y' p = get y p)).
      { destruct t; unfold second; cbn in *;
        [destruct (dense_mat_adds TrN alpha beta (lU L) r (lrank L) mu a y) as (y' & F1 & F2 & F3 & F4)
        |destruct (dense_mat_adds TrT alpha beta (lV L) (lrank L) c mu a y) as (y' & F1 & F2 & F3 & F4)
        |destruct (dense_mat_adds TrC alpha beta (lV L) (lrank L) c mu a y) as (y' & F1 & F2 & F3 & F4)];
        try assumption; try lia; try (cbn; lia); exists y'; repeat split; assumption. }
      destruct W2 as (y' & B1 & B2 & B3 & B4).
      exists y'. split; [exact B1|]. split; [exact B2|]. split; [|exact B4].
      intros i k Hi Hk. rewrite B3 by assumption. do 2 f_equal.
      rewrite (sum_ext K (lrank L) _ (fun q => op_fun t (me second) i q * sum (rows_of t c r) (fun j => op_fun t (me first) q j * get x (j * mu + k)))).
      + rewrite comp_sum. apply sum_ext. intros j _. f_equal. apply lr_op.
      + intros q Hq. rewrite A3 by assumption. f_equal. ring.
  Qed.

  Lemma sym_mat_adds : forall u alpha beta A n mu, wf_mat A n n -> (1 <= n)%nat -> (1 <= mu)%nat ->
    adds (fun x y => add_symmetric_matrix_matrix_product_row_major K u alpha A x beta y mu) n n mu alpha beta (sym_entry K u (md A) (mr A)).
  Proof.
    intros u alpha beta A n mu (Hr & Hc & HA) H1 Hmu x y Hx Hy. unfold add_symmetric_matrix_matrix_product_row_major, symm. rewrite Hr.
    destruct (Nat.eqb_spec n 0); [lia|].
    destruct (xxmm_ok K (sym_entry K u) SdR mu n alpha (md A) x n mu beta y mu) as (y' & E1 & E2 & E3); try lia.
    - apply holds_full. exact HA.
    - apply holds_rows. exact Hx.
    - apply holds_rows. exact Hy.
    - exists y'. split; [exact E1|]. split; [exact E2|].
      destruct (row_major_out y y' n mu _ E3 Hmu) as [F1 F2]. split; [|exact F2]. intros i q Hi Hq. rewrite F1 by assumption.
      rewrite (idx i q). do 2 f_equal.
      apply sum_ext. intros j Hj. rewrite (idx j q), (sym_entry_sym u (md A) n i j). ring.
  Qed.
  Lemma herm_mat_adds : forall u alpha beta A n mu, wf_mat A n n -> (1 <= n)%nat -> (1 <= mu)%nat ->
    adds (fun x y => add_hermitian_matrix_matrix_product_row_major K u alpha A x beta y mu) n n mu alpha beta (herm_entry K u (md A) (mr A)).
  Proof.
    intros u alpha beta A n mu (Hr & Hc & HA) H1 Hmu x y Hx Hy. unfold add_hermitian_matrix_matrix_product_row_major, hemm. rewrite Hr, Hc.
    destruct (Nat.eqb_spec n 0); [lia|].
    destruct (conj_buf_ok (n * mu) x Hx) as (x' & X1 & X2 & X3). destruct (conj_buf_ok (n * mu) y Hy) as (y1 & Y1 & Y2 & Y3).
    rewrite X1, Y1.
    destruct (xxmm_ok K (herm_entry K u) SdR mu n (cconj K alpha) (md A) x' n mu (cconj K beta) y1 mu) as (y2 & E1 & E2 & E3); try lia.
    - apply holds_full. exact HA.
    - apply holds_rows. lia.
    - apply holds_rows. lia.
    - rewrite E1. destruct (conj_buf_ok (n * mu) y2) as (y' & Z1 & Z2 & Z3); [lia|].
      exists y'. split; [exact Z1|]. split; [lia|].
      destruct (row_major_out y1 y2 n mu _ E3 Hmu) as [F1 F2]. split.
      + intros i q Hi Hq. rewrite Z3. destruct (Nat.ltb_spec (i * mu + q) (n * mu)); [|nia]. rewrite F1 by assumption.
        rewrite (idx i q). rewrite cconj_add, !cconj_mul, conj_sum, !cconj_invol.
        rewrite Y3. destruct (Nat.ltb_spec (q + i * mu) (n * mu)); [|nia]. rewrite cconj_invol.
        do 2 f_equal.
        apply sum_ext. intros j Hj. rewrite cconj_mul, herm_entry_conj, X3. destruct (Nat.ltb_spec (q + j * mu) (n * mu)); [|nia].
        rewrite cconj_invol, (idx j q). ring.
      + intros p Hp. rewrite Z3. destruct (Nat.ltb_spec p (n * mu)); [lia|]. rewrite F2 by exact Hp. rewrite Y3.
        destruct (Nat.ltb_spec p (n * mu)); [lia|reflexivity].
  Qed.

  Lemma leaf_mat_adds : forall t alpha beta h mu, beta_ok beta h -> wf_leaf h -> compat K t (h_sym h) -> (1 <= mu)%nat ->
    adds (fun x y => leaf_mat K t TrN alpha h x beta y mu) (c_size (out_cl K t h)) (c_size (in_cl K t h)) mu alpha beta (op_fun t (leaf_entry h)).
  Proof.
    intros t alpha beta h mu Hb (S1 & S2 & H) Hc Hmu. unfold beta_ok in Hb. unfold leaf_mat, leaf_entry.
    assert (Eo : c_size (out_cl K t h) = rows_of t (c_size (h_t h)) (c_size (h_s h))) by (unfold out_cl, rows_of; destruct (is_N t); reflexivity).
    assert (Ei : c_size (in_cl K t h) = rows_of t (c_size (h_s h)) (c_size (h_t h))) by (unfold in_cl, rows_of; destruct (is_N t); reflexivity).
    rewrite Eo, Ei. destruct (h_data h) as [|A|L]; [contradiction| |].
    - destruct H as (HA & Hs & Hh). destruct (h_sym h) eqn:Es; cbn in Hc.
      + intros x y Hx Hy. destruct (dense_mat_adds t alpha beta A _ _ mu x y HA S1 S2 Hmu Hx Hy) as (y' & E1 & E2 & E3 & E4).
        exists y'. repeat split; try assumption.
      + rewrite <- (Hs ltac:(discriminate)) in *. replace (rows_of t (c_size (h_t h)) (c_size (h_t h))) with (c_size (h_t h)) by (unfold rows_of; destruct (is_N t); reflexivity).
        apply adds_ext with (e := sym_entry K (h_uplo h) (md A) (mr A)).
        * intros i j _ _. symmetry. apply op_sym. exact Hc.
        * apply sym_mat_adds; assumption.
      + rewrite <- (Hs ltac:(discriminate)) in *. replace (rows_of t (c_size (h_t h)) (c_size (h_t h))) with (c_size (h_t h)) by (unfold rows_of; destruct (is_N t); reflexivity).
        destruct Hc as [Hc Hx]. rewrite Hx.
        apply adds_ext with (e := herm_entry K (h_uplo h) (md A) (mr A)).
        * intros i j Hi Hj. symmetry. apply op_herm with (n := c_size (h_t h)); auto.
        * apply herm_mat_adds; assumption.
      + contradiction.
    - apply low_mat_adds; assumption.
  Qed.
End P.
