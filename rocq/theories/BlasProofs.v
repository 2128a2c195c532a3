(** * Pointwise behaviour of the buffer operations. *)

From Coq Require Import List Arith Bool Lia Ring.
From Verif Require Import BlockModel Algebra BlasModel.
Import ListNotations.

Section B.
  Variable K : Coef.
  Notation C := (car K).
  Notation "0" := (c0 K).
  Notation "x + y" := (cadd K x y).
  Notation "x * y" := (cmul K x y).
  Add Ring Kring2 : (c_ring K).

  Lemma length_mk : forall n (f : nat -> C), length (mk n f) = n.
  Proof. intros. unfold mk. rewrite map_length, seq_length. reflexivity. Qed.
  Lemma get_mk : forall n (f : nat -> C) i, get (mk n f) i = if (i <? n)%nat then f i else 0.
  Proof.
    intros n f i. unfold get, mk. destruct (Nat.ltb_spec i n) as [H|H].
    - rewrite nth_indep with (d' := f 0%nat) by (rewrite map_length, seq_length; exact H).
      rewrite map_nth, seq_nth by exact H. reflexivity.
    - apply nth_overflow. rewrite map_length, seq_length. exact H.
  Qed.
  Lemma get_skipn : forall k (l : list C) i, get (skipn k l) i = get l (k + i).
  Proof.
    induction k as [|k IH]; intros l i; [reflexivity|]. destruct l as [|a l]; cbn [skipn].
    - unfold get. rewrite !nth_overflow by (cbn [length]; lia). reflexivity.
    - rewrite IH. reflexivity.
  Qed.
  Lemma get_firstn : forall k (l : list C) i, get (firstn k l) i = if (i <? k)%nat then get l i else 0.
  Proof.
    induction k as [|k IH]; intros l i; cbn [firstn].
    - unfold get. destruct i; reflexivity.
    - destruct l as [|a l]; [unfold get; destruct i; destruct (_ <? _)%nat; reflexivity|].
      destruct i as [|i]; [reflexivity|]. unfold get in *. cbn [nth]. rewrite IH. reflexivity.
  Qed.
  Lemma get_app : forall (l1 l2 : list C) i, get (l1 ++ l2) i = if (i <? length l1)%nat then get l1 i else get l2 (i - length l1).
  Proof.
    intros l1 l2 i. unfold get. destruct (Nat.ltb_spec i (length l1)); [apply app_nth1; assumption|apply app_nth2; lia].
  Qed.
  Lemma get_repeat : forall n i, get (repeat 0 n) i = 0.
  Proof. intros n i. unfold get. revert i. induction n as [|n IH]; intros [|i]; cbn; auto. Qed.
  Lemma get_over : forall (l : list C) i, (length l <= i)%nat -> get l i = 0.
  Proof. intros. unfold get. apply nth_overflow. assumption. Qed.
  Lemma list_ext : forall (l1 l2 : list C), length l1 = length l2 -> (forall i, (i < length l1)%nat -> get l1 i = get l2 i) -> l1 = l2.
  Proof. intros l1 l2 H1 H2. apply nth_ext with (d := 0) (d' := 0); [exact H1|exact H2]. Qed.

  (** the first [n] coefficients of [l] replaced *)
  Lemma head_upd : forall n f (l : list C), (n <= length l)%nat ->
    length (mk n f ++ skipn n l) = length l /\
    forall i, get (mk n f ++ skipn n l) i = if (i <? n)%nat then f i else get l i.
  Proof.
    intros n f l H. split.
    - rewrite app_length, length_mk, skipn_length. lia.
    - intros i. rewrite get_app, length_mk, get_mk, get_skipn. destruct (Nat.ltb_spec i n); [reflexivity|]. f_equal. lia.
  Qed.

  Lemma write_at_ok : forall (l : list C) a b f w, (b <= a)%nat -> (a - b <= length l)%nat ->
    f (skipn (a - b) l) = Some w -> length w = length (skipn (a - b) l) ->
    exists l', write_at K l a b f = Some l' /\ length l' = length l /\
      forall i, get l' i = if (i <? a - b)%nat then get l i else get w (i - (a - b)).
  Proof.
    intros l a b f w H1 H2 Hf Hw. unfold write_at.
    destruct (Nat.leb_spec b a); [|lia]. destruct (Nat.leb_spec (a - b) (length l)); [|lia]. cbn [andb]. rewrite Hf.
    exists (firstn (a - b) l ++ w). split; [reflexivity|]. rewrite skipn_length in Hw. split.
    - rewrite app_length, firstn_length. lia.
    - intros i. rewrite get_app, firstn_length, get_firstn. rewrite Nat.min_l by lia. destruct (i <? a - b)%nat; reflexivity.
  Qed.

  Lemma transform_ok : forall n f (l : list C), (n <= length l)%nat ->
    exists l', transform K n f l = Some l' /\ length l' = length l /\
      forall i, get l' i = if (i <? n)%nat then f (get l i) else get l i.
  Proof.
    intros n f l H. unfold transform. destruct (Nat.leb_spec n (length l)); [|lia].
    eexists. split; [reflexivity|]. apply head_upd. exact H.
  Qed.
  Lemma axpy_ok : forall n a (x y : list C), (n <= length x)%nat -> (n <= length y)%nat ->
    exists y', axpy K n a x y = Some y' /\ length y' = length y /\
      forall i, get y' i = if (i <? n)%nat then a * get x i + get y i else get y i.
  Proof.
    intros n a x y H1 H2. unfold axpy. destruct (Nat.leb_spec n (length x)); [|lia].
    destruct (Nat.leb_spec n (length y)); [|lia]. cbn [andb]. eexists. split; [reflexivity|]. apply head_upd. exact H2.
  Qed.
  Lemma scal_ok : forall n a (x : list C), (n <= length x)%nat ->
    exists x', scal K n a x = Some x' /\ length x' = length x /\ forall i, get x' i = if (i <? n)%nat then a * get x i else get x i.
  Proof.
    intros n a x H. unfold scal. destruct (Nat.leb_spec n (length x)); [|lia]. eexists. split; [reflexivity|].
    apply head_upd. exact H.
  Qed.
  Lemma copy_n_ok : forall src n dst, (n <= length src)%nat -> (n <= length dst)%nat ->
    exists d, copy_n K src n dst = Some d /\ length d = length dst /\ forall i, get d i = if (i <? n)%nat then get src i else get dst i.
  Proof.
    intros src n dst H1 H2. unfold copy_n. destruct (Nat.leb_spec n (length src)); [|lia].
    destruct (Nat.leb_spec n (length dst)); [|lia]. cbn [andb]. eexists. split; [reflexivity|]. split.
    - rewrite app_length, firstn_length, skipn_length. lia.
    - intros i. rewrite get_app, firstn_length, get_firstn, get_skipn, Nat.min_l by lia.
      destruct (Nat.ltb_spec i n); [reflexivity|]. f_equal. lia.
  Qed.

  Lemma holds_true : forall (A : list C) ld r c, (((c - 1) * ld + r <= length A)%nat \/ r = 0%nat \/ c = 0%nat) -> holds K A ld r c = true.
  Proof.
    intros A ld r c H. unfold holds. destruct (Nat.eqb_spec r 0); [reflexivity|]. destruct (Nat.eqb_spec c 0); [reflexivity|].
    cbn [orb]. apply Nat.leb_le. lia.
  Qed.
  Lemma holds_full : forall (A : list C) r c, length A = (r * c)%nat -> holds K A r r c = true.
  Proof.
    intros A r c H. apply holds_true. destruct c as [|c]; [right; right; reflexivity|]. left. rewrite H.
    replace (S c - 1)%nat with c by lia. nia.
  Qed.
  Lemma legal_true : forall ld r, (1 <= ld)%nat -> (r <= ld)%nat -> legal_ld ld r = true.
  Proof. intros. unfold legal_ld. apply andb_true_iff. split; apply Nat.leb_le; assumption. Qed.

  Lemma gemv_ok : forall t m n alpha (A x : list C) beta y,
    (1 <= m)%nat -> (1 <= n)%nat -> length A = (m * n)%nat ->
    (rows_of t n m <= length x)%nat -> (rows_of t m n <= length y)%nat ->
    exists y', gemv K t m n alpha A m x beta y = Some y' /\ length y' = length y /\
      forall i, get y' i = if (i <? rows_of t m n)%nat
        then beta * get y i + alpha * sum (rows_of t n m) (fun j => op_entry K t A m i j * get x j) else get y i.
  Proof.
    intros t m n alpha A x beta y Hm Hn HA Hx Hy. unfold gemv.
    rewrite legal_true by lia. cbn [negb]. destruct (Nat.eqb_spec m 0); [lia|]. destruct (Nat.eqb_spec n 0); [lia|]. cbn [orb].
    rewrite holds_full by exact HA. destruct (Nat.leb_spec (rows_of t n m) (length x)); [|lia].
    destruct (Nat.leb_spec (rows_of t m n) (length y)); [|lia]. cbn [andb].
    eexists. split; [reflexivity|]. apply head_upd. exact Hy.
  Qed.
  Lemma xxmv_ok : forall e n alpha (A x : list C) beta y,
    (1 <= n)%nat -> length A = (n * n)%nat -> (n <= length x)%nat -> (n <= length y)%nat ->
    exists y', xxmv K e n alpha A n x beta y = Some y' /\ length y' = length y /\
      forall i, get y' i = if (i <? n)%nat then beta * get y i + alpha * sum n (fun j => e A n i j * get x j) else get y i.
  Proof.
    intros e n alpha A x beta y Hn HA Hx Hy. unfold xxmv.
    rewrite legal_true by lia. cbn [negb]. destruct (Nat.eqb_spec n 0); [lia|].
    rewrite holds_full by exact HA. destruct (Nat.leb_spec n (length x)); [|lia].
    destruct (Nat.leb_spec n (length y)); [|lia]. cbn [andb].
    eexists. split; [reflexivity|]. apply head_upd. exact Hy.
  Qed.

  Lemma index_mod : forall i j r, (i < r)%nat -> ((i + j * r) mod r = i)%nat.
  Proof. intros. rewrite Nat.mod_add by lia. apply Nat.mod_small. assumption. Qed.
  Lemma index_div : forall i j r, (i < r)%nat -> ((i + j * r) / r = j)%nat.
  Proof. intros. rewrite Nat.div_add by lia. rewrite Nat.div_small by assumption. reflexivity. Qed.

  Lemma update_mat_ok : forall M N (Cb : list C) ldc f, (1 <= ldc)%nat -> (M <= ldc)%nat ->
    (((N - 1) * ldc + M <= length Cb)%nat \/ M = 0%nat \/ N = 0%nat) ->
    length (update_mat K M N Cb ldc f) = length Cb /\
    forall i j, (i < ldc)%nat -> get (update_mat K M N Cb ldc f) (i + j * ldc) =
      if (i <? M)%nat && (j <? N)%nat then f i j else get Cb (i + j * ldc).
  Proof.
    intros M N Cb ldc f H1 H2 H3. unfold update_mat. split; [apply length_mk|]. intros i j Hi.
    rewrite get_mk, index_mod, index_div by exact Hi.
    destruct (Nat.ltb_spec (i + j * ldc) (length Cb)) as [L|L]; [reflexivity|].
    destruct (Nat.ltb_spec i M); cbn [andb]; [|symmetry; apply get_over; lia].
    destruct (Nat.ltb_spec j N); [|symmetry; apply get_over; lia]. nia.
  Qed.

  Lemma gemm_ok : forall ta tb M N Kk alpha (A B : list C) lda ldb beta Cb ldc,
    (1 <= lda)%nat -> (rows_of ta M Kk <= lda)%nat -> (1 <= ldb)%nat -> (rows_of tb Kk N <= ldb)%nat ->
    (1 <= ldc)%nat -> (M <= ldc)%nat ->
    holds K A lda (rows_of ta M Kk) (rows_of ta Kk M) = true ->
    holds K B ldb (rows_of tb Kk N) (rows_of tb N Kk) = true ->
    holds K Cb ldc M N = true ->
    exists C', gemm K ta tb M N Kk alpha A lda B ldb beta Cb ldc = Some C' /\ length C' = length Cb /\
      forall i j, (i < ldc)%nat -> get C' (i + j * ldc) = if (i <? M)%nat && (j <? N)%nat
        then beta * get Cb (i + j * ldc) + alpha * sum Kk (fun k => op_entry K ta A lda i k * op_entry K tb B ldb k j)
        else get Cb (i + j * ldc).
  Proof.
    intros ta tb M N Kk alpha A B lda ldb beta Cb ldc H1 H2 H3 H4 H5 H6 HA HB HC. unfold gemm.
    rewrite !legal_true by assumption. cbn [andb negb].
    destruct (Nat.eqb_spec M 0) as [->|HM]; cbn [orb].
    { exists Cb. split; [reflexivity|]. split; [reflexivity|]. intros. cbn. reflexivity. }
    destruct (Nat.eqb_spec N 0) as [->|HN].
    { exists Cb. split; [reflexivity|]. split; [reflexivity|]. intros. rewrite andb_comm. cbn. reflexivity. }
    rewrite HA, HB, HC. cbn [andb]. eexists. split; [reflexivity|]. apply update_mat_ok; [assumption..|].
    unfold holds in HC. destruct (Nat.eqb_spec M 0); [lia|]. destruct (Nat.eqb_spec N 0); [lia|]. cbn [orb] in HC.
    apply Nat.leb_le in HC. left. exact HC.
  Qed.

  Lemma xxmm_ok : forall e s M N alpha (A B : list C) lda ldb beta Cb ldc,
    let na := match s with SdL => M | SdR => N end in
    (1 <= lda)%nat -> (na <= lda)%nat -> (1 <= ldb)%nat -> (M <= ldb)%nat -> (1 <= ldc)%nat -> (M <= ldc)%nat ->
    holds K A lda na na = true -> holds K B ldb M N = true -> holds K Cb ldc M N = true ->
    exists C', xxmm K e s M N alpha A lda B ldb beta Cb ldc = Some C' /\ length C' = length Cb /\
      forall i j, (i < ldc)%nat -> get C' (i + j * ldc) = if (i <? M)%nat && (j <? N)%nat
        then beta * get Cb (i + j * ldc) + alpha * match s with
                  | SdL => sum M (fun k => e A lda i k * get B (k + j * ldb))
                  | SdR => sum N (fun k => get B (i + k * ldb) * e A lda k j)
                  end
        else get Cb (i + j * ldc).
  Proof.
    intros e s M N alpha A B lda ldb beta Cb ldc na H1 H2 H3 H4 H5 H6 HA HB HC. unfold xxmm. fold na.
    rewrite !legal_true by assumption. cbn [andb negb].
    destruct (Nat.eqb_spec M 0) as [->|HM]; cbn [orb].
    { exists Cb. split; [reflexivity|]. split; [reflexivity|]. intros. cbn. reflexivity. }
    destruct (Nat.eqb_spec N 0) as [->|HN].
    { exists Cb. split; [reflexivity|]. split; [reflexivity|]. intros. rewrite andb_comm. cbn. reflexivity. }
    rewrite HA, HB, HC. cbn [andb]. eexists. split; [reflexivity|]. apply update_mat_ok; [assumption..|].
    unfold holds in HC. destruct (Nat.eqb_spec M 0); [lia|]. destruct (Nat.eqb_spec N 0); [lia|]. cbn [orb] in HC.
    apply Nat.leb_le in HC. left. exact HC.
  Qed.
End B.
