(** * Proofs for dense factorisations. *)

From Coq Require Import List Arith Bool Lia Ring Permutation.
From Verif Require Import BlockModel Algebra BlasModel BlasProofs HMatModel HMatSpec HMatBuild Field DenseModel DenseSpec.
Import ListNotations.

Lemma exch_invol : forall i p k, exch i p (exch i p k) = k.
Proof.
  intros i p k. unfold exch. destruct (Nat.eqb_spec k i); [|destruct (Nat.eqb_spec k p)].
  - destruct (Nat.eqb_spec p i); [lia|]. rewrite Nat.eqb_refl. lia.
  - rewrite Nat.eqb_refl. lia.
  - destruct (Nat.eqb_spec k i); [lia|]. destruct (Nat.eqb_spec k p); lia.
Qed.
Lemma exch_lt : forall i p k n, i < n -> p < n -> k < n -> exch i p k < n.
Proof. intros i p k n H1 H2 H3. unfold exch. destruct (k =? i); [assumption|]. destruct (k =? p); assumption. Qed.

Lemma NoDup_map_on : forall {A B} (f : A -> B) l, (forall a b, In a l -> In b l -> f a = f b -> a = b) -> NoDup l -> NoDup (map f l).
Proof.
  intros A B f l H N. induction N as [|a l Ha N IH]; [constructor|]. cbn. constructor.
  - intros Q. apply in_map_iff in Q. destruct Q as (b & E & Hb). apply Ha. rewrite <- (H b a); [exact Hb|right; exact Hb|left; reflexivity|exact E].
  - apply IH. intros b c Hb Hc. apply H; right; assumption.
Qed.
(** Exchanges in range. *)
Definition piv_range (n : nat) (l : list nat) : Prop := forall p, In p l -> 1 <= p <= n.
Lemma getrf_range : forall n l, getrf_pivots n l -> piv_range n l.
Proof.
  intros n l (H1 & H2) p Hp. destruct (In_nth l p 0 Hp) as (k & H3 & <-). specialize (H2 k). lia.
Qed.

Lemma source_lt : forall n l k i, piv_range n l -> k + length l <= n -> i < n -> source_row k l i < n.
Proof.
  intros n l. induction l as [|p l IH]; intros k i HR HL Hi; [exact Hi|]. cbn [source_row length] in *.
  assert (Hp : 1 <= p <= n) by (apply HR; left; reflexivity).
  apply exch_lt; [lia|lia|]. apply IH; [intros q Hq; apply HR; right; exact Hq|lia|exact Hi].
Qed.
Lemma target_lt : forall n l k i, piv_range n l -> k + length l <= n -> i < n -> target_row k l i < n.
Proof.
  intros n l. induction l as [|p l IH]; intros k i HR HL Hi; [exact Hi|]. cbn [target_row length] in *.
  assert (Hp : 1 <= p <= n) by (apply HR; left; reflexivity).
  apply IH; [intros q Hq; apply HR; right; exact Hq|lia|]. apply exch_lt; lia.
Qed.
Lemma source_target : forall l k i, source_row k l (target_row k l i) = i.
Proof. induction l as [|p l IH]; intros k i; [reflexivity|]. cbn. rewrite IH. apply exch_invol. Qed.
Lemma target_source : forall l k i, target_row k l (source_row k l i) = i.
Proof. induction l as [|p l IH]; intros k i; [reflexivity|]. cbn. rewrite exch_invol. apply IH. Qed.
Lemma source_app : forall l1 l2 k i, source_row k (l1 ++ l2) i = source_row k l1 (source_row (k + length l1) l2 i).
Proof.
  induction l1 as [|p l1 IH]; intros l2 k i; cbn [app source_row length].
  - rewrite Nat.add_0_r. reflexivity.
  - rewrite IH. f_equal. f_equal. replace (S k + length l1) with (k + S (length l1)) by lia. reflexivity.
Qed.
Lemma target_app : forall l1 l2 k i, target_row k (l1 ++ l2) i = target_row (k + length l1) l2 (target_row k l1 i).
Proof.
  induction l1 as [|p l1 IH]; intros l2 k i; cbn [app target_row length].
  - rewrite Nat.add_0_r. reflexivity.
  - rewrite IH. f_equal. lia.
Qed.

(** The pivots of a square matrix end with n: the test of the code finds it. *)
Lemma pivoted_true : forall n l, getrf_pivots n l -> l <> [] -> is_pivoted l = true.
Proof.
  intros n l (H1 & H2) NE. unfold is_pivoted. apply existsb_exists. exists (n - 1).
  assert (0 < length l) by (destruct l; [congruence|cbn; lia]). split; [apply in_seq; lia|].
  apply Nat.eqb_eq. specialize (H2 (n - 1)). lia.
Qed.

Section P.
  Variable F : Fld.
  Notation K := (fk F).
  Notation C := (car K).
  Notation "0" := (c0 K).
  Notation "1" := (c1 K).
  Notation "x + y" := (cadd K x y).
  Notation "x * y" := (cmul K x y).
  Notation "x - y" := (csub K x y).
  Add Ring Kr : (c_ring K).

  (** Reindexing of a sum by a bijection. *)
  Lemma sum_reindex : forall n (s s' : nat -> nat) (f : nat -> C),
    (forall i, (i < n)%nat -> (s i < n)%nat) -> (forall i, (i < n)%nat -> (s' i < n)%nat) -> (forall i, (i < n)%nat -> s (s' i) = i) ->
    (forall i, (i < n)%nat -> s' (s i) = i) ->
    sum n (fun i => f (s i)) = sum n f.
  Proof.
    intros n s s' f H1 H2 H3 H4. rewrite !sum_lsum. rewrite <- (lsum_map K nat nat s (seq 0 n) f). apply lsum_perm.
    apply NoDup_Permutation.
    - apply NoDup_map_on; [|apply seq_NoDup]. intros a b Ha Hb E. apply in_seq in Ha, Hb.
      rewrite <- (H4 a), <- (H4 b) by lia. rewrite E. reflexivity.
    - apply seq_NoDup.
    - intros x. split; intros Hx.
      + apply in_map_iff in Hx. destruct Hx as (y & <- & Hy). apply in_seq in Hy. apply in_seq. specialize (H1 y). lia.
      + apply in_seq in Hx. apply in_map_iff. exists (s' x). split; [apply H3; lia|]. apply in_seq. specialize (H2 x). lia.
  Qed.

  (** ** Substitution *)
  Lemma forward_length : forall n a b, length (forward F n a b) = n.
  Proof. induction n as [|n IH]; intros a b; [reflexivity|]. cbn [forward]. rewrite app_length, IH. cbn. lia. Qed.
  Lemma forward_prefix : forall n m a b i, (i < n)%nat -> (n <= m)%nat -> get (forward F m a b) i = get (forward F n a b) i.
  Proof.
    intros n m a b i Hi Hm. induction Hm as [|m Hm IH]; [reflexivity|]. cbn [forward]. rewrite get_app, forward_length.
    destruct (Nat.ltb_spec i m); [exact IH|lia].
  Qed.
  Lemma forward_last : forall n a b, get (forward F (S n) a b) n = fdiv F (b n - sum n (fun k => a n k * get (forward F n a b) k)) (a n n).
  Proof. intros. cbn [forward]. rewrite get_app, forward_length, Nat.ltb_irrefl, Nat.sub_diag. reflexivity. Qed.
  Lemma forward_ok : forall n a b, (forall i, (i < n)%nat -> a i i <> 0) -> (forall i k, (i < k < n)%nat -> a i k = 0) ->
    forall i, (i < n)%nat -> sum n (fun k => a i k * get (forward F n a b) k) = b i.
  Proof.
    intros n a b Hd Hz i Hi. replace n with (S i + (n - S i))%nat at 1 by lia. rewrite sum_split.
    rewrite (sum_0 K (n - S i)); [|intros k Hk; rewrite Hz by lia; ring]. cbn [sum].
    rewrite (forward_prefix (S i) n) by lia. rewrite forward_last.
    rewrite (sum_ext K i _ (fun k => a i k * get (forward F i a b) k)).
    2:{ intros k Hk. rewrite (forward_prefix i n) by lia. reflexivity. }
    set (z := sum i _). transitivity (z + fdiv F (b i - z) (a i i) * a i i + 0); [ring|]. rewrite fdiv_mul by (apply Hd; exact Hi). ring.
  Qed.
  Lemma get_rev : forall (l : list C) i, (i < length l)%nat -> get (rev l) i = get l (length l - 1 - i).
  Proof. intros l i H. unfold get. rewrite rev_nth by exact H. f_equal. lia. Qed.
  Lemma sum_rev : forall n (f : nat -> C), sum n f = sum n (fun k => f (n - 1 - k)%nat).
  Proof.
    intros n f. symmetry. apply (sum_reindex n (fun k => n - 1 - k)%nat (fun k => n - 1 - k)%nat f); intros; lia.
  Qed.
  Lemma backward_ok : forall n a b, (forall i, (i < n)%nat -> a i i <> 0) -> (forall i k, (k < i < n)%nat -> a i k = 0) ->
    forall i, (i < n)%nat -> sum n (fun k => a i k * get (backward F n a b) k) = b i.
  Proof.
    intros n a b Hd Hz i Hi. unfold backward. set (a' := fun i k => a (n - 1 - i)%nat (n - 1 - k)%nat). set (b' := fun i => b (n - 1 - i)%nat).
    assert (E : sum n (fun k => a' (n - 1 - i)%nat k * get (forward F n a' b') k) = b' (n - 1 - i)%nat).
    { apply forward_ok; [| |lia].
      - intros j Hj. unfold a'. apply Hd. lia.
      - intros j k Hk. unfold a'. apply Hz. lia. }
    unfold b' in E at 2. replace (n - 1 - (n - 1 - i))%nat with i in E by lia. rewrite <- E. rewrite sum_rev.
    apply sum_ext. intros k Hk. rewrite get_rev by (rewrite forward_length; lia). rewrite forward_length. unfold a'.
    replace (n - 1 - (n - 1 - k))%nat with k by lia. replace (n - 1 - (n - 1 - i))%nat with i by lia. reflexivity.
  Qed.
  Lemma substitute_ok : forall (lower : bool) n a b, (forall i, (i < n)%nat -> a i i <> 0) ->
    (forall i k, (i < n)%nat -> (k < n)%nat -> (if lower then i < k else k < i)%nat -> a i k = 0) ->
    forall i, (i < n)%nat -> sum n (fun k => a i k * get (substitute F lower n a b) k) = b i.
  Proof.
    intros lower n a b Hd Hz i Hi. unfold substitute. destruct lower.
    - apply forward_ok; [exact Hd| |exact Hi]. intros j k H. apply Hz; lia.
    - apply backward_ok; [exact Hd| |exact Hi]. intros j k H. apply Hz; lia.
  Qed.

  (** ** trsm *)
  Lemma tri_entry_triangle : forall u d (A : mat K) i j, tri_entry F u d (md A) (mr A) i j = triangle u d A i j.
  Proof.
    intros u d A i j. unfold tri_entry, triangle, me. destruct (Nat.eqb_spec i j) as [->|Hne]; [reflexivity|].
    unfold in_triangle. destruct u; destruct (Nat.leb_spec j i), (Nat.ltb_spec j i), (Nat.leb_spec i j), (Nat.ltb_spec i j); try lia; reflexivity.
  Qed.
  Lemma tri_op_triangle : forall t u d (A : mat K) i j, tri_op F t u d (md A) (mr A) i j = op_fun t (triangle u d A) i j.
  Proof. intros [| |] u d A i j; unfold tri_op, op_fun; rewrite tri_entry_triangle; reflexivity. Qed.

  Lemma tri_op_tri : forall t u d (A : mat K) m i j, mr A = m -> tri_op F t u d (md A) m i j = op_fun t (triangle u d A) i j.
  Proof. intros t u d A m i j <-. apply tri_op_triangle. Qed.

  (** Diagonal entries that can be divided by. *)
  Definition diag_ok (d : diagc) (A : mat K) (n : nat) : Prop := d = DgN -> forall i, (i < n)%nat -> me A i i <> 0.
  Lemma conj_nz : forall x : C, x <> 0 -> cconj K x <> 0.
  Proof. intros x H E. apply H. rewrite <- (cconj_invol K x), E. apply conj_0. Qed.
  Lemma tri_diag_nz : forall t u d A n i, diag_ok d A n -> (i < n)%nat -> op_fun t (triangle u d A) i i <> 0.
  Proof.
    intros t u d A n i H Hi. assert (E : triangle (F:=F) u d A i i <> 0).
    { unfold triangle. rewrite Nat.eqb_refl. destruct d; [apply f_10|apply H; [reflexivity|exact Hi]]. }
    destruct t; cbn [op_fun]; [exact E|exact E|apply conj_nz, E].
  Qed.
  Lemma tri_op_zero : forall t u d (A : mat K) i k, (if op_lower t u then i < k else k < i)%nat -> op_fun t (triangle u d A) i k = 0.
  Proof.
    intros t u d A i k H. assert (Z : forall a b, (match u with UpU => b < a | _ => a < b end)%nat -> triangle (F:=F) u d A a b = 0).
    { intros a b Hab. unfold triangle. destruct (Nat.eqb_spec a b); [destruct u; lia|].
      destruct u; [destruct (Nat.ltb_spec b a)|destruct (Nat.ltb_spec b a)|destruct (Nat.ltb_spec a b)]; try lia; reflexivity. }
    destruct t; cbn [op_fun].
    - apply Z. destruct u; cbn in H; exact H.
    - apply Z. destruct u; cbn in H; exact H.
    - rewrite Z; [apply conj_0|]. destruct u; cbn in H; exact H.
  Qed.

  Lemma trsm_ok : forall s u t d m n alpha (A : mat K) (B : list C),
    (1 <= m)%nat -> (1 <= n)%nat -> wf_mat A (match s with SdL => m | SdR => n end) (match s with SdL => m | SdR => n end) ->
    length B = (m * n)%nat -> diag_ok d A (match s with SdL => m | SdR => n end) ->
    exists X, trsm F s u t d m n alpha (md A) (match s with SdL => m | SdR => n end) B m = Some X /\ length X = length B /\
      is_solution s t (triangle u d A) alpha m n (fun i j => get B (i + j * m)%nat) (fun i j => get X (i + j * m)%nat).
  Proof.
    intros s u t d m n alpha A B Hm Hn (A1 & A2 & A3) HB HD. unfold trsm.
    set (na := match s with SdL => m | SdR => n end) in *. assert (1 <= na)%nat by (destruct s; unfold na; lia).
    rewrite !legal_true by lia. cbn [andb negb]. destruct (Nat.eqb_spec m 0); [lia|]. destruct (Nat.eqb_spec n 0); [lia|]. cbn [orb].
    rewrite (holds_full K (md A)) by exact A3. rewrite (holds_full K B) by exact HB. cbn [andb].
    eexists. split; [reflexivity|].
    assert (HL : ((n - 1) * m + m <= length B)%nat) by (rewrite HB; nia).
    match goal with |- context[update_mat K m n B m ?g] => set (f := g) end.
    destruct (update_mat_ok K m n B m f) as (L1 & L2); [exact Hm|lia|left; exact HL|].
    split; [exact L1|]. intros i j Hi Hj.
    assert (V : forall a b, (a < m)%nat -> (b < n)%nat -> get (update_mat K m n B m f) (a + b * m)%nat = f a b).
    { intros a b Ha Hb. rewrite L2 by exact Ha. destruct (Nat.ltb_spec a m); [|lia]. destruct (Nat.ltb_spec b n); [reflexivity|lia]. }
    destruct s; cbv zeta beta in *; unfold na in *.
    - rewrite (sum_ext K m _ (fun k => tri_op F t u d (md A) m i k * get (substitute F (op_lower t u) m (tri_op F t u d (md A) m) (fun k => alpha * get B (k + j * m)%nat)) k)).
      2:{ intros k Hk. rewrite V by lia. rewrite (tri_op_tri t u d A) by exact A1. reflexivity. }
      apply (substitute_ok (op_lower t u) m (tri_op F t u d (md A) m) (fun k => alpha * get B (k + j * m)%nat)); [| |exact Hi].
      + intros k Hk. rewrite (tri_op_tri t u d A) by exact A1. apply (tri_diag_nz t u d A m); assumption.
      + intros a b _ _ Hab. rewrite (tri_op_tri t u d A) by exact A1. apply tri_op_zero, Hab.
    - rewrite (sum_ext K n _ (fun k => tri_op F t u d (md A) n k j * get (substitute F (negb (op_lower t u)) n (fun p q => tri_op F t u d (md A) n q p) (fun k => alpha * get B (i + k * m)%nat)) k)).
      2:{ intros k Hk. rewrite V by lia. rewrite (tri_op_tri t u d A) by exact A1. unfold f. ring. }
      apply (substitute_ok (negb (op_lower t u)) n (fun p q => tri_op F t u d (md A) n q p) (fun k => alpha * get B (i + k * m)%nat)); [| |exact Hj].
      + intros k Hk. rewrite (tri_op_tri t u d A) by exact A1. apply (tri_diag_nz t u d A n); assumption.
      + intros a b _ _ Hab. rewrite (tri_op_tri t u d A) by exact A1. apply tri_op_zero. destruct (op_lower t u); exact Hab.
  Qed.

  (** ** Exchanges of rows and columns *)
  Lemma fold_opt_app : forall {A} (f : A -> list C -> option (list C)) l1 l2 b,
    fold_opt K f (l1 ++ l2) b = match fold_opt K f l1 b with Some b' => fold_opt K f l2 b' | None => None end.
  Proof. induction l1 as [|a l1 IH]; intros l2 b; [reflexivity|]. cbn. destruct (f a b); [apply IH|reflexivity]. Qed.

  Lemma swap_rows_ok : forall m n i p (b : list C), length b = (m * n)%nat -> (i < m)%nat -> (p < m)%nat ->
    length (swap_rows F n m i p b) = length b /\
    forall r j, (r < m)%nat -> (j < n)%nat -> get (swap_rows F n m i p b) (r + j * m)%nat = get b (exch i p r + j * m)%nat.
  Proof.
    intros m n i p b HB Hi Hp. unfold swap_rows. split; [apply length_mk|]. intros r j Hr Hj. rewrite get_mk, HB.
    destruct (Nat.ltb_spec (r + j * m) (m * n)); [|nia]. rewrite index_div, index_mod by exact Hr.
    destruct (Nat.ltb_spec j n); [reflexivity|lia].
  Qed.

  Definition laswp_step (n ldb : nat) (ipiv : list nat) (k : nat) (b : list C) : option (list C) :=
    match nth_error ipiv k with
    | Some p => if (1 <=? p)%nat && (p <=? ldb)%nat then Some (swap_rows F n ldb k (p - 1) b) else None
    | None => None
    end.
  Lemma laswp_fwd : forall m n l pre (b : list C), length b = (m * n)%nat -> piv_range m l -> (length pre + length l <= m)%nat ->
    exists b', fold_opt K (laswp_step n m (pre ++ l)) (seq (length pre) (length l)) b = Some b' /\ length b' = length b /\
      forall i j, (i < m)%nat -> (j < n)%nat -> get b' (i + j * m)%nat = get b (source_row (length pre) l i + j * m)%nat.
  Proof.
    intros m n l. induction l as [|p l IH]; intros pre b HB HR HL.
    - exists b. split; [reflexivity|]. split; reflexivity.
    - assert (Hp : (1 <= p <= m)%nat) by (apply HR; left; reflexivity). cbn [length seq fold_opt] in *.
      unfold laswp_step at 1. rewrite nth_error_app2, Nat.sub_diag by lia. cbn [nth_error].
      destruct (Nat.leb_spec 1 p); [|lia]. destruct (Nat.leb_spec p m); [|lia]. cbn [andb].
      destruct (swap_rows_ok m n (length pre) (p - 1)%nat b HB) as (S1 & S2); [lia|lia|].
      destruct (IH (pre ++ [p]) (swap_rows F n m (length pre) (p - 1) b)) as (b' & E1 & E2 & E3).
      + rewrite S1. exact HB.
      + intros q Hq. apply HR. right. exact Hq.
      + rewrite app_length. cbn. lia.
      + rewrite <- app_assoc in E1. rewrite app_length in E1, E3. cbn [length app] in E1, E3. rewrite Nat.add_1_r in E1, E3.
        exists b'. split; [exact E1|]. split; [lia|]. intros i j Hi Hj. rewrite E3 by assumption. cbn [source_row].
        apply S2; [|exact Hj]. apply source_lt; [intros q Hq; apply HR; right; exact Hq|lia|exact Hi].
  Qed.
  Lemma laswp_bwd : forall m n l pre (b : list C), length b = (m * n)%nat -> piv_range m l -> (length pre + length l <= m)%nat ->
    exists b', fold_opt K (laswp_step n m (pre ++ l)) (rev (seq (length pre) (length l))) b = Some b' /\ length b' = length b /\
      forall i j, (i < m)%nat -> (j < n)%nat -> get b' (i + j * m)%nat = get b (target_row (length pre) l i + j * m)%nat.
  Proof.
    intros m n l. induction l as [|p l IH]; intros pre b HB HR HL.
    - exists b. split; [reflexivity|]. split; reflexivity.
    - assert (Hp : (1 <= p <= m)%nat) by (apply HR; left; reflexivity). cbn [length seq rev] in *.
      destruct (IH (pre ++ [p]) b) as (b1 & E1 & E2 & E3).
      + exact HB.
      + intros q Hq. apply HR. right. exact Hq.
      + rewrite app_length. cbn. lia.
      + rewrite <- app_assoc in E1. rewrite app_length in E1, E3. cbn [length app] in E1, E3. rewrite Nat.add_1_r in E1, E3.
        rewrite fold_opt_app, E1. cbn [fold_opt]. unfold laswp_step. rewrite nth_error_app2, Nat.sub_diag by lia. cbn [nth_error].
        destruct (Nat.leb_spec 1 p); [|lia]. destruct (Nat.leb_spec p m); [|lia]. cbn [andb].
        destruct (swap_rows_ok m n (length pre) (p - 1)%nat b1) as (S1 & S2); [lia|lia|lia|].
        eexists. split; [reflexivity|]. split; [lia|]. intros i j Hi Hj. rewrite S2 by assumption. cbn [target_row].
        apply E3; [|exact Hj]. apply exch_lt; lia.
  Qed.
  Lemma laswp_ok : forall fwd m n (b : list C) l, length b = (m * n)%nat -> piv_range m l -> length l = m ->
    exists b', laswp F fwd n b m m l = Some b' /\ length b' = length b /\
      forall i j, (i < m)%nat -> (j < n)%nat ->
        get b' (i + j * m)%nat = get b ((if fwd then source_row 0 l i else target_row 0 l i) + j * m)%nat.
  Proof.
    intros fwd m n b l HB HR HL. unfold laswp. rewrite holds_full by exact HB.
    destruct fwd.
    - destruct (laswp_fwd m n l [] b HB HR) as (b' & E); [cbn; lia|]. cbn [length app] in E. rewrite HL in E. exists b'. exact E.
    - destruct (laswp_bwd m n l [] b HB HR) as (b' & E); [cbn; lia|]. cbn [length app] in E. rewrite HL in E. exists b'. exact E.
  Qed.

  (** Exchange of two coefficients of a row. *)
  Lemma swap2_ok : forall m n i p j (b : list C), length b = (m * n)%nat -> (i < m)%nat -> (p < n)%nat -> (j < n)%nat ->
    exists b', swap2 F (i + p * m) (i + j * m) b = Some b' /\ length b' = length b /\
      forall r c, (r < m)%nat -> (c < n)%nat -> get b' (r + c * m)%nat = if (r =? i)%nat then get b (r + exch p j c * m)%nat else get b (r + c * m)%nat.
  Proof.
    intros m n i p j b HB Hi Hp Hj. unfold swap2. destruct (Nat.ltb_spec (i + p * m) (length b)); [|nia].
    destruct (Nat.ltb_spec (i + j * m) (length b)); [|nia]. cbn [andb]. eexists. split; [reflexivity|]. split; [apply length_mk|].
    intros r c Hr Hc. rewrite get_mk. destruct (Nat.ltb_spec (r + c * m) (length b)); [|nia].
    assert (Inj : forall c', (r + c * m = i + c' * m)%nat -> r = i /\ c = c').
    { intros c' E. assert (r = i) by (rewrite <- (index_mod r c m Hr), <- (index_mod i c' m Hi); rewrite E; reflexivity). split; [assumption|]. nia. }
    unfold exch at 1. destruct (Nat.eqb_spec (r + c * m) (i + p * m)) as [E|E].
    - apply Inj in E. destruct E as (-> & ->). rewrite Nat.eqb_refl. unfold exch. rewrite Nat.eqb_refl. reflexivity.
    - destruct (Nat.eqb_spec (r + c * m) (i + j * m)) as [E'|E'].
      + apply Inj in E'. destruct E' as (-> & ->). rewrite Nat.eqb_refl. unfold exch. rewrite Nat.eqb_refl. destruct (Nat.eqb_spec j p); [subst; reflexivity|reflexivity].
      + destruct (Nat.eqb_spec r i) as [->|]; [|reflexivity]. unfold exch. destruct (Nat.eqb_spec c p) as [->|]; [congruence|].
        destruct (Nat.eqb_spec c j) as [->|]; [congruence|]. reflexivity.
  Qed.
  Lemma exch_sym : forall a b c, exch a b c = exch b a c.
  Proof. intros a b c. unfold exch. destruct (Nat.eqb_spec c a), (Nat.eqb_spec c b); congruence. Qed.

  Definition cswap_step (m n : nat) (ipiv : list nat) (i j : nat) (b : list C) : option (list C) :=
    match nth_error ipiv j with
    | Some p => if (1 <=? p)%nat && (p <=? n)%nat then swap2 F (i + (p - 1) * m) (i + j * m) b else None
    | None => None
    end.
  Lemma cswap_fwd : forall m n i l pre (b : list C), (i < m)%nat -> length b = (m * n)%nat -> piv_range n l -> (length pre + length l <= n)%nat ->
    exists b', fold_opt K (cswap_step m n (pre ++ l) i) (seq (length pre) (length l)) b = Some b' /\ length b' = length b /\
      forall r c, (r < m)%nat -> (c < n)%nat -> get b' (r + c * m)%nat = get b (r + (if r =? i then source_row (length pre) l c else c) * m)%nat.
  Proof.
    intros m n i l. induction l as [|p l IH]; intros pre b Hi HB HR HL.
    - exists b. split; [reflexivity|]. split; [reflexivity|]. intros r c _ _. cbn [source_row]. destruct (r =? i)%nat; reflexivity.
    - assert (Hp : (1 <= p <= n)%nat) by (apply HR; left; reflexivity). cbn [length seq fold_opt] in *.
      unfold cswap_step at 1. rewrite nth_error_app2, Nat.sub_diag by lia. cbn [nth_error].
      destruct (Nat.leb_spec 1 p); [|lia]. destruct (Nat.leb_spec p n); [|lia]. cbn [andb].
      destruct (swap2_ok m n i (p - 1)%nat (length pre) b HB) as (b1 & S0 & S1 & S2); [lia..|]. rewrite S0.
      destruct (IH (pre ++ [p]) b1) as (b' & E1 & E2 & E3).
      + exact Hi.
      + rewrite S1. exact HB.
      + intros q Hq. apply HR. right. exact Hq.
      + rewrite app_length. cbn. lia.
      + rewrite <- app_assoc in E1. rewrite app_length in E1, E3. cbn [length app] in E1, E3. rewrite Nat.add_1_r in E1, E3.
        exists b'. split; [exact E1|]. split; [lia|]. intros r c Hr Hc. rewrite E3 by assumption. cbn [source_row].
        destruct (Nat.eqb_spec r i) as [->|Hne].
        * rewrite S2; [rewrite Nat.eqb_refl, exch_sym; reflexivity|exact Hi|]. apply source_lt; [intros q Hq; apply HR; right; exact Hq|lia|exact Hc].
        * rewrite S2 by assumption. destruct (Nat.eqb_spec r i); [contradiction|reflexivity].
  Qed.
  Lemma cswap_bwd : forall m n i l pre (b : list C), (i < m)%nat -> length b = (m * n)%nat -> piv_range n l -> (length pre + length l <= n)%nat ->
    exists b', fold_opt K (cswap_step m n (pre ++ l) i) (rev (seq (length pre) (length l))) b = Some b' /\ length b' = length b /\
      forall r c, (r < m)%nat -> (c < n)%nat -> get b' (r + c * m)%nat = get b (r + (if r =? i then target_row (length pre) l c else c) * m)%nat.
  Proof.
    intros m n i l. induction l as [|p l IH]; intros pre b Hi HB HR HL.
    - exists b. split; [reflexivity|]. split; [reflexivity|]. intros r c _ _. cbn [target_row]. destruct (r =? i)%nat; reflexivity.
    - assert (Hp : (1 <= p <= n)%nat) by (apply HR; left; reflexivity). cbn [length seq rev] in *.
      destruct (IH (pre ++ [p]) b) as (b1 & E1 & E2 & E3).
      + exact Hi.
      + exact HB.
      + intros q Hq. apply HR. right. exact Hq.
      + rewrite app_length. cbn. lia.
      + rewrite <- app_assoc in E1. rewrite app_length in E1, E3. cbn [length app] in E1, E3. rewrite Nat.add_1_r in E1, E3.
        rewrite fold_opt_app, E1. cbn [fold_opt]. unfold cswap_step. rewrite nth_error_app2, Nat.sub_diag by lia. cbn [nth_error].
        destruct (Nat.leb_spec 1 p); [|lia]. destruct (Nat.leb_spec p n); [|lia]. cbn [andb].
        destruct (swap2_ok m n i (p - 1)%nat (length pre) b1) as (b' & S0 & S1 & S2); [lia..|]. rewrite S0.
        exists b'. split; [reflexivity|]. split; [lia|]. intros r c Hr Hc. rewrite S2 by assumption. cbn [target_row].
        destruct (Nat.eqb_spec r i) as [->|Hne].
        * rewrite E3; [rewrite Nat.eqb_refl, exch_sym; reflexivity|exact Hi|]. apply exch_lt; lia.
        * rewrite E3 by assumption. destruct (Nat.eqb_spec r i); [contradiction|reflexivity].
  Qed.
  Lemma column_swaps_ok : forall (fwd : bool) m n (b : list C) l, length b = (m * n)%nat -> piv_range n l -> length l = n ->
    exists b', column_swaps F (if fwd then seq 0 n else rev (seq 0 n)) m n l b = Some b' /\ length b' = length b /\
      forall i j, (i < m)%nat -> (j < n)%nat ->
        get b' (i + j * m)%nat = get b (i + (if fwd then source_row 0 l j else target_row 0 l j) * m)%nat.
  Proof.
    intros fwd m n b l HB HR HL. unfold column_swaps.
    change (fun (i : nat) (b0 : list C) => fold_opt K _ (if fwd then seq 0 n else rev (seq 0 n)) b0) with
      (fun (i : nat) (b0 : list C) => fold_opt K (cswap_step m n l i) (if fwd then seq 0 n else rev (seq 0 n)) b0).
    assert (G : forall q k b, (k + q <= m)%nat -> length b = (m * n)%nat -> exists b',
      fold_opt K (fun (i : nat) (b0 : list C) => fold_opt K (cswap_step m n l i) (if fwd then seq 0 n else rev (seq 0 n)) b0) (seq k q) b = Some b' /\
      length b' = length b /\ forall i j, (i < m)%nat -> (j < n)%nat -> get b' (i + j * m)%nat =
        get b (i + (if (k <=? i)%nat && (i <? k + q)%nat then if fwd then source_row 0 l j else target_row 0 l j else j) * m)%nat).
    { clear b HB. induction q as [|q IH]; intros k b Hk HB.
      - exists b. split; [reflexivity|]. split; [reflexivity|]. intros i j _ _.
        destruct (Nat.leb_spec k i), (Nat.ltb_spec i (k + 0)); cbn [andb]; try lia; reflexivity.
      - cbn [seq fold_opt].
        assert (S1 : exists b1, fold_opt K (cswap_step m n l k) (if fwd then seq 0 n else rev (seq 0 n)) b = Some b1 /\ length b1 = length b /\
          forall r c, (r < m)%nat -> (c < n)%nat -> get b1 (r + c * m)%nat =
            get b (r + (if r =? k then (if fwd then source_row 0 l c else target_row 0 l c) else c) * m)%nat).
        { destruct fwd.
          - destruct (cswap_fwd m n k l [] b) as (b1 & E); [lia|exact HB|exact HR|cbn; lia|]. cbn [length app] in E. rewrite HL in E. exists b1. exact E.
          - destruct (cswap_bwd m n k l [] b) as (b1 & E); [lia|exact HB|exact HR|cbn; lia|]. cbn [length app] in E. rewrite HL in E. exists b1. exact E. }
        destruct S1 as (b1 & S0 & S1 & S2). rewrite S0. destruct (IH (S k) b1) as (b' & E1 & E2 & E3); [lia|lia|].
        exists b'. split; [exact E1|]. split; [lia|]. intros i j Hi Hj. rewrite E3 by assumption.
        assert (Hs : ((if fwd then source_row 0 l j else target_row 0 l j) < n)%nat).
        { destruct fwd; [apply source_lt|apply target_lt]; try exact HR; try exact Hj; cbn; lia. }
        destruct (Nat.leb_spec (S k) i), (Nat.ltb_spec i (S k + q)), (Nat.leb_spec k i), (Nat.ltb_spec i (k + S q)); cbn [andb]; try lia;
          rewrite S2 by assumption; destruct (Nat.eqb_spec i k); try lia; reflexivity. }
    destruct (G m 0%nat b) as (b' & E1 & E2 & E3); [lia|exact HB|]. exists b'. split; [exact E1|]. split; [exact E2|].
    intros i j Hi Hj. rewrite E3 by assumption. destruct (Nat.leb_spec 0 i); [|lia]. destruct (Nat.ltb_spec i (0 + m)); [reflexivity|lia].
  Qed.

  (** ** triangular_matrix_matrix_solve *)
  Definition pivots_ok (n : nat) (l : list nat) : Prop := l = [] \/ getrf_pivots n l.
  Lemma factor_plain : forall u d (A : mat K) i j, mp A = [] \/ is_L u = false -> factor u d A i j = triangle u d A i j.
  Proof. intros u d A i j [E|E]; unfold factor; rewrite E; [destruct (is_L u); reflexivity|reflexivity]. Qed.
  Lemma is_solution_ext : forall s t T T' alpha m n B B' X X',
    (forall i j, (i < match s with SdL => m | SdR => n end)%nat -> (j < match s with SdL => m | SdR => n end)%nat -> T i j = T' i j) ->
    (forall i j, (i < m)%nat -> (j < n)%nat -> B i j = B' i j) -> (forall i j, (i < m)%nat -> (j < n)%nat -> X i j = X' i j) ->
    is_solution (F:=F) s t T alpha m n B X -> is_solution s t T' alpha m n B' X'.
  Proof.
    intros s t T T' alpha m n B B' X X' HT HB HX H i j Hi Hj. specialize (H i j Hi Hj). rewrite <- HB by assumption. rewrite <- H. destruct s.
    - apply sum_ext. intros k Hk. rewrite HX by assumption. f_equal. destruct t; cbn [op_fun]; rewrite HT by assumption; reflexivity.
    - apply sum_ext. intros k Hk. rewrite HX by assumption. f_equal. destruct t; cbn [op_fun]; rewrite HT by assumption; reflexivity.
  Qed.
  (** A row permutation of T: on the right-hand side before the solve or on the solution after it. *)
  Lemma solution_permuted : forall s t (T : nat -> nat -> C) alpha m n B X (sg tg : nat -> nat),
    let na := match s with SdL => m | SdR => n end in
    (forall i, (i < na)%nat -> (sg i < na)%nat) -> (forall i, (i < na)%nat -> (tg i < na)%nat) ->
    (forall i, (i < na)%nat -> sg (tg i) = i) -> (forall i, (i < na)%nat -> tg (sg i) = i) ->
    match s, is_N t with
    | SdL, true => is_solution s t T alpha m n (fun i j => B (sg i) j) X
    | SdL, false => exists Y, is_solution s t T alpha m n B Y /\ forall i j, (i < m)%nat -> (j < n)%nat -> X i j = Y (tg i) j
    | SdR, true => exists Y, is_solution s t T alpha m n B Y /\ forall i j, (i < m)%nat -> (j < n)%nat -> X i j = Y i (tg j)
    | SdR, false => is_solution s t T alpha m n (fun i j => B i (sg j)) X
    end ->
    is_solution (F:=F) s t (fun i j => T (tg i) j) alpha m n B X.
  Proof.
    intros s t T alpha m n B X sg tg na H1 H2 H3 H4 H. unfold na in *. destruct s.
    - destruct t; cbn [is_N] in H.
      + intros i j Hi Hj. transitivity (alpha * B (sg (tg i)) j); [exact (H (tg i) j (H2 i Hi) Hj)|rewrite (H3 i Hi); reflexivity].
      + destruct H as (Y & HY & HX). intros i j Hi Hj. rewrite <- (HY i j Hi Hj). cbn [op_fun].
        rewrite <- (sum_reindex m tg sg (fun k => T k i * Y k j)) by assumption. apply sum_ext. intros k Hk. rewrite HX by assumption. reflexivity.
      + destruct H as (Y & HY & HX). intros i j Hi Hj. rewrite <- (HY i j Hi Hj). cbn [op_fun].
        rewrite <- (sum_reindex m tg sg (fun k => cconj K (T k i) * Y k j)) by assumption. apply sum_ext. intros k Hk. rewrite HX by assumption. reflexivity.
    - destruct t; cbn [is_N] in H.
      + destruct H as (Y & HY & HX). intros i j Hi Hj. rewrite <- (HY i j Hi Hj). cbn [op_fun].
        rewrite <- (sum_reindex n tg sg (fun k => Y i k * T k j)) by assumption. apply sum_ext. intros k Hk. rewrite HX by assumption. reflexivity.
      + intros i j Hi Hj. transitivity (alpha * B i (sg (tg j))); [exact (H i (tg j) Hi (H2 j Hj))|rewrite (H3 j Hj); reflexivity].
      + intros i j Hi Hj. transitivity (alpha * B i (sg (tg j))); [exact (H i (tg j) Hi (H2 j Hj))|rewrite (H3 j Hj); reflexivity].
  Qed.

  Lemma tri_solve_ok : forall s u t d alpha (A B : mat K) m n,
    let na := match s with SdL => m | SdR => n end in
    (1 <= m)%nat -> (1 <= n)%nat -> wf_mat A na na -> wf_mat B m n -> diag_ok d A na -> pivots_ok na (mp A) ->
    exists X, triangular_matrix_matrix_solve F s u t d alpha A B = Some X /\ wf_mat X m n /\ mp X = mp B /\
      is_solution s t (factor u d A) alpha m n (me B) (me X).
  Proof.
    intros s u t d alpha A B m n na Hm Hn HA (B1 & B2 & B3) HD HP. unfold triangular_matrix_matrix_solve. rewrite B1, B2.
    assert (MB : forall i j, me B i j = get (md B) (i + j * m)%nat) by (intros; unfold me; rewrite B1; reflexivity).
    destruct (is_pivoted (mp A) && is_L u) eqn:Act.
    - apply andb_true_iff in Act. destruct Act as (Act1 & Act2). destruct HP as [HP|HP]; [rewrite HP in Act1; discriminate|].
      assert (HR : piv_range na (mp A)) by (apply getrf_range, HP). assert (HLen : length (mp A) = na) by apply HP.
      assert (S1 : forall i, (i < na)%nat -> (source_row 0 (mp A) i < na)%nat) by (intros; apply source_lt; [exact HR|cbn; lia|assumption]).
      assert (S2 : forall i, (i < na)%nat -> (target_row 0 (mp A) i < na)%nat) by (intros; apply target_lt; [exact HR|cbn; lia|assumption]).
      assert (Q : forall X, match s, is_N t with
        | SdL, true => is_solution s t (triangle u d A) alpha m n (fun i j => me B (source_row 0 (mp A) i) j) X
        | SdL, false => exists Y, is_solution s t (triangle u d A) alpha m n (me B) Y /\ forall i j, (i < m)%nat -> (j < n)%nat -> X i j = Y (target_row 0 (mp A) i) j
        | SdR, true => exists Y, is_solution s t (triangle u d A) alpha m n (me B) Y /\ forall i j, (i < m)%nat -> (j < n)%nat -> X i j = Y i (target_row 0 (mp A) j)
        | SdR, false => is_solution s t (triangle u d A) alpha m n (fun i j => me B i (source_row 0 (mp A) j)) X
        end -> is_solution s t (factor u d A) alpha m n (me B) X).
      { intros X HX. unfold factor. rewrite Act2.
        apply (solution_permuted s t (triangle u d A) alpha m n (me B) X (source_row 0 (mp A)) (target_row 0 (mp A))); [exact S1|exact S2| | |exact HX].
        - intros. apply source_target.
        - intros. apply target_source. }
      destruct s; unfold na in *; cbn [side_is_L negb andb].
      + destruct (is_N t) eqn:EN; cbn [andb negb].
        * destruct (laswp_ok true m n (md B) (mp A) B3 HR HLen) as (b1 & E1 & E2 & E3). rewrite E1.
          destruct (trsm_ok SdL u t d m n alpha A b1 Hm Hn HA) as (X & X1 & X2 & X3); [lia|exact HD|]. cbv beta iota in X1. rewrite X1.
          eexists. split; [reflexivity|]. split; [split; [reflexivity|split; [reflexivity|cbn [md]; lia]]|]. split; [reflexivity|].
          apply Q. revert X3. apply is_solution_ext; [reflexivity| |reflexivity]. intros i j Hi Hj. rewrite E3 by assumption. rewrite MB. reflexivity.
        * destruct (trsm_ok SdL u t d m n alpha A (md B) Hm Hn HA) as (b2 & X1 & X2 & X3); [lia|exact HD|]. cbv beta iota in X1. rewrite X1.
          destruct (laswp_ok false m n b2 (mp A)) as (b3 & E1 & E2 & E3); [lia|exact HR|exact HLen|]. rewrite E1.
          eexists. split; [reflexivity|]. split; [split; [reflexivity|split; [reflexivity|cbn [md]; lia]]|]. split; [reflexivity|].
          apply Q. exists (fun i j => get b2 (i + j * m)%nat). split.
          -- revert X3. apply is_solution_ext; [reflexivity| |reflexivity]. intros i j Hi Hj. rewrite MB. reflexivity.
          -- intros i j Hi Hj. unfold me. cbn [md mr]. apply E3; assumption.
      + destruct (is_N t) eqn:EN; cbn [andb negb].
        * destruct (trsm_ok SdR u t d m n alpha A (md B) Hm Hn HA) as (b2 & X1 & X2 & X3); [lia|exact HD|]. cbv beta iota in X1. rewrite X1.
          destruct (column_swaps_ok false m n b2 (mp A)) as (b3 & E1 & E2 & E3); [lia|exact HR|exact HLen|]. cbv iota in E1. rewrite E1.
          eexists. split; [reflexivity|]. split; [split; [reflexivity|split; [reflexivity|cbn [md]; lia]]|]. split; [reflexivity|].
          apply Q. exists (fun i j => get b2 (i + j * m)%nat). split.
          -- revert X3. apply is_solution_ext; [reflexivity| |reflexivity]. intros i j Hi Hj. rewrite MB. reflexivity.
          -- intros i j Hi Hj. unfold me. cbn [md mr]. apply E3; assumption.
        * destruct (column_swaps_ok true m n (md B) (mp A) B3 HR HLen) as (b1 & E1 & E2 & E3). cbv iota in E1. rewrite E1.
          destruct (trsm_ok SdR u t d m n alpha A b1 Hm Hn HA) as (X & X1 & X2 & X3); [lia|exact HD|]. cbv beta iota in X1. rewrite X1.
          eexists. split; [reflexivity|]. split; [split; [reflexivity|split; [reflexivity|cbn [md]; lia]]|]. split; [reflexivity|].
          apply Q. revert X3. apply is_solution_ext; [reflexivity| |reflexivity]. intros i j Hi Hj. rewrite E3 by assumption. rewrite MB. reflexivity.
    - destruct (trsm_ok s u t d m n alpha A (md B) Hm Hn HA) as (X & X1 & X2 & X3); [lia|exact HD|]. rewrite X1.
      eexists. split; [reflexivity|]. split; [split; [reflexivity|split; [reflexivity|cbn [md]; lia]]|]. split; [reflexivity|].
      revert X3. apply is_solution_ext.
      + intros i j _ _. symmetry. apply factor_plain. apply andb_false_iff in Act. destruct Act as [E|E]; [|right; exact E].
        destruct HP as [HP|HP]; [left; exact HP|]. left. destruct (mp A) eqn:EM; [reflexivity|]. exfalso.
        rewrite (pivoted_true na) in E; [discriminate|exact HP|congruence].
      + intros i j Hi Hj. rewrite MB. reflexivity.
      + reflexivity.
  Qed.
End P.
