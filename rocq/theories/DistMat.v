(** * Products of distributed operators with several vectors. *)

From Coq Require Import List Arith Bool Lia Ring Permutation.
From Verif Require Import ClusterModel ClusterSpec ClusterMore IOModel BlockModel Algebra BlasModel BlasProofs
  HMatModel HMatSpec HMatTop DistModel DistSpec DistProofs DistVec.
Import ListNotations.

Section D.
  Variable K : Coef.
  Notation C := (car K).
  Notation buf := (list C).
  Notation "0" := (c0 K).
  Notation "1" := (c1 K).
  Notation "x + y" := (cadd K x y).
  Notation "x * y" := (cmul K x y).
  Add Ring Kring10 : (c_ring K).

  (** ** Loops *)
  Lemma fold_ext : forall X (f g : X -> buf -> option buf) l, (forall a b, In a l -> f a b = g a b) -> forall b, fold_opt K f l b = fold_opt K g l b.
  Proof.
    induction l as [|a l IH]; intros H b; [reflexivity|]. cbn [fold_opt]. rewrite (H a b (or_introl eq_refl)).
    destruct (g a b); [|reflexivity]. apply IH. intros a' b' Ha. apply H. right. exact Ha.
  Qed.
  Lemma foldM_inv : forall (X : Type) (f : nat -> X -> option X) (Inv : nat -> X -> Prop) n x0,
    Inv 0%nat x0 -> (forall i x, (i < n)%nat -> Inv i x -> exists x', f i x = Some x' /\ Inv (S i) x') ->
    exists x', foldM f (seq 0 n) x0 = Some x' /\ Inv n x'.
  Proof.
    intros X f Inv n x0 H0 H.
    assert (G : forall m k x, (k + m = n)%nat -> Inv k x -> exists x', foldM f (seq k m) x = Some x' /\ Inv n x').
    { induction m as [|m IH]; intros k x E Hk.
      - exists x. split; [reflexivity|]. replace n with k by lia. exact Hk.
      - destruct (H k x ltac:(lia) Hk) as (x' & E1 & E2). cbn [seq foldM]. rewrite E1. apply IH; [lia|exact E2]. }
    exact (G n 0%nat x0 eq_refl H0).
  Qed.

  Lemma rows_inj : forall mu i j i' j', (i < mu -> i' < mu -> i + j * mu = i' + j' * mu -> i = i' /\ j = j')%nat.
  Proof.
    intros mu i j i' j' H1 H2 E.
    assert (E1 : ((i + j * mu) mod mu = (i' + j' * mu) mod mu)%nat) by (f_equal; exact E).
    assert (E2 : ((i + j * mu) / mu = (i' + j' * mu) / mu)%nat) by (f_equal; exact E).
    rewrite !Nat.mod_add, !Nat.mod_small in E1 by lia. rewrite !Nat.div_add, !Nat.div_small in E2 by lia. lia.
  Qed.

  (** columns to rows *)
  Lemma pack_rows_ok : forall mu n col X (b0 : buf), length b0 = (n * mu)%nat ->
    (forall i, (i < mu)%nat -> exists c, col i = Some c /\ (n <= length c)%nat /\ forall j, (j < n)%nat -> get c j = X j i) ->
    exists b, pack_rows K mu n col b0 = Some b /\ length b = (n * mu)%nat /\ holds_rows b n mu X.
  Proof.
    intros mu n col X b0 Hb Hc. unfold pack_rows.
    rewrite (fold_ext _ _ (fun i b => fold_opt K (fun j b' => match col i with Some c => mov K c j (i + j * mu) b' | None => None end) (seq 0 n) b)).
    - destruct (transpose_ok K (fun i j b' => match col i with Some c => mov K c j (i + j * mu) b' | None => None end)
        (fun i j => (i + j * mu)%nat) (fun i j => X j i) mu n b0) as (b & E1 & E2 & E3 & _).
      + intros i j i' j' H1 H2 H3 H4. apply rows_inj; assumption.
      + intros i j b Hi Hj Lb _. destruct (Hc i Hi) as (c & -> & Lc & Vc).
        destruct (mov_ok K c j (i + j * mu) b) as (b' & F1 & F2 & F3); [lia|nia|]. exists b'. split; [exact F1|]. split; [lia|].
        intros p. rewrite F3, Vc by exact Hj. reflexivity.
      + exists b. split; [exact E1|]. split; [lia|]. split; [lia|]. intros i c Hi Hc'. replace (i * mu + c)%nat with (c + i * mu)%nat by lia. apply E3; assumption.
    - intros i b Hi. apply in_seq in Hi. destruct (Hc i ltac:(lia)) as (c & -> & _). reflexivity.
  Qed.

  (** one column after the other *)
  Lemma cols_loop : forall mu n (f : nat -> buf -> option buf) (Y : nat -> nat -> C) (out : buf), (n * mu <= length out)%nat ->
    (forall i b, (i < mu)%nat -> length b = length out ->
      exists b', f i b = Some b' /\ length b' = length b /\
        (forall a, (a < n)%nat -> get b' (i * n + a) = Y a i) /\ (forall p, ~ (i * n <= p < i * n + n)%nat -> get b' p = get b p)) ->
    exists b, fold_opt K f (seq 0 mu) out = Some b /\ only_first (n * mu) out b /\ holds_cols b n mu Y.
  Proof.
    intros mu n f Y out Ho Hf.
    destruct (loop_ok K nat f (fun i p => ((i * n <=? p) && (p <? i * n + n))%nat) (fun p => Y (p mod n)%nat (p / n)%nat) (seq 0 mu) out) as (b & E1 & E2 & E3 & E4).
    { intros i b Hi Lb _. apply in_seq in Hi. destruct (Hf i b ltac:(lia) Lb) as (b' & F1 & F2 & F3 & F4). exists b'. split; [exact F1|]. split; [lia|].
      intros p. destruct (_ && _) eqn:B.
      - apply andb_true_iff in B as [B1 B2]. apply Nat.leb_le in B1. apply Nat.ltb_lt in B2.
        assert (Ed : (p / n = i)%nat) by (symmetry; apply (Nat.div_unique p n i (p - i * n)); lia).
        assert (Em : (p mod n = p - i * n)%nat) by (symmetry; apply (Nat.mod_unique p n i (p - i * n)); lia). rewrite Ed, Em, <- (F3 (p - i * n)%nat) by lia.
        f_equal. lia.
      - apply F4. intros [B1 B2]. apply andb_false_iff in B as [B|B]; [apply Nat.leb_gt in B|apply Nat.ltb_ge in B]; lia. }
    exists b. split; [exact E1|]. split; [split; [exact E2|]|split; [lia|]].
    - intros p Hp. apply E4. intros i Hi. apply in_seq in Hi. apply andb_false_iff. right. apply Nat.ltb_ge. nia.
    - intros a i Ha Hi. rewrite (E3 i (a + i * n)%nat); [|apply in_seq; lia|].
      + assert (Ed : ((a + i * n) / n = i)%nat) by (symmetry; apply (Nat.div_unique _ n i a); lia).
        assert (Em : ((a + i * n) mod n = a)%nat) by (symmetry; apply (Nat.mod_unique _ n i a); lia). rewrite Ed, Em. reflexivity.
      + apply andb_true_iff. split; [apply Nat.leb_le|apply Nat.ltb_lt]; lia.
  Qed.

  (** the column i of a buffer stored by rows *)
  Lemma row_column : forall mu n i (row : buf) X, holds_rows row n mu X -> (i < mu)%nat ->
    exists c, fold_opt K (fun j c => mov K row (i + j * mu) j c) (seq 0 n) (vec0 K n) = Some c /\ length c = n /\ forall j, (j < n)%nat -> get c j = X j i.
  Proof.
    intros mu n i row X [L V] Hi.
    destruct (loop_ok K nat (fun j c => mov K row (i + j * mu) j c) (fun j p => (p =? j)%nat) (fun p => X p i) (seq 0 n) (vec0 K n)) as (c & E1 & E2 & E3 & _).
    { intros j b Hj Lb _. rewrite length_vec0 in Lb. apply in_seq in Hj. destruct (mov_ok K row (i + j * mu) j b) as (b' & F1 & F2 & F3); [nia|lia|].
      exists b'. split; [exact F1|]. rewrite length_vec0. split; [lia|]. intros p. rewrite F3. destruct (Nat.eqb_spec p j) as [->|]; [|reflexivity].
      rewrite <- (V j i) by lia. f_equal. lia. }
    rewrite length_vec0 in E2. exists c. split; [exact E1|]. split; [exact E2|]. intros j Hj. apply (E3 j j); [apply in_seq; lia|apply Nat.eqb_refl].
  Qed.

  Lemma write_at_0 : forall (l : buf) a f w, (a <= length l)%nat -> f (skipn a l) = Some w -> length w = (length l - a)%nat ->
    exists l', write_at K l a 0 f = Some l' /\ length l' = length l /\ (forall p, (p < a)%nat -> get l' p = get l p) /\ (forall k, get l' (a + k) = get w k).
  Proof.
    intros l a f w Ha Hf Hw. destruct (write_at_ok K l a 0%nat f w) as (l' & E1 & E2 & E3); rewrite ?Nat.sub_0_r; try rewrite skipn_length; try lia; try assumption.
    rewrite Nat.sub_0_r in E3. exists l'. split; [exact E1|]. split; [exact E2|]. split; [|intros k].
    - intros p Hp. rewrite E3. destruct (Nat.ltb_spec p a); [reflexivity|lia].
    - rewrite E3. destruct (Nat.ltb_spec (a + k) a); [lia|]. f_equal. lia.
  Qed.

  Variables (D : dop K) (A : nat -> nat -> C).
  Notation P := (world K D).
  Notation T := (d_t K D).
  Notation S := (d_s K D).
  Notation NR := (pa_n (d_t K D)).
  Notation NC := (pa_n (d_s K D)).
  Notation ui p := (user_index (d_perm K D) p).
  Hypothesis HT : partition_ok T P.
  Hypothesis HS : partition_ok S P.
  Variable mu : nat.

  Lemma int_mat_ok : row_blocks D A (run_mat mu) mu -> forall r o s inp out, nth_error (pa_parts T) r = Some (o, s) ->
    (NC * mu <= length inp)%nat -> (s * mu <= length out)%nat ->
    exists y, int_mat_g2l K D r inp out mu = Some y /\ only_first (s * mu) out y /\
      forall i c, (i < s)%nat -> (c < mu)%nat -> get y (i * mu + c) = sum NC (fun j => part_matrix D A (o + i)%nat j * get inp (j * mu + c)).
  Proof.
    intros HB r o s inp out E Hi Ho. unfold int_mat_g2l. destruct (part_size_ok T r o s E) as [-> _].
    destruct (fill0_ok K (s * mu) out Ho) as (y0 & E0 & F0 & Z0). rewrite E0.
    destruct (add_up_ok K _ _ _ _ _ inp (HB r o s E) Hi y0) as (y & E1 & F1 & G1); [destruct F0; lia|].
    rewrite (fold_runs K (run_mat mu)) in E1. unfold run_mat in E1. exists y. split; [exact E1|]. split; [exact (only_first_trans K _ _ _ _ F0 F1)|].
    intros i c Hi' Hc. rewrite G1 by assumption. rewrite Z0 by nia. ring.
  Qed.
  (** the same on an input that holds X *)
  Lemma int_mat_user : row_blocks D A (run_mat mu) mu -> forall r o s inp out X, nth_error (pa_parts T) r = Some (o, s) ->
    holds_rows inp NC mu (fun j c => X (ui S j) c) -> (s * mu <= length out)%nat ->
    exists y, int_mat_g2l K D r inp out mu = Some y /\ only_first (s * mu) out y /\
      holds_rows y s mu (fun i c => mul NC A (fun b => X b c) (ui T (o + i)%nat)).
  Proof.
    intros HB r o s inp out X E [L V] Ho. destruct (int_mat_ok HB r o s inp out E L Ho) as (y & E1 & F & G).
    exists y. split; [exact E1|]. split; [exact F|]. split; [destruct F; lia|]. intros i c Hi Hc. rewrite G by assumption.
    rewrite <- (mul_part K D A HS). apply sum_ext. intros j Hj. rewrite V by assumption. reflexivity.
  Qed.

  (** the input of the collective products *)
  Lemma pack_global : forall p n (inp : buf) X, partition_ok p P -> n = pa_n p -> holds_cols inp n mu X ->
    exists b, pack_rows K mu n (fun i => do q <- ptr K inp (i * n); if d_perm K D then to_part K p q (vec0 K n) else Some q) (vec0 K (n * mu)) = Some b /\
      holds_rows b n mu (fun j c => X (ui p j) c).
  Proof.
    intros p n inp X Hp -> [L V].
    destruct (pack_rows_ok mu (pa_n p) (fun i => do q <- ptr K inp (i * pa_n p); if d_perm K D then to_part K p q (vec0 K (pa_n p)) else Some q)
      (fun j c => X (ui p j) c) (vec0 K (pa_n p * mu))) as (b & E1 & _ & E3); [apply length_vec0| |exists b; auto].
    intros i Hi. unfold ptr. assert (i * pa_n p + pa_n p <= pa_n p * mu)%nat by nia.
    destruct (Nat.leb_spec (i * pa_n p) (length inp)); [|lia].
    destruct (input_ok K D p P (skipn (i * pa_n p) inp) (pa_n p) Hp eq_refl) as (y & F1 & F2 & F3); [rewrite skipn_length; lia|].
    exists y. split; [exact F1|]. split; [exact F2|]. intros j Hj. rewrite F3 by exact Hj. rewrite get_skipn.
    rewrite <- V by (try exact Hi; apply (user_index_lt p P Hp); exact Hj). f_equal. lia.
  Qed.

  (** the local product of matrix_product_global_to_global, columns one after the other *)
  Lemma local_cols : row_blocks D A (run_mat mu) mu -> forall r o s inp X, nth_error (pa_parts T) r = Some (o, s) ->
    holds_rows inp NC mu (fun j c => X (ui S j) c) ->
    exists b, (do op <- write_at K (vec0 K (2 * s * mu)) (s * mu) 0 (fun w => int_mat_g2l K D r inp w mu);
        fold_opt K (fun i b => fold_opt K (fun j b' => mov K b' (s * mu + i + j * mu) (i * s + j) b') (seq 0 s) b) (seq 0 mu) op) = Some b /\
      (s * mu <= length b)%nat /\ forall i j, (i < mu)%nat -> (j < s)%nat -> get b (i * s + j) = mul NC A (fun b => X b i) (ui T (o + j)%nat).
  Proof.
    intros HB r o s inp X E Hin.
    destruct (int_mat_user HB r o s inp (skipn (s * mu) (vec0 K (2 * s * mu))) X E Hin) as (w & E1 & [F1 F2] & [L V]).
    { rewrite skipn_length, length_vec0. nia. }
    rewrite skipn_length, length_vec0 in F1.
    destruct (write_at_0 (vec0 K (2 * s * mu)) (s * mu) (fun w => int_mat_g2l K D r inp w mu) w) as (op & -> & Lop & _ & Vop); [rewrite length_vec0; nia|exact E1|rewrite length_vec0; exact F1|].
    rewrite length_vec0 in Lop.
    destruct (transpose_ok K (fun i j b' => mov K b' (s * mu + i + j * mu) (i * s + j) b') (fun i j => (i * s + j)%nat)
      (fun i j => mul NC A (fun b => X b i) (ui T (o + j)%nat)) mu s op) as (b & G1 & G2 & G3 & _).
    - intros i j i' j' H1 H2 H3 H4 E4. destruct (rows_inj s j i j' i') as [-> ->]; auto; lia.
    - intros i j b Hi Hj Lb Hsame. assert (j * mu + mu <= s * mu)%nat by nia. assert (i * s + s <= s * mu)%nat by nia.
      assert (s * mu + s * mu = 2 * s * mu)%nat by lia.
      destruct (mov_ok K b (s * mu + i + j * mu) (i * s + j) b) as (b' & W1 & W2 & W3); [lia|lia|].
      exists b'. split; [exact W1|]. split; [lia|]. intros p. rewrite W3. destruct (Nat.eqb_spec p (i * s + j)); [|reflexivity].
      rewrite Hsame.
      + replace (s * mu + i + j * mu)%nat with (s * mu + (j * mu + i))%nat by lia. rewrite Vop. apply V; assumption.
      + intros i' j' Hi' Hj'. assert (i' * s + s <= s * mu)%nat by nia. lia.
    - exists b. split; [exact G1|]. split; [lia|exact G3].
  Qed.

  Theorem mat_g2g_ok : row_blocks D A (run_mat mu) mu -> forall ins outs X,
    (forall r, (r < P)%nat -> holds_cols (at_rank K ins r) NC mu X) -> (forall r, (r < P)%nat -> (NR * mu <= length (at_rank K outs r))%nat) ->
    exists ys, mat_g2g K D ins outs mu = Some ys /\ length ys = P /\
      forall r, (r < P)%nat -> only_first (NR * mu) (at_rank K outs r) (at_rank K ys r) /\
        holds_cols (at_rank K ys r) NR mu (fun a c => mul NC A (fun b => X b c) a).
  Proof.
    intros HB ins outs X Hin Hout. unfold mat_g2g.
    destruct (on_ranks_ok buf [] P (fun r =>
        do s <- part_size T r;
        do input <- pack_rows K mu (nc K D) (fun i => do p <- ptr K (at_rank K ins r) (i * nc K D); if d_perm K D then to_part K S p (vec0 K (nc K D)) else Some p)
                      (vec0 K (nc K D * mu));
        do op <- write_at K (vec0 K (2 * s * mu)) (s * mu) 0 (fun w => int_mat_g2l K D r input w mu);
        fold_opt K (fun i b => fold_opt K (fun j b' => mov K b' (s * mu + i + j * mu) (i * s + j) b') (seq 0 s) b) (seq 0 mu) op)
      (fun r b => forall o s, nth_error (pa_parts T) r = Some (o, s) -> (s * mu <= length b)%nat /\
         forall i j, (i < mu)%nat -> (j < s)%nat -> get b (i * s + j) = mul NC A (fun b => X b i) (ui T (o + j)%nat))) as (locs & -> & HL & Hlocs).
    { intros r Hr. destruct (part_nth T P HT r Hr) as (o & s & E & _). destruct (part_size_ok T r o s E) as [-> _].
      destruct (pack_global S (nc K D) (at_rank K ins r) X HS eq_refl (Hin r Hr)) as (inp & -> & Hinp).
      destruct (local_cols HB r o s inp X E Hinp) as (b & E1 & E2 & E3). exists b. split; [exact E1|].
      intros o' s' E'. rewrite E in E'. injection E' as <- <-. auto. }
    rewrite (part_counts_ok T P HT mu). cbv zeta.
    set (cs := map (fun os => (snd os * mu)%nat) (pa_parts T)). set (ds := prefix_sums 0 cs).
    apply (on_ranks_ok buf [] P _ (fun r b => only_first (NR * mu) (at_rank K outs r) b /\ holds_cols b NR mu (fun a c => mul NC A (fun b => X b c) a))).
    intros r Hr. specialize (Hout r Hr). unfold nr.
    destruct (allgatherv_ok K T P mu locs (vec0 K (if d_perm K D then 2 * NR * mu else NR * mu)) HT) as (ob & E1 & [E2 _] & E3).
    { intros r' o s E. refine (proj1 (Hlocs r' _ o s E)). rewrite <- (po_count _ _ HT). apply nth_error_Some. congruence. }
    { rewrite length_vec0. destruct (d_perm K D); lia. }
    fold cs ds in E1. rewrite E1. rewrite length_vec0 in E2.
    (* the gathered buffer, part by part *)
    assert (Hob : forall r' o s i j, nth_error (pa_parts T) r' = Some (o, s) -> (i < mu)%nat -> (j < s)%nat ->
       get ob (o * mu + (i * s + j)) = mul NC A (fun b => X b i) (ui T (o + j)%nat)).
    { intros r' o s i j E Hi Hj. assert (i * s + s <= s * mu)%nat by nia. rewrite (E3 r' o s E) by lia.
      apply (Hlocs r'); [|exact E|exact Hi|exact Hj]. rewrite <- (po_count _ _ HT). apply nth_error_Some. congruence. }
    (* the copy of the pieces of one column *)
    assert (Hcol : forall i (b : buf) (src : buf -> buf) base, (i < mu)%nat -> (base + NR <= length b)%nat ->
       (forall b', length b' = length b -> (forall p, ~ (base <= p < base + NR)%nat -> get b' p = get b p) ->
          (NR * mu <= length (src b'))%nat /\ forall p, (p < NR * mu)%nat -> get (src b') p = get ob p) ->
       exists b1, fold_opt K (fun j b' => do s <- ptr K (src b') (nth j ds 0 + i * nth j cs 0 / mu)%nat; put K b' s (base + nth j ds 0 / mu)%nat (nth j cs 0 / mu)%nat) (seq 0 P) b = Some b1 /\
         length b1 = length b /\ (forall a, (a < NR)%nat -> get b1 (base + a) = mul NC A (fun b => X b i) (ui T a)) /\
         (forall p, ~ (base <= p < base + NR)%nat -> get b1 p = get b p)).
    { intros i b src base Hi Hbase Hsrc.
      set (reg := fun r p => match nth_error (pa_parts T) r with Some (o, s) => ((base + o <=? p) && (p <? base + o + s))%nat | None => false end).
      destruct (loop_ok K nat (fun j b' => do s <- ptr K (src b') (nth j ds 0 + i * nth j cs 0 / mu)%nat; put K b' s (base + nth j ds 0 / mu)%nat (nth j cs 0 / mu)%nat) reg
        (fun p => mul NC A (fun b => X b i) (ui T (p - base)%nat)) (seq 0 P) b) as (b1 & F1 & F2 & F3 & F4).
      { intros j b' Hj Lb' Hsame. apply in_seq in Hj. destruct (part_nth T P HT j ltac:(lia)) as (o & s & E & Hos).
        destruct (counts_nth T P HT j o s mu E) as [C1 C2]. fold cs in C1, C2. fold ds in C2. rewrite C1, C2.
        assert (Hmu : (mu <> 0)%nat) by lia.
        replace (i * (s * mu))%nat with (i * s * mu)%nat by lia. rewrite !Nat.div_mul by exact Hmu.
        destruct (Hsrc b' Lb') as [Ls Vs].
        { intros p Hp. apply Hsame. intros r' Hr'. unfold reg. destruct (nth_error (pa_parts T) r') as [[o' s']|] eqn:E'; [|reflexivity].
          pose proof (proj2 (tiles_in _ _ _ _ _ _ (po_tiles _ _ HT) E')). apply andb_false_iff.
          destruct (Nat.leb_spec (base + o') p); [right|left; reflexivity]. apply Nat.ltb_ge. lia. }
        assert (i * s + s <= s * mu)%nat by nia. assert (o * mu + s * mu <= NR * mu)%nat by nia.
        unfold ptr. destruct (Nat.leb_spec (o * mu + i * s) (length (src b'))); [|lia].
        destruct (put_ok K b' (skipn (o * mu + i * s) (src b')) (base + o) s) as (b2 & G1 & G2 & G3); [rewrite skipn_length; lia|lia|].
        exists b2. split; [exact G1|]. split; [lia|]. intros p. rewrite G3. unfold reg. rewrite E. destruct (_ && _) eqn:B; [|reflexivity].
        apply andb_true_iff in B as [B1 B2]. apply Nat.leb_le in B1. apply Nat.ltb_lt in B2.
        rewrite get_skipn. rewrite Vs by lia. replace (o * mu + i * s + (p - (base + o)))%nat with (o * mu + (i * s + (p - (base + o))))%nat by lia.
        rewrite (Hob j o s) by (try exact E; lia). do 2 f_equal. lia. }
      exists b1. split; [exact F1|]. split; [exact F2|]. split.
      - intros a Ha. destruct (part_find T P HT a Ha) as (r' & o & s & Hr' & E & B). rewrite (F3 r' (base + a)%nat); [|apply in_seq; lia|].
        + do 2 f_equal. lia.
        + unfold reg. rewrite E. apply andb_true_iff. split; [apply Nat.leb_le|apply Nat.ltb_lt]; lia.
      - intros p Hp. apply F4. intros r' Hr'. unfold reg. destruct (nth_error (pa_parts T) r') as [[o' s']|] eqn:E'; [|reflexivity].
        pose proof (proj2 (tiles_in _ _ _ _ _ _ (po_tiles _ _ HT) E')). apply andb_false_iff.
        destruct (Nat.leb_spec (base + o') p); [right|left; reflexivity]. apply Nat.ltb_ge. lia. }
    assert (Ep : d_perm K D = true \/ d_perm K D = false) by (destruct (d_perm K D); auto). destruct Ep as [Ep|Ep]; rewrite Ep in *.
    - destruct (foldM_inv (buf * buf) (fun i (bo : buf * buf) =>
              do b1 <- fold_opt K (fun j b' =>
                     do src <- ptr K b' (nth j ds 0 + i * nth j cs 0 / mu)%nat;
                     put K b' src (NR * mu + i * NR + nth j ds 0 / mu)%nat (nth j cs 0 / mu)%nat) (seq 0 P) (fst bo);
              do src <- ptr K b1 (NR * mu + i * NR);
              do out1 <- write_at K (snd bo) (i * NR) 0 (fun w => to_user K T src w);
              Some (b1, out1))
        (fun i bo => length (fst bo) = length ob /\ (forall p, (p < NR * mu)%nat -> get (fst bo) p = get ob p) /\
           length (snd bo) = length (at_rank K outs r) /\ (forall p, (i * NR <= p)%nat -> get (snd bo) p = get (at_rank K outs r) p) /\
           forall a c, (a < NR)%nat -> (c < i)%nat -> get (snd bo) (a + c * NR) = mul NC A (fun b => X b c) a) mu (ob, at_rank K outs r)) as ([b y] & E4 & _ & _ & I3 & I4 & I5).
      { cbn [fst snd]. split; [reflexivity|]. split; [reflexivity|]. split; [reflexivity|]. split; [reflexivity|]. intros a c _ Hc. lia. }
      { intros i [b out] Hi (I1 & I2 & I3 & I4 & I5). cbn [fst snd] in *.
        assert (i * NR + NR <= NR * mu)%nat by nia. assert (2 * NR * mu = NR * mu + NR * mu)%nat by lia.
        destruct (Hcol i b (fun b' => b') (NR * mu + i * NR)%nat Hi) as (b1 & F1 & F2 & F3 & F4).
        { lia. }
        { intros b' Lb' Hsame. split; [lia|]. intros p Hp. rewrite Hsame by lia. apply I2. exact Hp. }
        rewrite F1. unfold ptr. destruct (Nat.leb_spec (NR * mu + i * NR) (length b1)); [|lia].
        destruct (to_user_ok K T P (skipn (NR * mu + i * NR) b1) (skipn (i * NR) out) HT) as (w & G1 & [G2 G2'] & G3); [rewrite skipn_length; lia|rewrite skipn_length; lia|].
        rewrite skipn_length in G2.
        destruct (write_at_0 out (i * NR) (fun w => to_user K T (skipn (NR * mu + i * NR) b1) w) w) as (out1 & -> & W1 & W2 & W3); [lia|exact G1|exact G2|].
        eexists. split; [reflexivity|]. cbn [fst snd]. split; [lia|]. split; [intros p Hp; rewrite F4 by lia; apply I2; exact Hp|]. split; [lia|]. split.
        - intros p Hp. replace p with (i * NR + (p - i * NR))%nat by lia. rewrite W3, G2' by lia. rewrite get_skipn.
          replace (i * NR + (p - i * NR))%nat with p by lia. apply I4. lia.
        - intros a c Ha Hc. destruct (Nat.eq_dec c i) as [->|Hne].
          + rewrite (Nat.add_comm a). rewrite W3. destruct (user_index_surj T P HT true a Ha) as (k & Hk & <-). rewrite G3, get_skipn, F3 by exact Hk. reflexivity.
          + rewrite W2 by nia. apply I5; lia. }
      rewrite E4. cbn [snd] in *. exists y. split; [reflexivity|]. split; [split; [exact I3|]|split; [lia|]].
      + intros p Hp. apply I4. lia.
      + intros a c Ha Hc. apply I5; assumption.
    - destruct (cols_loop mu NR (fun i out => fold_opt K (fun j o =>
            do src <- ptr K ob (nth j ds 0 + i * nth j cs 0 / mu)%nat;
            put K o src (i * NR + nth j ds 0 / mu)%nat (nth j cs 0 / mu)%nat) (seq 0 P) out) (fun a c => mul NC A (fun b => X b c) a) (at_rank K outs r) Hout) as (y & F1 & F2 & F3).
      { intros i b Hi Lb. assert (i * NR + NR <= NR * mu)%nat by nia.
        destruct (Hcol i b (fun _ => ob) (i * NR)%nat Hi) as (b1 & G1 & G2 & G3 & G4); [lia| |].
        { intros b' _ _. split; [lia|reflexivity]. }
        exists b1. split; [exact G1|]. split; [exact G2|]. split; [|exact G4]. intros a Ha. rewrite G3 by exact Ha. reflexivity. }
      exists y. split; [exact F1|]. split; [exact F2|exact F3].
  Qed.

  (** ** Transposed products *)
  Definition tblocks : Prop := transposed_blocks D A (run_tmat mu) mu \/ transposed_blocks_disjoint D A (run_tmat mu) mu.

  Lemma int_tpart_mat_ok : tblocks -> forall r o s inp out, nth_error (pa_parts T) r = Some (o, s) ->
    (s * mu <= length inp)%nat -> (NC * mu <= length out)%nat ->
    exists y, (do b <- fill0 K (nc K D * mu) out; fold_opt K (fun v b => vl_tmat K v 1 inp 1 b mu) (ops_of K D r) b) = Some y /\ only_first (NC * mu) out y /\
      forall j c, (j < NC)%nat -> (c < mu)%nat -> get y (j * mu + c) = sum s (fun i => part_matrix D A (o + i)%nat j * get inp (i * mu + c)).
  Proof.
    intros HB r o s inp out E Hi Ho.
    destruct (fill0_ok K (nc K D * mu) out Ho) as (y0 & -> & F0 & Z0). unfold nc in *.
    assert (G : exists y, fold_opt K (fun (run : buf -> buf -> option buf) b => run inp b) (map (run_tmat mu) (ops_of K D r)) y0 = Some y /\ only_first (NC * mu) y0 y /\
      forall j c, (j < NC)%nat -> (c < mu)%nat -> get y (j * mu + c) = sum s (fun i => part_matrix D A (o + i)%nat j * get inp (i * mu + c))).
    { assert (Hz : forall j c, (j < NC)%nat -> (c < mu)%nat -> get y0 (j * mu + c) = 0) by (intros j c Hj Hc; apply Z0; nia).
      assert (Hy0 : (NC * mu <= length y0)%nat) by (destruct F0; lia).
      destruct HB as [HB|HB].
      - destruct (add_up_ok K _ _ _ _ _ inp (HB r o s E) Hi y0 Hy0) as (y & E1 & F1 & G1). exists y. split; [exact E1|]. split; [exact F1|].
        intros j c Hj Hc. rewrite G1, Hz by assumption. ring.
      - exact (add_up_disjoint_ok K _ _ _ _ _ inp (HB r o s E) Hi y0 Hy0 Hz). }
    destruct G as (y & E1 & F1 & G1). rewrite (fold_runs K (run_tmat mu)) in E1. exists y. split; [exact E1|].
    split; [exact (only_first_trans K _ _ _ _ F0 F1)|exact G1].
  Qed.

  (** the sum over the processes *)
  Lemma sum_parts_mat : forall parts X j c, length parts = P -> (j < NC)%nat -> (c < mu)%nat ->
    (forall r o s, (r < P)%nat -> nth_error (pa_parts T) r = Some (o, s) ->
       get (at_rank K parts r) (j * mu + c) = sum s (fun i => part_matrix D A (o + i)%nat j * X (ui T (o + i)%nat) c)) ->
    lsum parts (fun b => get b (j * mu + c)) = tmul NR A (fun a => X a c) (ui S j).
  Proof.
    intros parts X j c HL Hj Hc H.
    rewrite (sum_over_ranks K D HT parts (fun a => part_matrix D A a j * X (ui T a) c) (j * mu + c) HL H).
    exact (tmul_part K D A HT (fun a => X a c) j).
  Qed.

  Lemma tparts_ok : tblocks -> forall ins outs X,
    (forall r o s, (r < P)%nat -> nth_error (pa_parts T) r = Some (o, s) -> holds_rows (at_rank K ins r) s mu (fun i c => X (ui T (o + i)%nat) c)) ->
    (forall r, (r < P)%nat -> (NC * mu <= length (at_rank K outs r))%nat) ->
    exists parts, on_ranks P (fun r => do b <- fill0 K (nc K D * mu) (at_rank K outs r);
        fold_opt K (fun v b => vl_tmat K v 1 (at_rank K ins r) 1 b mu) (ops_of K D r) b) = Some parts /\ length parts = P /\
      (forall r, (r < P)%nat -> only_first (NC * mu) (at_rank K outs r) (at_rank K parts r)) /\
      forall j c, (j < NC)%nat -> (c < mu)%nat -> lsum parts (fun b => get b (j * mu + c)) = tmul NR A (fun a => X a c) (ui S j).
  Proof.
    intros HB ins outs X Hin Hout.
    destruct (on_ranks_ok buf [] P (fun r => do b <- fill0 K (nc K D * mu) (at_rank K outs r);
        fold_opt K (fun v b => vl_tmat K v 1 (at_rank K ins r) 1 b mu) (ops_of K D r) b)
      (fun r b => only_first (NC * mu) (at_rank K outs r) b /\
         forall o s, nth_error (pa_parts T) r = Some (o, s) -> forall j c, (j < NC)%nat -> (c < mu)%nat ->
           get b (j * mu + c) = sum s (fun i => part_matrix D A (o + i)%nat j * X (ui T (o + i)%nat) c)))
      as (parts & E & HL & Hparts).
    { intros r Hr. destruct (part_nth T P HT r Hr) as (o & s & E & _). destruct (Hin r o s Hr E) as [L V].
      destruct (int_tpart_mat_ok HB r o s (at_rank K ins r) (at_rank K outs r) E L (Hout r Hr)) as (y & E1 & F & G).
      exists y. split; [exact E1|]. split; [exact F|]. intros o' s' E'. rewrite E in E'. injection E' as <- <-. intros j c Hj Hc. rewrite G by assumption.
      apply sum_ext. intros i Hi. rewrite V by assumption. reflexivity. }
    exists parts. split; [exact E|]. split; [exact HL|]. split; [intros r Hr; exact (proj1 (Hparts r Hr))|].
    intros j c Hj Hc. apply sum_parts_mat; try assumption. intros r o s Hr Er. exact (proj2 (Hparts r Hr) o s Er j c Hj Hc).
  Qed.

  Lemma int_tmat_l2g_ok : tblocks -> forall ins outs X,
    (forall r o s, (r < P)%nat -> nth_error (pa_parts T) r = Some (o, s) -> holds_rows (at_rank K ins r) s mu (fun i c => X (ui T (o + i)%nat) c)) ->
    (forall r, (r < P)%nat -> (NC * mu <= length (at_rank K outs r))%nat) ->
    exists ys, int_tmat_l2g K D ins outs mu = Some ys /\ length ys = P /\
      forall r, (r < P)%nat -> only_first (NC * mu) (at_rank K outs r) (at_rank K ys r) /\
        holds_rows (at_rank K ys r) NC mu (fun j c => tmul NR A (fun a => X a c) (ui S j)).
  Proof.
    intros HB ins outs X Hin Hout. unfold int_tmat_l2g.
    destruct (tparts_ok HB ins outs X Hin Hout) as (parts & -> & HL & HF & HV).
    apply (on_ranks_ok buf [] P _ (fun r b => only_first (NC * mu) (at_rank K outs r) b /\ holds_rows b NC mu (fun j c => tmul NR A (fun a => X a c) (ui S j)))).
    intros r Hr. destruct (allreduce_ok K (NC * mu) parts r) as (b & E1 & F & V); [lia| |].
    { intros b Hb. destruct (In_nth _ _ [] Hb) as (r' & Hr' & <-). rewrite HL in Hr'. destruct (HF r' Hr') as [F1 _].
      change (NC * mu <= length (at_rank K parts r'))%nat. rewrite F1. apply Hout. exact Hr'. }
    exists b. split; [exact E1|]. pose proof (only_first_trans K _ _ _ _ (HF r Hr) F) as F'. split; [exact F'|].
    split; [destruct F' as [F' _]; rewrite F'; exact (Hout r Hr)|]. intros j c Hj Hc. rewrite V by nia. apply HV; assumption.
  Qed.

  (** the way out: columns from rows *)
  Lemma unpack_global : forall (row out : buf) Y, holds_rows row NC mu (fun j c => Y (ui S j) c) -> (NC * mu <= length out)%nat ->
    exists b, (if d_perm K D then
              fold_opt K (fun i out =>
                do c <- fold_opt K (fun j c => mov K row (i + j * mu) j c) (seq 0 NC) (vec0 K NC);
                write_at K out (i * NC) 0 (fun w => to_user K S c w)) (seq 0 mu) out
            else
              fold_opt K (fun i out => fold_opt K (fun j o => mov K row (i + j * mu) (i * NC + j) o) (seq 0 NC) out)
                (seq 0 mu) out) = Some b /\ only_first (NC * mu) out b /\ holds_cols b NC mu Y.
  Proof.
    intros row out Y Hrow Hout.
    assert (Ep : d_perm K D = true \/ d_perm K D = false) by (destruct (d_perm K D); auto). destruct Ep as [Ep|Ep]; rewrite Ep in *.
    - apply (cols_loop mu NC); [exact Hout|]. intros i b Hi Lb.
      destruct (row_column mu NC i row _ Hrow Hi) as (c & -> & Lc & Vc). assert (i * NC + NC <= NC * mu)%nat by nia.
      destruct (to_user_ok K S P c (skipn (i * NC) b) HS) as (w & G1 & [G2 G2'] & G3); [lia|rewrite skipn_length; lia|]. rewrite skipn_length in G2.
      destruct (write_at_0 b (i * NC) (fun w => to_user K S c w) w) as (b' & W1 & W2 & W3 & W4); [lia|exact G1|exact G2|].
      exists b'. split; [exact W1|]. split; [exact W2|]. split.
      + intros a Ha. rewrite W4. destruct (user_index_surj S P HS true a Ha) as (k & Hk & <-). rewrite G3, Vc by exact Hk. reflexivity.
      + intros p Hp. destruct (Nat.lt_ge_cases p (i * NC)) as [Hlt|Hge]; [apply W3; exact Hlt|].
        replace p with (i * NC + (p - i * NC))%nat by lia. rewrite W4, G2' by lia. apply get_skipn.
    - destruct Hrow as [L V].
      destruct (transpose_ok K (fun i j o => mov K row (i + j * mu) (i * NC + j) o) (fun i j => (i * NC + j)%nat) (fun i j => Y j i) mu NC out) as (b & E1 & E2 & E3 & E4).
      + intros i j i' j' H1 H2 H3 H4 E. destruct (rows_inj NC j i j' i') as [-> ->]; auto; lia.
      + intros i j b Hi Hj Lb _. assert (i * NC + NC <= NC * mu)%nat by nia. assert (j * mu + mu <= NC * mu)%nat by nia.
        destruct (mov_ok K row (i + j * mu) (i * NC + j) b) as (b' & F1 & F2 & F3); [lia|lia|].
        exists b'. split; [exact F1|]. split; [lia|]. intros p. rewrite F3. destruct (Nat.eqb_spec p (i * NC + j)); [|reflexivity].
        rewrite (Nat.add_comm i). rewrite (V j i) by assumption. reflexivity.
      + exists b. split; [exact E1|]. split; [split; [exact E2|]|split; [lia|]].
        * intros p Hp. apply E4. intros i j Hi Hj. nia.
        * intros a c Ha Hc. rewrite (Nat.add_comm a). apply E3; assumption.
  Qed.

  Theorem tmat_g2g_plain_ok : (d_sym K D <> SyS /\ d_sym K D <> SyH) -> tblocks -> forall ins outs X,
    (forall r, (r < P)%nat -> holds_cols (at_rank K ins r) NR mu X) -> (forall r, (r < P)%nat -> (NC * mu <= length (at_rank K outs r))%nat) ->
    exists ys, tmat_g2g K D ins outs mu = Some ys /\ length ys = P /\
      forall r, (r < P)%nat -> only_first (NC * mu) (at_rank K outs r) (at_rank K ys r) /\
        holds_cols (at_rank K ys r) NC mu (fun b c => tmul NR A (fun a => X a c) b).
  Proof.
    intros [Hs1 Hs2] HB ins outs X Hin Hout. unfold tmat_g2g.
    assert (E0 : forall U (a b c : U), match d_sym K D with SyS => a | SyH => b | _ => c end = c).
    { intros U a b c. destruct (d_sym K D); congruence. }
    rewrite E0. clear E0.
    destruct (on_ranks_ok buf [] P (fun r =>
            do s <- part_size T r;
            do o <- part_off T r;
            pack_rows K mu s (fun i => do p <- ptr K (at_rank K ins r) (i * nr K D);
                                     do b <- (if d_perm K D then to_part K T p (vec0 K (nr K D)) else Some p);
                                     ptr K b o) (vec0 K (s * mu)))
      (fun r b => forall o s, nth_error (pa_parts T) r = Some (o, s) -> holds_rows b s mu (fun i c => X (ui T (o + i)%nat) c)))
      as (inputs & -> & HL & Hinp).
    { intros r Hr. destruct (part_nth T P HT r Hr) as (o & s & E & Hos). destruct (Hin r Hr) as [L V].
      destruct (part_size_ok T r o s E) as [-> ->]. unfold nr.
      destruct (pack_rows_ok mu s (fun i => do p <- ptr K (at_rank K ins r) (i * NR);
                                     do b <- (if d_perm K D then to_part K T p (vec0 K NR) else Some p);
                                     ptr K b o) (fun i c => X (ui T (o + i)%nat) c) (vec0 K (s * mu))) as (b & E1 & _ & E3).
      { apply length_vec0. }
      { intros i Hi. assert (i * NR + NR <= NR * mu)%nat by nia. unfold ptr at 1. destruct (Nat.leb_spec (i * NR) (length (at_rank K ins r))); [|lia].
        destruct (input_ok K D T P (skipn (i * NR) (at_rank K ins r)) NR HT eq_refl) as (y & -> & F2 & F3); [rewrite skipn_length; lia|].
        unfold ptr. destruct (Nat.leb_spec o (length y)); [|lia]. eexists. split; [reflexivity|]. split; [rewrite skipn_length; lia|].
        intros j Hj. rewrite get_skipn, F3 by lia. rewrite get_skipn.
        rewrite <- V by (try exact Hi; apply (user_index_lt T P HT); lia). f_equal. lia. }
      exists b. split; [exact E1|]. intros o' s' E'. rewrite E in E'. injection E' as <- <-. exact E3. }
    assert (Lv : forall r, (r < P)%nat -> length (at_rank K (map (fun _ : nat => vec0 K (mu * nc K D)) (seq 0 P)) r) = (NC * mu)%nat).
    { intros r Hr. unfold at_rank. rewrite nth_indep with (d' := vec0 K (mu * nc K D)) by (rewrite map_length, seq_length; exact Hr).
      rewrite (map_nth (fun _ => vec0 K (mu * nc K D)) (seq 0 P) 0%nat r), length_vec0. unfold nc. lia. }
    destruct (int_tmat_l2g_ok HB inputs (map (fun _ => vec0 K (mu * nc K D)) (seq 0 P)) X) as (os & -> & HLo & Hos).
    { intros r o s Hr E. exact (Hinp r Hr o s E). }
    { intros r Hr. rewrite Lv by exact Hr. lia. }
    apply (on_ranks_ok buf [] P _ (fun r b => only_first (NC * mu) (at_rank K outs r) b /\ holds_cols b NC mu (fun b c => tmul NR A (fun a => X a c) b))).
    intros r Hr. exact (unpack_global (at_rank K os r) (at_rank K outs r) (fun b c => tmul NR A (fun a => X a c) b) (proj2 (Hos r Hr)) (Hout r Hr)).
  Qed.

  Lemma cols_ext : forall (b : buf) n X Y, (forall i c, (i < n)%nat -> (c < mu)%nat -> X i c = Y i c) -> holds_cols b n mu X -> holds_cols b n mu Y.
  Proof. intros b n X Y H [L V]. split; [exact L|]. intros i c Hi Hc. rewrite V by assumption. apply H; assumption. Qed.
  Lemma conj_copy_cols : forall n k (x : buf) X, k = (n * mu)%nat -> holds_cols x n mu X -> exists y, conj_copy K k x = Some y /\ holds_cols y n mu (fun i c => cconj K (X i c)).
  Proof.
    intros n k x X -> [L V]. destruct (conj_copy_ok K (n * mu) x L) as (y & E1 & E2 & E3). exists y. split; [exact E1|]. split; [lia|].
    intros i c Hi Hc. rewrite E3 by nia. rewrite V by assumption. reflexivity.
  Qed.
  Lemma conj_buf_cols : forall n k (x : buf) X, k = (n * mu)%nat -> holds_cols x n mu X ->
    exists y, conj_buf K k x = Some y /\ only_first (n * mu) x y /\ holds_cols y n mu (fun i c => cconj K (X i c)).
  Proof.
    intros n k x X -> [L V]. destruct (conj_buf_ok K (n * mu) x L) as (y & E1 & E2 & E3). exists y. split; [exact E1|]. split; [exact E2|].
    split; [destruct E2; lia|]. intros i c Hi Hc. rewrite E3 by nia. rewrite V by assumption. reflexivity.
  Qed.

  Theorem tmat_g2g_ok : sym_matrix D A ->
    match d_sym K D with SyS | SyH => row_blocks D A (run_mat mu) mu | _ => tblocks end -> forall ins outs X,
    (forall r, (r < P)%nat -> holds_cols (at_rank K ins r) NR mu X) -> (forall r, (r < P)%nat -> (NC * mu <= length (at_rank K outs r))%nat) ->
    exists ys, tmat_g2g K D ins outs mu = Some ys /\ length ys = P /\
      forall r, (r < P)%nat -> only_first (NC * mu) (at_rank K outs r) (at_rank K ys r) /\
        holds_cols (at_rank K ys r) NC mu (fun b c => tmul NR A (fun a => X a c) b).
  Proof.
    intros Hsym HB ins outs X Hin Hout. unfold sym_matrix in Hsym.
    assert (Es : d_sym K D = SyS \/ d_sym K D = SyH \/ (d_sym K D <> SyS /\ d_sym K D <> SyH)).
    { destruct (d_sym K D); auto; right; right; split; discriminate. }
    destruct Es as [Es|[Es|Es]].
    - rewrite Es in *. destruct Hsym as [En Hsym]. unfold tmat_g2g. rewrite Es.
      destruct (mat_g2g_ok HB ins outs X) as (ys & E1 & E2 & E3).
      { intros r Hr. rewrite <- En. apply Hin. exact Hr. }
      { intros r Hr. rewrite En. apply Hout. exact Hr. }
      exists ys. split; [exact E1|]. split; [exact E2|]. intros r Hr. destruct (E3 r Hr) as [F V]. rewrite En in F, V at 1. split; [exact F|].
      refine (cols_ext _ _ _ _ _ V). intros b c Hb Hc. apply mul_sym; assumption.
    - rewrite Es in *. destruct Hsym as [En Hsym]. unfold tmat_g2g. rewrite Es.
      destruct (on_ranks_ok buf [] P (fun r => conj_copy K (nr K D * mu) (at_rank K ins r)) (fun r b => holds_cols b NR mu (fun a c => cconj K (X a c)))) as (ic & -> & Lc & Hc).
      { intros r Hr. exact (conj_copy_cols NR _ _ X eq_refl (Hin r Hr)). }
      destruct (mat_g2g_ok HB ic outs (fun a c => cconj K (X a c))) as (os & -> & E2 & E3).
      { intros r Hr. rewrite <- En. apply Hc. exact Hr. }
      { intros r Hr. rewrite En. apply Hout. exact Hr. }
      apply (on_ranks_ok buf [] P _ (fun r b => only_first (NC * mu) (at_rank K outs r) b /\ holds_cols b NC mu (fun b c => tmul NR A (fun a => X a c) b))).
      intros r Hr. destruct (E3 r Hr) as [F V]. rewrite En in F, V at 1.
      destruct (conj_buf_cols NC (mu * nc K D) (at_rank K os r) _ ltac:(unfold nc; lia) V) as (y & G1 & G2 & G3).
      exists y. split; [exact G1|]. split; [exact (only_first_trans K _ _ _ _ F G2)|].
      refine (cols_ext _ _ _ _ _ G3). intros b c Hb Hc'. apply mul_herm; assumption.
    - apply tmat_g2g_plain_ok; try assumption. destruct Es as [Es1 Es2]. revert HB Es1 Es2. destruct (d_sym K D); intros HB Es1 Es2; first [exact HB|congruence].
  Qed.

  (** ** Local to local *)
  Hypothesis HTl : d_perm K D = true -> partition_local T.
  Hypothesis HSl : d_perm K D = true -> partition_local S.

  Lemma pack_local_ok : forall p X r o s (inp : buf), partition_ok p P -> (d_perm K D = true -> partition_local p) ->
    nth_error (pa_parts p) r = Some (o, s) -> holds_cols inp s mu (fun i c => X (o + i)%nat c) ->
    exists b, pack_local K D p mu r s inp = Some b /\ holds_rows b s mu (fun i c => X (ui p (o + i)%nat) c).
  Proof.
    intros p X r o s inp Hp Hl E [L V]. unfold pack_local.
    destruct (pack_rows_ok mu s (fun i => do q <- ptr K inp (i * s); if d_perm K D then to_part_local K p r q (vec0 K s) else Some q)
      (fun i c => X (ui p (o + i)%nat) c) (vec0 K (s * mu))) as (b & E1 & _ & E3); [apply length_vec0| |exists b; auto].
    intros i Hi. assert (i * s + s <= s * mu)%nat by nia. unfold ptr. destruct (Nat.leb_spec (i * s) (length inp)); [|lia].
    destruct (local_input K D p (fun a => X a i) r o s (skipn (i * s) inp) Hp Hl E) as [H1 H2].
    { split; [rewrite skipn_length; lia|]. intros a Ha. rewrite get_skipn. rewrite (Nat.add_comm _ a). apply V; assumption. }
    assert (Ep : d_perm K D = true \/ d_perm K D = false) by (destruct (d_perm K D); auto). destruct Ep as [Ep|Ep]; rewrite Ep.
    - destruct (H1 Ep) as (y & F1 & F2 & F3). exists y. split; [exact F1|]. split; [exact F2|]. rewrite Ep in F3. exact F3.
    - destruct (H2 Ep) as [F2 F3]. eexists. split; [reflexivity|]. split; [exact F2|]. rewrite Ep in F3. exact F3.
  Qed.
  Lemma unpack_rows_ok : forall p Y r o s (row out : buf), partition_ok p P -> (d_perm K D = true -> partition_local p) ->
    nth_error (pa_parts p) r = Some (o, s) -> holds_rows row s mu (fun i c => Y (ui p (o + i)%nat) c) -> (s * mu <= length out)%nat ->
    exists b, unpack_rows K D p mu r s row out = Some b /\ only_first (s * mu) out b /\ holds_cols b s mu (fun i c => Y (o + i)%nat c).
  Proof.
    intros p Y r o s row out Hp Hl E Hrow Hout. unfold unpack_rows.
    assert (Ep : d_perm K D = true \/ d_perm K D = false) by (destruct (d_perm K D); auto). destruct Ep as [Ep|Ep]; rewrite Ep.
    - apply (cols_loop mu s); [exact Hout|]. intros i b Hi Lb.
      destruct (row_column mu s i row _ Hrow Hi) as (c & -> & Lc & Vc). assert (i * s + s <= s * mu)%nat by nia.
      destruct (local_output K D p (fun a => Y a i) r o s c (skipn (i * s) b) Hp Hl E) as (w & G1 & [G2 G2'] & [G3 G4]); [lia|exact Vc|rewrite skipn_length; lia|exact Ep|].
      rewrite skipn_length in G2.
      destruct (write_at_0 b (i * s) (fun w => to_user_local K p r c w) w) as (b' & W1 & W2 & W3 & W4); [lia|exact G1|exact G2|].
      exists b'. split; [exact W1|]. split; [exact W2|]. split.
      + intros a Ha. rewrite W4. apply G4. exact Ha.
      + intros q Hq. destruct (Nat.lt_ge_cases q (i * s)) as [Hlt|Hge]; [apply W3; exact Hlt|].
        replace q with (i * s + (q - i * s))%nat by lia. rewrite W4, G2' by lia. apply get_skipn.
    - destruct Hrow as [L V]. rewrite Ep in V.
      destruct (transpose_ok K (fun i j o => mov K row (i + j * mu) (j + i * s) o) (fun i j => (j + i * s)%nat) (fun i j => Y (o + j)%nat i) mu s out) as (b & E1 & E2 & E3 & E4).
      + intros i j i' j' H1 H2 H3 H4 E'. destruct (rows_inj s j i j' i') as [-> ->]; auto; lia.
      + intros i j b Hi Hj Lb _. assert (i * s + s <= s * mu)%nat by nia. assert (j * mu + mu <= s * mu)%nat by nia.
        destruct (mov_ok K row (i + j * mu) (j + i * s) b) as (b' & F1 & F2 & F3); [lia|lia|].
        exists b'. split; [exact F1|]. split; [lia|]. intros q. rewrite F3. destruct (Nat.eqb_spec q (j + i * s)); [|reflexivity].
        rewrite (Nat.add_comm i). rewrite (V j i) by assumption. reflexivity.
      + exists b. split; [exact E1|]. split; [split; [exact E2|]|split; [lia|]].
        * intros q Hq. apply E4. intros i j Hi Hj. nia.
        * intros a c Ha Hc. apply E3; assumption.
  Qed.

  Lemma int_mat_l2l_ok : row_blocks D A (run_mat mu) mu -> forall ins outs works X,
    (forall r o s, (r < P)%nat -> nth_error (pa_parts S) r = Some (o, s) -> holds_rows (at_rank K ins r) s mu (fun i c => X (ui S (o + i)%nat) c)) ->
    (forall r o s, (r < P)%nat -> nth_error (pa_parts T) r = Some (o, s) -> (s * mu <= length (at_rank K outs r))%nat) ->
    (forall r, (r < P)%nat -> (NC * mu <= length (at_rank K works r))%nat) ->
    exists ys, int_mat_l2l K D ins outs works mu = Some ys /\ length ys = P /\
      forall r o s, (r < P)%nat -> nth_error (pa_parts T) r = Some (o, s) ->
        only_first (s * mu) (at_rank K outs r) (at_rank K ys r) /\ holds_rows (at_rank K ys r) s mu (fun i c => mul NC A (fun b => X b c) (ui T (o + i)%nat)).
  Proof.
    intros HB ins outs works X Hin Hout Hw. unfold int_mat_l2l.
    destruct (l2g_source_ok K D HS mu ins works (fun q => X (ui S (q / mu)%nat) (q mod mu)%nat)) as (bs & -> & Lb & Hb).
    { intros r o s Hr E. destruct (Hin r o s Hr E) as [L V]. split; [exact L|]. intros k Hk.
      assert (Hmu : (mu <> 0)%nat) by (intros ->; lia). pose proof (Nat.div_mod k mu Hmu) as Eq. pose proof (Nat.mod_upper_bound k mu Hmu).
      assert (k / mu < s)%nat by (apply Nat.div_lt_upper_bound; lia).
      replace (o * mu + k)%nat with (k mod mu + (o + k / mu) * mu)%nat by lia.
      rewrite Nat.div_add, Nat.mod_add, Nat.div_small, Nat.mod_small by assumption. cbn [Nat.add].
      rewrite <- V by assumption. f_equal. lia. }
    { exact Hw. }
    destruct (on_ranks_ok buf [] P (fun r => int_mat_g2l K D r (at_rank K bs r) (at_rank K outs r) mu)
      (fun r b => forall o s, nth_error (pa_parts T) r = Some (o, s) ->
         only_first (s * mu) (at_rank K outs r) b /\ holds_rows b s mu (fun i c => mul NC A (fun b => X b c) (ui T (o + i)%nat)))) as (ys & E1 & E2 & E3).
    { intros r Hr. destruct (part_nth T P HT r Hr) as (o & s & E & _). destruct (Hb r Hr) as [L V].
      destruct (int_mat_user HB r o s (at_rank K bs r) (at_rank K outs r) X E) as (y & G1 & G2 & G3).
      { split; [exact L|]. intros j c Hj Hc. rewrite V by nia. rewrite (Nat.add_comm _ c), Nat.div_add, Nat.mod_add, Nat.div_small, Nat.mod_small by lia. reflexivity. }
      { exact (Hout r o s Hr E). }
      exists y. split; [exact G1|]. intros o' s' E'. rewrite E in E'. injection E' as <- <-. auto. }
    exists ys. split; [exact E1|]. split; [exact E2|]. intros r o s Hr E. exact (E3 r Hr o s E).
  Qed.

  Theorem mat_l2l_ok : row_blocks D A (run_mat mu) mu -> forall ins outs works X,
    (forall r o s, (r < P)%nat -> nth_error (pa_parts S) r = Some (o, s) -> holds_cols (at_rank K ins r) s mu (fun i c => X (o + i)%nat c)) ->
    (forall r o s, (r < P)%nat -> nth_error (pa_parts T) r = Some (o, s) -> (s * mu <= length (at_rank K outs r))%nat) ->
    (forall r, (r < P)%nat -> (NC * mu <= length (at_rank K works r))%nat) ->
    exists ys, mat_l2l K D ins outs works mu = Some ys /\ length ys = P /\
      forall r o s, (r < P)%nat -> nth_error (pa_parts T) r = Some (o, s) ->
        only_first (s * mu) (at_rank K outs r) (at_rank K ys r) /\
        holds_cols (at_rank K ys r) s mu (fun i c => mul NC A (fun b => X b c) (o + i)%nat).
  Proof.
    intros HB ins outs works X Hin Hout Hw. unfold mat_l2l.
    destruct (on_ranks_ok buf [] P (fun r => do s <- part_size S r; pack_local K D S mu r s (at_rank K ins r))
      (fun r b => forall o s, nth_error (pa_parts S) r = Some (o, s) -> holds_rows b s mu (fun i c => X (ui S (o + i)%nat) c))) as (ip & -> & Lip & Hip).
    { intros r Hr. destruct (part_nth S P HS r Hr) as (o & s & E & _). destruct (part_size_ok S r o s E) as [-> _].
      destruct (pack_local_ok S X r o s (at_rank K ins r) HS HSl E (Hin r o s Hr E)) as (y & E1 & E2).
      exists y. split; [exact E1|]. intros o' s' E'. rewrite E in E'. injection E' as <- <-. exact E2. }
    destruct (vecs0_ok K D T HT mu) as (op & -> & Lop & Hop).
    destruct (int_mat_l2l_ok HB ip op works X) as (os & -> & Los & Hos).
    { intros r o s Hr E. exact (Hip r Hr o s E). }
    { intros r o s Hr E. destruct (Hop r o s Hr E) as [-> _]. lia. }
    { exact Hw. }
    destruct (on_ranks_ok buf [] P (fun r => do s <- part_size T r; unpack_rows K D T mu r s (at_rank K os r) (at_rank K outs r))
      (fun r b => forall o s, nth_error (pa_parts T) r = Some (o, s) ->
        only_first (s * mu) (at_rank K outs r) b /\ holds_cols b s mu (fun i c => mul NC A (fun b => X b c) (o + i)%nat))) as (ys & E1 & E2 & E3).
    { intros r Hr. destruct (part_nth T P HT r Hr) as (o & s & E & _). destruct (part_size_ok T r o s E) as [-> _].
      destruct (unpack_rows_ok T (fun a c => mul NC A (fun b => X b c) a) r o s (at_rank K os r) (at_rank K outs r) HT HTl E) as (b & G1 & G2).
      { exact (proj2 (Hos r o s Hr E)). }
      { exact (Hout r o s Hr E). }
      exists b. split; [exact G1|]. intros o' s' E'. rewrite E in E'. injection E' as <- <-. exact G2. }
    exists ys. split; [exact E1|]. split; [exact E2|]. intros r o s Hr E. exact (E3 r Hr o s E).
  Qed.

  (** The output of the internal function is not cleared by it: the caller gives zeros. *)
  Lemma int_tmat_l2l_ok : (d_sym K D <> SyS /\ d_sym K D <> SyH) -> tblocks -> forall ins outs works X,
    (forall r o s, (r < P)%nat -> nth_error (pa_parts T) r = Some (o, s) -> holds_rows (at_rank K ins r) s mu (fun i c => X (ui T (o + i)%nat) c)) ->
    (forall r o s, (r < P)%nat -> nth_error (pa_parts S) r = Some (o, s) -> (s * mu <= length (at_rank K outs r))%nat) ->
    (forall r o s, (r < P)%nat -> nth_error (pa_parts S) r = Some (o, s) -> (NC * mu + P * (s * mu) <= length (at_rank K works r))%nat) ->
    exists ys, int_tmat_l2l K D ins outs works mu = Some ys /\ length ys = P /\
      forall r o s, (r < P)%nat -> nth_error (pa_parts S) r = Some (o, s) ->
        only_first (s * mu) (at_rank K outs r) (at_rank K ys r) /\
        holds_rows (at_rank K ys r) s mu (fun j c => get (at_rank K outs r) (j * mu + c) + tmul NR A (fun a => X a c) (ui S (o + j)%nat)).
  Proof.
    intros [Hs1 Hs2] HB ins outs works X Hin Hout Hw. unfold int_tmat_l2l.
    assert (E0 : forall U (a b : U), match d_sym K D with SyS | SyH => a | _ => b end = b).
    { intros U a b. destruct (d_sym K D); congruence. }
    rewrite E0. clear E0.
    assert (Hw' : forall r, (r < P)%nat -> (NC * mu <= length (at_rank K works r))%nat).
    { intros r Hr. destruct (part_nth S P HS r Hr) as (o & s & E & _). specialize (Hw r o s Hr E). lia. }
    destruct (tparts_ok HB ins works X Hin Hw') as (parts & -> & HL & HF & HV).
    rewrite (part_counts_ok S P HS mu).
    destruct (on_ranks_ok buf [] P (fun r =>
            do s <- part_size S r;
            let rc := map (fun _ => (s * mu)%nat) (seq 0 P) in
            do rbuf <- ptr K (at_rank K parts r) (nc K D * mu);
            do rb <- alltoallv K P (map (fun os => (snd os * mu)%nat) (pa_parts S)) (prefix_sums 0 (map (fun os => (snd os * mu)%nat) (pa_parts S))) rc (prefix_sums 0 rc) parts r rbuf;
            fold_opt K (fun i o => do q <- ptr K rb (nth i (prefix_sums 0 rc) 0%nat); axpy K (s * mu) 1 q o) (seq 0 P) (at_rank K outs r))
      (fun r b => forall o s, nth_error (pa_parts S) r = Some (o, s) ->
        only_first (s * mu) (at_rank K outs r) b /\
        holds_rows b s mu (fun j c => get (at_rank K outs r) (j * mu + c) + tmul NR A (fun a => X a c) (ui S (o + j)%nat)))) as (ys & E1 & E2 & E3).
    { intros r Hr. destruct (part_nth S P HS r Hr) as (o & s & E & _). destruct (part_size_ok S r o s E) as [-> _]. pose proof (Hout r o s Hr E) as Ho.
      destruct (exchange_ok K D HS mu parts r o s (at_rank K outs r) (fun q => tmul NR A (fun a => X a (q mod mu)%nat) (ui S (q / mu)%nat)) E HL Hr) as (y & G1 & G2 & G3).
      { intros j Hj. destruct (HF j Hj) as [Lj _]. rewrite Lj. destruct (Nat.eq_dec j r) as [->|Hne].
        - left. specialize (Hw r o s Hr E). lia.
        - right. split; [exact Hne|]. specialize (Hw' j Hj). lia. }
      { exact Ho. }
      { intros q Hq. rewrite (lsum_parts K D parts q HL).
        assert (Hmu : (mu <> 0)%nat) by (intros ->; lia). pose proof (Nat.div_mod q mu Hmu) as Eq. pose proof (Nat.mod_upper_bound q mu Hmu).
        assert (q / mu < NC)%nat by (apply Nat.div_lt_upper_bound; lia).
        rewrite <- HV by assumption. apply lsum_ext. intros b _. f_equal. lia. }
      exists y. split; [exact G1|]. intros o' s' E'. rewrite E in E'. injection E' as <- <-. split; [exact G2|]. split; [destruct G2 as [G2 _]; rewrite G2; exact Ho|].
      intros j c Hj Hc. rewrite G3 by nia. f_equal. replace (o * mu + (j * mu + c))%nat with (c + (o + j) * mu)%nat by lia.
      rewrite Nat.div_add, Nat.mod_add, Nat.div_small, Nat.mod_small by lia. reflexivity. }
    exists ys. split; [exact E1|]. split; [exact E2|]. intros r o s Hr E. exact (E3 r Hr o s E).
  Qed.

  Theorem tmat_l2l_plain_ok : (d_sym K D <> SyS /\ d_sym K D <> SyH) -> tblocks -> forall ins outs works X,
    (forall r o s, (r < P)%nat -> nth_error (pa_parts T) r = Some (o, s) -> holds_cols (at_rank K ins r) s mu (fun i c => X (o + i)%nat c)) ->
    (forall r o s, (r < P)%nat -> nth_error (pa_parts S) r = Some (o, s) -> (s * mu <= length (at_rank K outs r))%nat) ->
    (forall r o s, (r < P)%nat -> nth_error (pa_parts S) r = Some (o, s) -> (NC * mu + P * (s * mu) <= length (at_rank K works r))%nat) ->
    exists ys, tmat_l2l K D ins outs works mu = Some ys /\ length ys = P /\
      forall r o s, (r < P)%nat -> nth_error (pa_parts S) r = Some (o, s) ->
        only_first (s * mu) (at_rank K outs r) (at_rank K ys r) /\
        holds_cols (at_rank K ys r) s mu (fun i c => tmul NR A (fun a => X a c) (o + i)%nat).
  Proof.
    intros Hsym HB ins outs works X Hin Hout Hw. unfold tmat_l2l.
    assert (E0 : forall U (a b c : U), match d_sym K D with SyS => a | SyH => b | _ => c end = c).
    { intros U a b c. destruct Hsym as [Hs1 Hs2]. destruct (d_sym K D); congruence. }
    rewrite E0. clear E0.
    destruct (on_ranks_ok buf [] P (fun r => do s <- part_size T r; pack_local K D T mu r s (at_rank K ins r))
      (fun r b => forall o s, nth_error (pa_parts T) r = Some (o, s) -> holds_rows b s mu (fun i c => X (ui T (o + i)%nat) c))) as (ip & -> & Lip & Hip).
    { intros r Hr. destruct (part_nth T P HT r Hr) as (o & s & E & _). destruct (part_size_ok T r o s E) as [-> _].
      destruct (pack_local_ok T X r o s (at_rank K ins r) HT HTl E (Hin r o s Hr E)) as (y & E1 & E2).
      exists y. split; [exact E1|]. intros o' s' E'. rewrite E in E'. injection E' as <- <-. exact E2. }
    destruct (vecs0_ok K D S HS mu) as (op & -> & Lop & Hop).
    destruct (int_tmat_l2l_ok Hsym HB ip op works X) as (os & -> & Los & Hos).
    { intros r o s Hr E. exact (Hip r Hr o s E). }
    { intros r o s Hr E. destruct (Hop r o s Hr E) as [-> _]. lia. }
    { exact Hw. }
    destruct (on_ranks_ok buf [] P (fun r => do s <- part_size S r; unpack_rows K D S mu r s (at_rank K os r) (at_rank K outs r))
      (fun r b => forall o s, nth_error (pa_parts S) r = Some (o, s) ->
        only_first (s * mu) (at_rank K outs r) b /\ holds_cols b s mu (fun i c => tmul NR A (fun a => X a c) (o + i)%nat))) as (ys & E1 & E2 & E3).
    { intros r Hr. destruct (part_nth S P HS r Hr) as (o & s & E & _). destruct (part_size_ok S r o s E) as [-> _].
      destruct (unpack_rows_ok S (fun a c => tmul NR A (fun b => X b c) a) r o s (at_rank K os r) (at_rank K outs r) HS HSl E) as (b & G1 & G2).
      { destruct (Hos r o s Hr E) as [_ [L V]]. split; [exact L|]. intros i c Hi Hc. rewrite V by assumption.
        destruct (Hop r o s Hr E) as [_ Z]. rewrite Z. ring. }
      { exact (Hout r o s Hr E). }
      exists b. split; [exact G1|]. intros o' s' E'. rewrite E in E'. injection E' as <- <-. exact G2. }
    exists ys. split; [exact E1|]. split; [exact E2|]. intros r o s Hr E. exact (E3 r Hr o s E).
  Qed.

  Theorem tmat_l2l_ok : sym_matrix D A -> (d_sym K D = SyS \/ d_sym K D = SyH -> pa_parts T = pa_parts S) ->
    match d_sym K D with SyS | SyH => row_blocks D A (run_mat mu) mu | _ => tblocks end -> forall ins outs works X,
    (forall r o s, (r < P)%nat -> nth_error (pa_parts T) r = Some (o, s) -> holds_cols (at_rank K ins r) s mu (fun i c => X (o + i)%nat c)) ->
    (forall r o s, (r < P)%nat -> nth_error (pa_parts S) r = Some (o, s) -> (s * mu <= length (at_rank K outs r))%nat) ->
    (forall r o s, (r < P)%nat -> nth_error (pa_parts S) r = Some (o, s) -> (NC * mu + P * (s * mu) <= length (at_rank K works r))%nat) ->
    exists ys, tmat_l2l K D ins outs works mu = Some ys /\ length ys = P /\
      forall r o s, (r < P)%nat -> nth_error (pa_parts S) r = Some (o, s) ->
        only_first (s * mu) (at_rank K outs r) (at_rank K ys r) /\
        holds_cols (at_rank K ys r) s mu (fun i c => tmul NR A (fun a => X a c) (o + i)%nat).
  Proof.
    intros Hsym Hparts HB ins outs works X Hin Hout Hw.
    assert (Hw' : forall r, (r < P)%nat -> (NC * mu <= length (at_rank K works r))%nat).
    { intros r Hr. destruct (part_nth S P HS r Hr) as (o & s & E & _). specialize (Hw r o s Hr E). lia. }
    assert (Es : d_sym K D = SyS \/ d_sym K D = SyH \/ (d_sym K D <> SyS /\ d_sym K D <> SyH)).
    { destruct (d_sym K D); auto; right; right; split; discriminate. }
    unfold sym_matrix in Hsym. destruct Es as [Es|[Es|Es]].
    - rewrite Es in *. destruct Hsym as [En Hsym]. specialize (Hparts (or_introl eq_refl)). unfold tmat_l2l. rewrite Es.
      destruct (mat_l2l_ok HB ins outs works X) as (ys & E1 & E2 & E3).
      { intros r o s Hr E. apply (Hin r o s Hr). rewrite Hparts. exact E. }
      { intros r o s Hr E. apply (Hout r o s Hr). rewrite <- Hparts. exact E. }
      { exact Hw'. }
      exists ys. split; [exact E1|]. split; [exact E2|]. intros r o s Hr E. destruct (E3 r o s Hr) as [F V]; [rewrite Hparts; exact E|].
      split; [exact F|]. refine (cols_ext _ _ _ _ _ V). intros i c Hi Hc. apply mul_sym; try assumption.
      pose proof (proj2 (tiles_in _ _ _ _ _ _ (po_tiles _ _ HS) E)). lia.
    - rewrite Es in *. destruct Hsym as [En Hsym]. specialize (Hparts (or_intror eq_refl)). unfold tmat_l2l. rewrite Es.
      destruct (on_ranks_ok buf [] P (fun r => do s <- part_size T r; conj_copy K (s * mu) (at_rank K ins r))
        (fun r b => forall o s, nth_error (pa_parts T) r = Some (o, s) -> holds_cols b s mu (fun i c => cconj K (X (o + i)%nat c)))) as (ic & -> & Lc & Hc).
      { intros r Hr. destruct (part_nth T P HT r Hr) as (o & s & E & _). destruct (part_size_ok T r o s E) as [-> _].
        destruct (conj_copy_cols s _ (at_rank K ins r) _ eq_refl (Hin r o s Hr E)) as (y & E1 & E2).
        exists y. split; [exact E1|]. intros o' s' E'. rewrite E in E'. injection E' as <- <-. exact E2. }
      destruct (mat_l2l_ok HB ic outs works (fun a c => cconj K (X a c))) as (os & -> & E2 & E3).
      { intros r o s Hr E. apply (Hc r Hr o s). rewrite Hparts. exact E. }
      { intros r o s Hr E. apply (Hout r o s Hr). rewrite <- Hparts. exact E. }
      { exact Hw'. }
      destruct (on_ranks_ok buf [] P (fun r => do s <- part_size S r; conj_buf K (s * mu) (at_rank K os r))
        (fun r b => forall o s, nth_error (pa_parts S) r = Some (o, s) ->
          only_first (s * mu) (at_rank K outs r) b /\ holds_cols b s mu (fun i c => tmul NR A (fun a => X a c) (o + i)%nat))) as (ys & F1 & F2 & F3).
      { intros r Hr. destruct (part_nth S P HS r Hr) as (o & s & E & Hos). destruct (part_size_ok S r o s E) as [-> _].
        destruct (E3 r o s Hr) as [F V]; [rewrite Hparts; exact E|].
        destruct (conj_buf_cols s _ (at_rank K os r) _ eq_refl V) as (y & G1 & G2 & G3). exists y. split; [exact G1|].
        intros o' s' E'. rewrite E in E'. injection E' as <- <-. split; [exact (only_first_trans K _ _ _ _ F G2)|].
        refine (cols_ext _ _ _ _ _ G3). intros i c Hi Hc'. apply mul_herm; try assumption. lia. }
      exists ys. split; [exact F1|]. split; [exact F2|]. intros r o s Hr E. exact (F3 r Hr o s E).
    - apply tmat_l2l_plain_ok; try assumption. destruct Es as [Es1 Es2]. revert HB Es1 Es2. destruct (d_sym K D); intros HB Es1 Es2; first [exact HB|congruence].
  Qed.
End D.
